(** Final theorems about causal additive models: C108. *)
From Coq Require Import QArith.Qcanon Field.
From Verif Require Import Py Spec DagModel QMatModel GaussModel ScmModel CamModel PropertiesDag SpecScm SpecCam TopoProofs StateProofs ReachProofs QueryProofs CoreProofs DiscreteModel DiscreteProofs QMatProofs GaussProofs ScmProofs CamProofs PropertiesScm.
#[local] Open Scope Qc_scope.

(** ** C108: samples and conditional means of a [CamDAG] solve the equations of the model *)

Theorem C108_sample C (o : oracle) : cam_wf C →
  ∃ ord, orders (cm_dag C) ord ∧
    (∀ n m, cam_sample o C n = Ok m ↔ cam_solves C ord n m) ∧
    (∀ n K vals m, NoDup K → (∀ v, v ∈ K → v ∈ d_nodes (cm_dag C)) → length K = length vals →
      conditional_mean o C n vals K false = Ok m ↔ mean_solves C ord n K vals m).
Proof.
  intros Hwf. exists (cord C o). split; [by apply cord_orders|]. split.
  - intros n m. by apply cam_sample_iff.
  - intros n K vals m HK HKN Hl. by apply conditional_mean_iff.
Qed.
(** If the mean functions go by the names of the parents, the samples do not depend on the iteration order of sets. *)
Theorem C108_names C o o' n m : cam_wf C → (∀ v f, cm_mean C !! v = Some f → by_name f) →
  cam_sample o C n = Ok m ↔ cam_sample o' C n = Ok m.
Proof.
  intros Hwf Hn. rewrite !cam_sample_run by done.
  assert (∀ v, ceqn C o n v (colof (cm_list C) m <$> cord C o v) = ceqn C o' n v (colof (cm_list C) m <$> cord C o' v)) as Heq; [|by setoid_rewrite Heq].
  intros v. unfold ceqn. f_equal. unfold cmeans. assert (cord C o v ≡ₚ cord C o' v) as Hperm by (unfold cord; by rewrite !on_perm).
  destruct (decide (cord C o v = [])) as [H|H].
  - rewrite decide_True; [done|]. rewrite H in Hperm. by apply Permutation_nil in Hperm.
  - rewrite decide_False. 2: { intros H'. rewrite H' in Hperm. apply H. apply Permutation_nil. by symmetry. }
    destruct (cm_mean C !! v) as [f|] eqn:Ef; [|done]. apply (Hn v f Ef); [by rewrite fmap_length|by rewrite fmap_length|].
    assert (∀ l : list node, zip l (colof (cm_list C) m <$> l) = (λ p, (p, colof (cm_list C) m p)) <$> l) as Hzip.
    { intros l. induction l as [|p l IH]; cbn; [done|]. by rewrite IH. }
    rewrite !Hzip. by apply fmap_Permutation.
Qed.
(** With [check_valid] the given nodes must contain their parents. *)
Theorem C108_check_valid C o n vals K : views_agree (cm_dag C) → K ≠ [] → length K = length vals →
  ((∀ p v, v ∈ K → (p, v) ∈ d_arcs (cm_dag C) → p ∈ K) → conditional_mean o C n vals K true = conditional_mean o C n vals K false) ∧
  (¬ (∀ p v, v ∈ K → (p, v) ∈ d_arcs (cm_dag C) → p ∈ K) → conditional_mean o C n vals K true = Raise ValueError).
Proof.
  intros Hva HK Hl. unfold conditional_mean. rewrite !(decide_True (P := length K = length vals)) by done. unfold cond_valid. rewrite decide_False by done.
  assert (⋃ (parents (cm_dag C) <$> K) ⊆ list_to_set K ↔ ∀ p v, v ∈ K → (p, v) ∈ d_arcs (cm_dag C) → p ∈ K) as Hiff.
  { split.
    - intros Hs p v Hv Hp. apply (elem_of_list_to_set (C:=nset)). apply Hs. apply elem_of_union_list. exists (parents (cm_dag C) v). split; [|by apply (proj1 Hva)].
      apply elem_of_list_fmap. by exists v.
    - intros H p (X & HX & Hp)%elem_of_union_list. apply elem_of_list_fmap in HX as (v & -> & Hv). apply elem_of_list_to_set. apply (H p v Hv). by apply (proj1 Hva). }
  destruct (decide (⋃ (parents (cm_dag C) <$> K) ⊆ list_to_set K)) as [Hs|Hs]; split; intros H; [done| |exfalso|done].
  - exfalso. by apply H, Hiff.
  - by apply Hs, Hiff.
Qed.
(** Without noise the conditional mean given the columns of some nodes of a sample is the whole sample, if nodes without
    parents have the mean function 0. *)
Theorem C108_noise_free C o n m K vals : cam_wf C → NoDup K → (∀ v, v ∈ K → v ∈ d_nodes (cm_dag C)) →
  (∀ v e x, cm_noise C !! v = Some e → e n = Ok x → x = replicate n 0) →
  (∀ v, v ∈ d_nodes (cm_dag C) → v ∉ K → (∀ p, (p, v) ∉ d_arcs (cm_dag C)) →
    ∃ f, cm_mean C !! v = Some f ∧ f [] n [] = Ok (replicate n 0)) →
  cam_sample o C n = Ok m → Forall2 (column (cm_list C) m) K vals → conditional_mean o C n vals K false = Ok m.
Proof.
  intros Hwf HK HKN Hz Hroot Hm Hvals. pose proof Hwf as (Hva & Hac & Hnd & HL).
  apply conditional_mean_iff; [done|done|done|by apply Forall2_length in Hvals|].
  apply (cam_sample_iff C Hwf) in Hm as [Hl Hm].
  assert (∀ v c, v ∈ d_nodes (cm_dag C) → column (cm_list C) m v c → length c = n) as Hcl.
  { intros v c Hv Hc. destruct (Hm v Hv) as (cs & means & e & noise & c' & _ & _ & _ & _ & _ & (mm & nn & [Hmm _] & [Hnn _] & ->) & Hc').
    apply column_iff in Hc, Hc'; [|done|done|by apply HL|done|done|by apply HL]. rewrite Hc, <-Hc'. rewrite zip_with_length. lia. }
  split; [done|]. split.
  - intros i v x Hi Hx. destruct (Forall2_lookup_lr _ _ _ _ _ _ Hvals Hi Hx) as (k & Hk & Hc).
    exists x. split; [|by exists k]. split; [|by left]. eapply (Hcl v); [apply HKN; by eapply elem_of_list_lookup_2|by exists k].
  - intros v Hv HvK. destruct (Hm v Hv) as (cs & means & e & noise & c & Hcs & H1 & H2 & He & Hn & (mm & nn & Hmm & Hnn & ->) & Hc).
    assert (zip_with Qcplus mm nn = mm) as Hadd.
    { pose proof (Hz v e noise He Hn) as ->. apply fills_vec in Hnn. unfold bcast in Hnn. rewrite decide_True in Hnn by apply replicate_length. injection Hnn as <-.
      destruct Hmm as [<- _]. rewrite zip_replicate_r. rewrite <-(list_fmap_id mm) at 2. apply list_fmap_ext. intros. cbn. ring. }
    rewrite Hadd in Hc. destruct (decide (cord C o v = [])) as [Hnil|Hne].
    + destruct (Hroot v Hv HvK) as (f & Hf & Hfx). { intros p Hp%(cord_spec C Hwf o). rewrite Hnil in Hp. by apply elem_of_nil in Hp. }
      rewrite Hnil in Hcs. apply Forall2_nil_inv_l in Hcs as ->. exists [], f, (replicate n 0), mm. rewrite Hnil. split; [done|]. split; [done|]. split; [done|]. split; [|done].
      by rewrite <-(H1 Hnil).
    + destruct (H2 Hne) as (f & Hf & Hfx). by exists cs, f, means, mm.
Qed.

(** ** Averages of linear models *)
Lemma total_app l1 l2 : total (l1 ++ l2) = total l1 + total l2.
Proof. unfold total. induction l1 as [|x l1 IH]; cbn; [ring|]. rewrite IH. ring. Qed.
Lemma total_zip l1 l2 : length l1 = length l2 → total (zip_with Qcplus l1 l2) = total l1 + total l2.
Proof.
  revert l2. induction l1 as [|x l1 IH]; intros [|y l2] Hl; try done. cbn. fold (total (zip_with Qcplus l1 l2)). rewrite IH by (cbn in Hl; lia).
  fold (total l1) (total l2). ring.
Qed.
Lemma qn_S n : qn (S n) = qn n + 1.
Proof. unfold qn. rewrite Nat2Z.inj_succ. apply Qc_is_canon. cbn. rewrite !QArith.Qreduction.Qred_correct. unfold Z.succ. rewrite QArith_base.inject_Z_plus. reflexivity. Qed.
Lemma total_seq_const n b (f : nat → Qc) : total ((λ i, b + f i) <$> seq 0 n) = qn n * b + total (f <$> seq 0 n).
Proof.
  induction n as [|n IH]; [cbn; replace (qn 0) with 0 by by_vm; ring|]. rewrite seq_S, !fmap_app, !total_app, IH, qn_S. cbn. ring.
Qed.
Lemma total_seq_add n (f g : nat → Qc) : total ((λ i, f i + g i) <$> seq 0 n) = total (f <$> seq 0 n) + total (g <$> seq 0 n).
Proof. induction n as [|n IH]; [cbn; ring|]. rewrite seq_S, !fmap_app, !total_app, IH. cbn. ring. Qed.
Lemma total_seq_scale n a (f : nat → Qc) : total ((λ i, a * f i) <$> seq 0 n) = a * total (f <$> seq 0 n).
Proof. induction n as [|n IH]; [cbn; ring|]. rewrite seq_S, !fmap_app, !total_app, IH. cbn. ring. Qed.
Lemma total_seq_zero n : total ((λ _ : nat, 0) <$> seq 0 n) = 0.
Proof. induction n as [|n IH]; [done|]. rewrite seq_S, !fmap_app, !total_app, IH. cbn. ring. Qed.
Lemma total_column n (c : list Qc) : length c = n → total ((λ i, default 0 (c !! i)) <$> seq 0 n) = total c.
Proof.
  intros <-. f_equal. apply list_eq. intros i. rewrite list_lookup_fmap. destruct (c !! i) as [x|] eqn:Ex.
  - rewrite lookup_seq_lt by (by eapply lookup_lt_Some). cbn. by rewrite Ex.
  - rewrite lookup_seq_ge; [done|]. by apply lookup_ge_None in Ex.
Qed.
Lemma total_dotted n w ps (colf : node → list Qc) : (∀ p, p ∈ ps → length (colf p) = n) →
  total ((λ i, dotted w ps (colf <$> ps) i) <$> seq 0 n) = foldr (λ p acc, w p * total (colf p) + acc) 0 ps.
Proof.
  intros H. induction ps as [|p ps IH]; cbn.
  - apply total_seq_zero.
  - unfold dotted. cbn. fold (dotted w ps (colf <$> ps)). rewrite total_seq_add, total_seq_scale, total_column by (apply H; by left).
    f_equal. apply IH. intros q Hq. apply H. by right.
Qed.
(** In a linear model with noise that sums to 0 over the rows, the average of every column of a sample is the conditional mean
    given nothing. *)
Theorem C108_linear C o n m m1 (w : node → node → Qc) (b : node → Qc) v c : cam_wf C →
  (∀ v, v ∈ d_nodes (cm_dag C) → ∃ f, cm_mean C !! v = Some f ∧ linear_mean f (w v) (b v)) →
  (∀ v, (∀ p, (p, v) ∉ d_arcs (cm_dag C)) → b v = 0) →
  (∀ v e x, cm_noise C !! v = Some e → e n = Ok x → length x = n ∧ total x = 0) →
  cam_sample o C n = Ok m → conditional_mean o C 1 [] [] false = Ok m1 →
  v ∈ d_nodes (cm_dag C) → column (cm_list C) m v c → ∃ q, column (cm_list C) m1 v [q] ∧ total c = qn n * q.
Proof.
  intros Hwf Hlin Hb Hz Hm Hm1. pose proof Hwf as (Hva & Hac & Hnd & HL).
  apply (cam_sample_iff C Hwf) in Hm as [Hl Hm].
  apply (conditional_mean_iff C Hwf) in Hm1 as (Hl1 & _ & Hm1); [|constructor|intros v' Hv'; by apply elem_of_nil in Hv'|done].
  destruct (proj1 (C05_topological_sort (cm_dag C) o Hva) Hac) as (t & _ & Ht).
  intros Hv Hc. apply column_iff in Hc as ->; [|done|done|by apply HL].
  cut (length (colof (cm_list C) m v) = n ∧ ∃ q, colof (cm_list C) m1 v = [q] ∧ total (colof (cm_list C) m v) = qn n * q).
  { intros (_ & q & Hq & Htot). exists q. split; [|done]. apply column_iff; [done|done|by apply HL|done]. }
  assert (∃ k, t !! k = Some v) as [k Hk] by (apply elem_of_list_lookup; by apply Ht).
  revert v Hv Hk. induction (lt_wf k) as [k _ IH]. intros v Hv Hk.
  assert (∀ p, p ∈ cord C o v → length (colof (cm_list C) m p) = n ∧ ∃ q, colof (cm_list C) m1 p = [q] ∧ total (colof (cm_list C) m p) = qn n * q) as IHp.
  { intros p Hp%(cord_spec C Hwf). assert (p ∈ d_nodes (cm_dag C)) as HpN by (by apply Hva in Hp as [? _]).
    assert (∃ j, t !! j = Some p) as [j Hj] by (apply elem_of_list_lookup; by apply Ht).
    eapply (IH j); [|done|done]. by eapply Ht. }
  destruct (Hlin v Hv) as (f & Hf & Hlf).
  destruct (Hm1 v Hv) as (cs1 & f1 & x1 & c1 & Hcs1 & Hf1 & Hx1 & Hfill1 & Hc1); [by apply not_elem_of_nil|].
  rewrite Hf in Hf1. injection Hf1 as <-. rewrite Hlf in Hx1. injection Hx1 as <-.
  apply columns_iff in Hcs1 as ->; [|done|done|intros; by eapply cord_in]. apply column_iff in Hc1 as ->; [|done|done|by apply HL].
  apply fills_vec in Hfill1. unfold bcast in Hfill1. rewrite decide_True in Hfill1 by done. cbn in Hfill1. injection Hfill1 as Hfill1.
  destruct (Hm v Hv) as (cs & means & e & noise & c & Hcs & H1 & H2 & He & Hn & (mm & nn & Hmm & Hnn & ->) & Hc).
  apply columns_iff in Hcs as ->; [|done|done|intros; by eapply cord_in]. apply column_iff in Hc as <-; [|done|done|by apply HL].
  destruct (Hz v e noise He Hn) as [Hln Hsn]. apply fills_vec in Hnn. rewrite <-Hln in Hnn at 1. rewrite bcast_self in Hnn. injection Hnn as <-.
  split; [destruct Hmm as [Hmm _]; rewrite zip_with_length; lia|].
  eexists. split; [by rewrite <-Hfill1|].
  assert (mm = (λ i, b v + dotted (w v) (cord C o v) (colof (cm_list C) m <$> cord C o v) i) <$> seq 0 n) as ->.
  { destruct (decide (cord C o v = [])) as [Hnil|Hne].
    - rewrite (H1 Hnil) in Hmm. apply fills_vec in Hmm. unfold bcast in Hmm. rewrite decide_True in Hmm by apply replicate_length. injection Hmm as <-.
      rewrite Hnil. cbn. rewrite (Hb v) by (intros p Hp%(cord_spec C Hwf o); rewrite Hnil in Hp; by apply elem_of_nil in Hp).
      clear. symmetry. apply const_replicate. split; [by rewrite fmap_length, seq_length|]. intros y (i & -> & _)%elem_of_list_fmap. unfold dotted. cbn. ring.
    - destruct (H2 Hne) as (f' & Hf' & Hx). rewrite Hf in Hf'. injection Hf' as <-. rewrite Hlf in Hx. injection Hx as <-.
      apply fills_vec in Hmm. unfold bcast in Hmm. rewrite decide_True in Hmm by (by rewrite fmap_length, seq_length). by injection Hmm as <-. }
  rewrite total_zip by (by rewrite fmap_length, seq_length, Hln). rewrite Hsn, total_seq_const, total_dotted by (intros p Hp; by apply IHp).
  assert (∀ ps, (∀ p, p ∈ ps → p ∈ cord C o v) → foldr (λ p acc, w v p * total (colof (cm_list C) m p) + acc) 0 ps = qn n * dotted (w v) ps (colof (cm_list C) m1 <$> ps) 0) as Hdot.
  { clear - IHp. intros ps. induction ps as [|p ps IH]; intros Hps; cbn; [unfold dotted; cbn; ring|].
    destruct (IHp p) as (_ & q & Hq & Htot); [apply Hps; by left|]. rewrite IH by (intros p' Hp'; apply Hps; by right). unfold dotted. cbn. rewrite Hq, Htot. cbn. ring. }
  rewrite Hdot by done. ring.
Qed.

(** ** Examples and refutations *)
Lemma cam_wf_of nodes arcs mean noise : NoDup nodes → acyclic arcs → (∀ a b, (a, b) ∈ arcs → a ∈ nodes ∧ b ∈ nodes) →
  cam_wf (Cam (dag_of (list_to_set nodes) arcs) nodes mean noise).
Proof. intros H1 H2 H3. exact (scm_wf_of nodes arcs ∅ H1 H2 H3). Qed.
Definition lin (w : node → Qc) (b : Qc) (cs : columns) (n : nat) (ps : list node) : res (list Qc) := Ok ((λ i, b + dotted w ps cs i) <$> seq 0 n).
Definition swing (n : nat) : res (list Qc) := Ok ((λ i, if decide (S i = n ∧ Nat.even n = false) then 0 else if Nat.even i then 1 else - (1)) <$> seq 0 n).
Definition zeros (n : nat) : res (list Qc) := Ok (replicate n 0).
Definition pair_dag : dag := dag_of (list_to_set [1; 0]%nat) {[(0, 1)]}%nat.
Definition lin_cam : cam := Cam pair_dag [1; 0]%nat {[ 0%nat := lin (λ _, 0) 0; 1%nat := lin (λ _, zq 2) 1 ]} {[ 0%nat := swing; 1%nat := zeros ]}.
Lemma pair_cam_wf mean noise : cam_wf (Cam pair_dag [1; 0]%nat mean noise).
Proof. apply cam_wf_of; [by_vm|by_vm|]. intros a b Hab. set_solver. Qed.
Example C108_example :
  cam_wf lin_cam ∧ cam_sample oracle0 lin_cam 2 = Ok [[zq 3; - (1)]; [1; - (1)]] ∧
  conditional_mean oracle0 lin_cam 1 [] [] false = Ok [[1]; [0]] ∧
  conditional_mean oracle0 lin_cam 1 [[zq 5]] [0%nat] true = Ok [[zq 11]; [zq 5]] ∧
  conditional_mean oracle0 lin_cam 1 [[zq 5]] [1%nat] true = Raise ValueError ∧
  conditional_mean oracle0 lin_cam 1 [[zq 5]] [1%nat] false = Ok [[zq 5]; [0]].
Proof. split; [apply pair_cam_wf|]. repeat split; by_vm. Qed.
(** The hypotheses of [C108_linear] and [C108_names] hold there. *)
Example C108_linear_example :
  (∀ v, v ∈ d_nodes (cm_dag lin_cam) → ∃ f, cm_mean lin_cam !! v = Some f ∧ linear_mean f (λ _, if decide (v = 1%nat) then zq 2 else 0) (if decide (v = 1%nat) then 1 else 0)) ∧
  (∀ v, (∀ p, (p, v) ∉ d_arcs (cm_dag lin_cam)) → (if decide (v = 1%nat) then 1 else 0) = 0) ∧
  (∀ v e x, cm_noise lin_cam !! v = Some e → e 2%nat = Ok x → length x = 2%nat ∧ total x = 0) ∧
  by_name (λ cs n ps, Ok ((λ i, foldr Qcplus 0 (row_of cs i)) <$> seq 0 n)).
Proof.
  split; [|split; [|split]].
  - intros v Hv. assert (v = 0 ∨ v = 1)%nat as Hcase.
    { assert (v ∈ ({[0; 1]}%nat : nset)) as Hv' by (replace ({[0; 1]}%nat : nset) with (d_nodes (cm_dag lin_cam)) by by_vm; done). clear -Hv'. set_solver. }
    destruct Hcase as [-> | ->]; eexists; (split; [done|]); intros n cs ps; done.
  - intros v Hv. destruct (decide (v = 1%nat)) as [->|]; [|done]. exfalso. apply (Hv 0%nat). replace (d_arcs (cm_dag lin_cam)) with ({[(0, 1)]}%nat : arcset) by by_vm. set_solver.
  - intros v e x He Hx. unfold lin_cam in He. cbn [cm_noise] in He. apply lookup_insert_Some in He as [[<- <-]|[_ He]].
    + unfold swing in Hx. injection Hx as <-. split; [done|by_vm].
    + apply lookup_singleton_Some in He as [<- <-]. unfold zeros in Hx. injection Hx as <-. split; [done|by_vm].
  - intros n cs cs' ps ps' H1 H2 Hp. f_equal. apply list_fmap_ext. intros i j _. cbn beta.
    assert (cs ≡ₚ cs') as Hcs.
    { rewrite <-(snd_zip ps cs), <-(snd_zip ps' cs') by lia. by apply fmap_Permutation. }
    assert (row_of cs j ≡ₚ row_of cs' j) as Hr by (by apply fmap_Permutation). clear -Hr.
    induction Hr as [|x l l' _ IH|x y l|l l' l'' _ IH1 _ IH2]; cbn; [done|by rewrite IH|ring|by rewrite IH1].
Qed.
(** The mean function of a node without parents is not needed for samples, but for conditional means. *)
Theorem C108_root_refuted :
  ∃ C o n m, cam_wf C ∧ cam_sample o C n = Ok m ∧ conditional_mean o C n [] [] false = Raise KeyError.
Proof.
  exists (Cam pair_dag [1; 0]%nat {[ 1%nat := lin (λ _, zq 2) 1 ]} {[ 0%nat := swing; 1%nat := zeros ]}), oracle0, 2%nat, [[zq 3; - (1)]; [1; - (1)]].
  split; [apply pair_cam_wf|]. split; by_vm.
Qed.
(** [check_valid] raises for an empty list of nodes, which contains all its parents. *)
Theorem C108_empty_refuted :
  ∃ C o n m, cam_wf C ∧ conditional_mean o C n [] [] false = Ok m ∧ conditional_mean o C n [] [] true = Raise TypeError.
Proof. exists lin_cam, oracle0, 1%nat, [[1]; [0]]. split; [apply pair_cam_wf|]. split; by_vm. Qed.
(** For a mean function that is not linear the conditional mean is not the average: the noise of 0 has the average 0, the values
    of 1, the squares of those of 0, have the average 1, and the conditional mean of 1 is 0. *)
Definition square (cs : columns) (n : nat) (ps : list node) : res (list Qc) := Ok ((λ i, foldr (λ c acc, c * c + acc) 0 (row_of cs i)) <$> seq 0 n).
Theorem C108_average_refuted :
  ∃ C o n m m1 v c, cam_wf C ∧ (∀ v e x, cm_noise C !! v = Some e → e n = Ok x → length x = n ∧ total x = 0) ∧
    cam_sample o C n = Ok m ∧ conditional_mean o C 1 [] [] false = Ok m1 ∧ column (cm_list C) m v c ∧
    column (cm_list C) m1 v [0] ∧ total c = qn n * 1 ∧ n ≠ 0%nat.
Proof.
  exists (Cam pair_dag [1; 0]%nat {[ 0%nat := square; 1%nat := square ]} {[ 0%nat := swing; 1%nat := zeros ]}), oracle0, 2%nat, [[1; 1]; [1; - (1)]], [[0]; [0]], 1%nat, [1; 1].
  split; [apply pair_cam_wf|]. split; [|split; [by_vm|split; [by_vm|split; [by exists 0%nat|split; [by exists 0%nat|split; [by_vm|done]]]]]].
  intros v e x He Hx. cbn [cm_noise] in He. apply lookup_insert_Some in He as [[<- <-]|[_ He]].
  - unfold swing in Hx. injection Hx as <-. split; [done|by_vm].
  - apply lookup_singleton_Some in He as [<- <-]. unfold zeros in Hx. injection Hx as <-. split; [done|by_vm].
Qed.

Print Assumptions C108_sample.
Print Assumptions C108_names.
Print Assumptions C108_check_valid.
Print Assumptions C108_noise_free.
Print Assumptions C108_linear.
Print Assumptions C108_root_refuted.
Print Assumptions C108_empty_refuted.
Print Assumptions C108_average_refuted.
