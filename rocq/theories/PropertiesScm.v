(** Final theorems about sampling from a [SampleDAG] (C106) and from the interventional distributions (C107). *)
From Coq Require Import QArith.Qcanon.
From Verif Require Import Py Spec DagModel QMatModel GaussModel ScmModel SpecScm TopoProofs StateProofs ReachProofs QueryProofs CoreProofs PropertiesDag DiscreteModel DiscreteProofs QMatProofs GaussProofs ScmProofs.
#[local] Open Scope Qc_scope.

(** ** C106: samples are the solution of the structural equations *)

(** [sample] returns an array if and only if the array solves the structural equations.  The parents of a node are handed to
    its conditional in one and the same order, whatever the number of rows and the intervention. *)
Theorem C106_sample S (o : oracle) : scm_wf S →
  ∃ ord, orders (s_dag S) ord ∧
    (∀ n m, scm_sample o S n = Ok m ↔ solves S ord n m) ∧
    (∀ iv n m, scm_sample_interventional o S iv n = Ok m ↔ solves_iv S iv ord n m).
Proof.
  intros Hwf. exists (pord S o). split; [by apply pord_orders|]. split.
  - intros n m. rewrite <-solves_empty. by apply sample_iff.
  - intros iv n m. by apply sample_iv_iff.
Qed.
(** The equations have at most one solution. *)
Theorem C106_unique S iv ord n m m' : scm_wf S → orders (s_dag S) ord →
  solves_iv S iv ord n m → solves_iv S iv ord n m' → m = m'.
Proof. apply solves_unique. Qed.
(** It returns if every conditional does, on arrays with a column of the right length for every parent. *)
Theorem C106_total S o n : scm_wf S →
  (∀ v, v ∈ d_nodes (s_dag S) → ∃ f, s_cond S !! v = Some f ∧
    ∀ cs, shaped n (size (parents (s_dag S) v)) cs → ∃ x c, f (Mat n cs) = Ok x ∧ fills n x c) →
  ∃ m, scm_sample o S n = Ok m.
Proof.
  intros Hwf Hf. pose proof Hwf as (Hva & Hac & Hnd & HL). unfold scm_sample.
  destruct (proj1 (C05_topological_sort (s_dag S) o Hva) Hac) as (t & -> & Ht). cbn. unfold zero_cols. rewrite (size_list S Hwf).
  destruct (run_total (s_list S) (d_nodes (s_dag S)) (d_arcs (s_dag S)) Hnd HL (λ _, replicate n 0) (pord S o)) with (F := eqn S ∅ n) (body := scm_node o S n)
    (P := λ c : list Qc, length c = n) (t := t) (m1 := replicate (length (s_list S)) (replicate n 0)) as (m & Hm & _).
  - intros v p Hv Hp%(pord_spec S Hwf). split; [done|]. by apply Hva in Hp as [? _].
  - intros v m' Hv Hm' Hz. rewrite node_eq by done. by apply iv_node_eq.
  - done.
  - apply replicate_length.
  - intros v Hv. by apply (colof_zero (s_list S) (d_nodes (s_dag S))).
  - intros v Hv. apply replicate_length.
  - intros v cs Hv Hlen Hcs. destruct (Hf v Hv) as (f & Hfv & Hall). destruct (Hall cs) as (x & c & Hx & Hc).
    { split; [|done]. rewrite Hlen. unfold pord. apply Permutation_length. rewrite on_perm. done. }
    exists c. split; [|by apply Hc]. apply eqn_mechanism. unfold mechanism. rewrite lookup_empty. by exists f, x.
  - by exists m.
Qed.
(** Only the nodes that an intervened node reaches change: every other node has the column it has without the intervention,
    from the same draws. *)
Theorem C106_untouched S o iv n m m' v c : scm_wf S →
  scm_sample o S n = Ok m → scm_sample_interventional o S iv n = Ok m' →
  v ∈ d_nodes (s_dag S) → (∀ w, w ∈ dom iv → ¬ rtc (λ x y, (x, y) ∈ d_arcs (s_dag S)) w v) →
  column (s_list S) m v c ↔ column (s_list S) m' v c.
Proof.
  intros Hwf Hm Hm' Hv Hr. pose proof (untouched S o iv n m m' v Hwf Hm Hm' Hv Hr) as Heq.
  pose proof Hwf as (Hva & Hac & Hnd & HL).
  apply (sample_iff o S n m Hwf), (solves_iv_iff S Hwf) in Hm as [Hl _]. apply (sample_iv_iff S Hwf), (solves_iv_iff S Hwf) in Hm' as [Hl' _].
  rewrite !column_iff by (done || by apply HL). by rewrite Heq.
Qed.
(** A perfect intervention: the column of the node is what its distribution draws, whatever the rest of the graph. *)
Theorem C106_perfect S o iv n m v g : scm_wf S → scm_sample_interventional o S iv n = Ok m → v ∈ d_nodes (s_dag S) →
  iv !! v = Some (Perfect g) → ∃ x c, g n = Ok x ∧ fills n x c ∧ column (s_list S) m v c.
Proof.
  intros Hwf [_ Hm]%(sample_iv_iff S Hwf) Hv Hiv. destruct (Hm v Hv) as (cs & c & _ & Hmech & Hc). unfold mechanism in Hmech. rewrite Hiv in Hmech.
  destruct Hmech as (x & Hx & Hf). by exists x, c.
Qed.
(** A shift intervention on one node adds the shift to every entry of its column, if the conditional treats rows separately and
    accepts both arrays with two axes and single rows. *)
Theorem C106_shift S o n v q m m' f g c : scm_wf S → v ∈ d_nodes (s_dag S) →
  s_cond S !! v = Some f → rowwise f n (size (parents (s_dag S) v)) g →
  scm_sample o S n = Ok m → scm_sample_interventional o S {[v := Soft (shift_sample q)]} n = Ok m' →
  column (s_list S) m v c → column (s_list S) m' v ((λ y, y + q) <$> c).
Proof.
  intros Hwf Hv Hf [Hg1 Hg2] Hm Hm' Hc. pose proof Hwf as (Hva & Hac & Hnd & HL).
  assert (∀ p, p ∈ pord S o v → colof (s_list S) m p = colof (s_list S) m' p) as Hpar.
  { intros p Hp%(pord_spec S Hwf). apply (untouched S o {[v := Soft (shift_sample q)]} n); [done|done|done|by apply Hva in Hp as [? _]|].
    intros w Hw. rewrite dom_singleton in Hw. apply elem_of_singleton in Hw as ->. intros Hr. apply (Hac v). eapply tc_rtc_l; [exact Hr|by apply tc_once]. }
  assert (∀ p, p ∈ pord S o v → length (colof (s_list S) m p) = n) as Hlens.
  { intros p Hp%(pord_spec S Hwf). apply (sample_iff o S n m Hwf), (solves_iv_iff S Hwf) in Hm as [_ Hm].
    assert (p ∈ d_nodes (s_dag S)) as HpN by (by apply Hva in Hp as [? _]). specialize (Hm p HpN). apply eqn_mechanism in Hm. unfold mechanism in Hm.
    rewrite lookup_empty in Hm. destruct Hm as (? & ? & _ & _ & Hlen & _). done. }
  assert (length (pord S o v) = size (parents (s_dag S) v)) as Hsize by (unfold pord; apply Permutation_length; by rewrite on_perm).
  apply (sample_iff o S n m Hwf), (solves_iv_iff S Hwf) in Hm as [Hl Hm]. apply (sample_iv_iff S Hwf), (solves_iv_iff S Hwf) in Hm' as [Hl' Hm'].
  apply column_iff in Hc as ->; [|done|done|by apply HL]. apply column_iff; [done|done|by apply HL|].
  specialize (Hm v Hv). specialize (Hm' v Hv). unfold eqn in Hm, Hm'. rewrite lookup_empty, Hf in Hm. rewrite lookup_singleton in Hm'.
  assert ((colof (s_list S) m' <$> pord S o v) = (colof (s_list S) m <$> pord S o v)) as Heq.
  { apply list_fmap_ext. intros i p Hp%elem_of_list_lookup_2. symmetry. by apply Hpar. }
  rewrite Heq in Hm'. set (cs := colof (s_list S) m <$> pord S o v) in *.
  assert (length cs = size (parents (s_dag S) v)) as Hcs by (unfold cs; by rewrite fmap_length).
  rewrite Hg1 in Hm. 2: { split; [done|]. intros c (p & -> & Hp)%elem_of_list_fmap. by apply Hlens. }
  erewrite shift_sample_ok in Hm'; [|exact Hf|intros r Hr; exists (Scal (g r)); split; [apply Hg2; congruence|done]].
  cbn in Hm, Hm'. unfold bcast in Hm, Hm'. rewrite !fmap_length, !seq_length, !decide_True in Hm, Hm' by done.
  injection Hm as <-. injection Hm' as <-. by rewrite <-list_fmap_compose.
Qed.

(** The constructor gives such an object for a list of nodes without repetition that has all endpoints of the arcs. *)
Theorem C106_constructor o nodes arcs : NoDup nodes → acyclic arcs → (∀ a b, (a, b) ∈ arcs → a ∈ nodes ∧ b ∈ nodes) →
  ∃ S, sdag_make o nodes arcs = Ok S ∧ scm_wf S ∧ s_list S = nodes ∧ d_arcs (s_dag S) = arcs ∧ s_cond S = ∅ ∧
    ∀ v f, scm_wf (set_conditional v f S).
Proof.
  intros Hnd Hac Hov. unfold sdag_make. destruct (dag_make_ok o (list_to_set nodes) arcs Hac) as [d Hd]. rewrite Hd. cbn.
  apply dag_make_spec in Hd as (Hwf & Hac' & Ha & Hn).
  assert (scm_wf (SDag d nodes ∅)) as HS.
  { split; [by apply wf_views_agree|]. split; [done|]. split; [done|]. intros v. cbn. rewrite Hn. rewrite !elem_of_union, elem_of_list_to_set, !elem_of_map. split; [auto|].
    intros [[H|([a b] & -> & Hab)]|([a b] & -> & Hab)]; [done| |]; by apply Hov in Hab as [? ?]. }
  eexists. split; [done|]. split; [done|]. split; [done|]. split; [done|]. split; [done|]. intros v f. exact HS.
Qed.

Definition zq (z : Z) : Qc := Q2Qc (QArith_base.Qmake z 1).
(** A chain 0 → 1 → 2 of two rows; the conditionals of 1 and 2 treat the rows separately. *)
Definition affine (a b : Qc) (x : nd) : res nd :=
  match x with
  | Mat n [c] => Ok (Vec ((λ y, a * y + b) <$> c))
  | Vec [y] => Ok (Scal (a * y + b))
  | _ => Raise ValueError
  end.
Definition chain_dag : dag := dag_of {[0; 1; 2]}%nat {[(0, 1); (1, 2)]}%nat.
Definition chain_cond : gmap node (nd → res nd) :=
  {[ 0%nat := λ _ : nd, Ok (Vec [1; zq 2]); 1%nat := affine (zq 2) 1; 2%nat := affine (zq 3) 0 ]}.
Definition chain_scm : sdag := SDag chain_dag [2; 0; 1]%nat chain_cond.
Lemma scm_wf_of nodes arcs cond : NoDup nodes → acyclic arcs → (∀ a b, (a, b) ∈ arcs → a ∈ nodes ∧ b ∈ nodes) →
  scm_wf (SDag (dag_of (list_to_set nodes) arcs) nodes cond).
Proof.
  intros Hnd Hac Hov. destruct (C106_constructor oracle0 nodes arcs Hnd Hac Hov) as (S & HS & Hwf & _).
  unfold sdag_make in HS. rewrite dag_of_make in HS by done. injection HS as <-. exact Hwf.
Qed.
Lemma chain_scm_wf : scm_wf chain_scm.
Proof.
  unfold chain_scm, chain_dag. replace ({[0; 1; 2]}%nat : nset) with (list_to_set [2; 0; 1]%nat : nset) by by_vm.
  apply scm_wf_of; [by_vm|by_vm|]. intros a b Hab. set_solver.
Qed.
Example C106_example :
  scm_wf chain_scm ∧
  scm_sample oracle0 chain_scm 2 = Ok [[zq 9; zq 15]; [1; zq 2]; [zq 3; zq 5]] ∧
  scm_sample_interventional oracle0 chain_scm {[1%nat := Soft (shift_sample 1)]} 2 = Ok [[zq 12; zq 18]; [1; zq 2]; [zq 4; zq 6]] ∧
  scm_sample_interventional oracle0 chain_scm {[1%nat := perfect_dist (PConst 1)]} 2 = Ok [[zq 3; zq 3]; [1; zq 2]; [1; 1]] ∧
  scm_sample_interventional oracle0 chain_scm {[1%nat := Neither]} 2 = Ok [[0; 0]; [1; zq 2]; [0; 0]].
Proof. split; [apply chain_scm_wf|]. repeat split; by_vm. Qed.
(** The hypotheses of the totality theorem and of the theorem about shifts hold there. *)
Example C106_total_example :
  (∀ v, v ∈ d_nodes (s_dag chain_scm) → ∃ f, s_cond chain_scm !! v = Some f ∧
    ∀ cs, shaped 2 (size (parents (s_dag chain_scm) v)) cs → ∃ x c, f (Mat 2 cs) = Ok x ∧ fills 2 x c) ∧
  s_cond chain_scm !! 1%nat = Some (affine (zq 2) 1) ∧
  rowwise (affine (zq 2) 1) 2 (size (parents (s_dag chain_scm) 1%nat)) (λ r, zq 2 * default 0 (head r) + 1).
Proof.
  assert (∀ a b cs, shaped 2 1 cs → ∃ c, cs = [c] ∧ length c = 2%nat ∧ affine a b (Mat 2 cs) = Ok (Vec ((λ y, a * y + b) <$> c))) as Haff.
  { intros a b cs [Hl Hc]. destruct cs as [|c [|]]; try done. exists c. split; [done|]. split; [apply Hc; by left|done]. }
  assert (size (parents (s_dag chain_scm) 1%nat) = 1%nat) as H1 by by_vm.
  assert (size (parents (s_dag chain_scm) 2%nat) = 1%nat) as H2 by by_vm.
  split; [|split; [done|]].
  - intros v Hv. assert (v = 0 ∨ v = 1 ∨ v = 2)%nat as Hcase.
    { assert (v ∈ ({[0; 1; 2]}%nat : nset)) as Hv' by (replace ({[0; 1; 2]}%nat : nset) with (d_nodes (s_dag chain_scm)) by by_vm; done). clear -Hv'. set_solver. }
    destruct Hcase as [->|[->| ->]].
    + eexists. split; [done|]. intros cs _. exists (Vec [1; zq 2]), [1; zq 2]. split; [done|]. split; [done|by left].
    + eexists. split; [done|]. intros cs Hcs. rewrite H1 in Hcs. destruct (Haff (zq 2) 1 cs Hcs) as (c & -> & Hc & ->). eexists _, _. split; [done|]. split; [|by left]. by rewrite fmap_length.
    + eexists. split; [done|]. intros cs Hcs. rewrite H2 in Hcs. destruct (Haff (zq 3) 0 cs Hcs) as (c & -> & Hc & ->). eexists _, _. split; [done|]. split; [|by left]. by rewrite fmap_length.
  - rewrite H1. split.
    + intros cs Hcs. destruct (Haff (zq 2) 1 cs Hcs) as (c & -> & Hc & ->). destruct c as [|x [|y [|]]]; done.
    + intros r Hr. destruct r as [|x [|]]; done.
Qed.

(** The order of the arguments of a conditional is not determined by the graph: with two iteration orders of the same set of
    parents the same object gives different samples. *)
Definition collider_scm : sdag :=
  SDag (dag_of {[0; 1; 2]}%nat {[(0, 2); (1, 2)]}%nat) [0; 1; 2]%nat
    {[ 0%nat := λ _ : nd, Ok (Scal 1); 1%nat := λ _ : nd, Ok (Scal 0);
       2%nat := λ x : nd, match x with Mat n (c :: _) => Ok (Vec c) | _ => Raise ValueError end ]}.
Theorem C106_order_refuted :
  ∃ S o o' n m m', scm_wf S ∧ scm_sample o S n = Ok m ∧ scm_sample o' S n = Ok m' ∧ m ≠ m'.
Proof.
  exists collider_scm, oracle0, oracle_rev, 1%nat. eexists [[1]; [0]; [1]], [[1]; [0]; [0]]. split; [|split; [by_vm|split; [by_vm|by_vm]]].
  unfold collider_scm. replace ({[0; 1; 2]}%nat : nset) with (list_to_set [0; 1; 2]%nat : nset) by by_vm.
  apply scm_wf_of; [by_vm|by_vm|]. intros a b Hab. set_solver.
Qed.
(** A conditional that sums over the second axis, which the rows handed over by a shift intervention do not have: [sample] works
    and a shift by 0 raises. *)
Definition row_sums (x : nd) : res nd :=
  match x with
  | Mat n cs => Ok (Vec ((λ i, foldr Qcplus 0 (row_of cs i)) <$> seq 0 n))
  | _ => Raise ValueError
  end.
Theorem C106_shift_refuted :
  ∃ S o n v m, scm_wf S ∧ v ∈ d_nodes (s_dag S) ∧ scm_sample o S n = Ok m ∧
    scm_sample_interventional o S {[v := Soft (shift_sample 0)]} n = Raise ValueError.
Proof.
  exists (SDag chain_dag [2; 0; 1]%nat ((λ _, row_sums) <$> chain_cond)), oracle0, 2%nat, 1%nat. eexists [[0; 0]; [0; 0]; [0; 0]].
  split; [exact chain_scm_wf|]. split; [by_vm|]. split; by_vm.
Qed.
(** Exactly when sampling a shift succeeds: the conditional returns a single number, possibly in an array, for every row. *)
Definition single (y : nd) (q : Qc) : Prop := y = Scal q ∨ y = Vec [q] ∨ ∃ n, y = Mat n [[q]].
Theorem C106_shift_shape (S : sdag) (v : node) f (shift : Qc) (r : nat) (cs : columns) (l : list Qc) : s_cond S !! v = Some f →
  shift_sample shift S v (Mat r cs) = Ok (Vec l) ↔
  length l = r ∧ ∀ i, (i < r)%nat → ∃ y q, f (Vec (row_of cs i)) = Ok y ∧ single y q ∧ l !! i = Some (q + shift).
Proof.
  intros Hf. unfold shift_sample. rewrite Hf. assert (∀ y q, cell y = Ok q ↔ single y q) as Hcell.
  { intros y q. unfold single. split.
    - destruct y as [a|[|a [|]]|n [|[|a [|]] [|]]]; cbn; intros [= <-]; eauto.
    - by intros [->|[->|[n ->]]]. }
  set (body := λ (i : nat) (acc : list Qc), res_bind (f (Vec (row_of cs i))) (λ y, res_bind (cell y) (λ q, Ok (acc ++ [q + shift])))).
  assert (∀ k j acc l', loopR body (seq j k) acc = Ok l' ↔
    ∃ m, l' = acc ++ m ∧ length m = k ∧ ∀ i, (i < k)%nat → ∃ y q, f (Vec (row_of cs (j + i))) = Ok y ∧ single y q ∧ m !! i = Some (q + shift)) as H.
  { intros k. induction k as [|k IH]; intros j acc l'; cbn [seq loopR].
    - split; [intros [= <-]; exists []; rewrite app_nil_r; split_and!; [done..|lia]|].
      intros (m & -> & Hm & _). by rewrite (nil_length_inv m Hm), app_nil_r.
    - unfold body at 1. split.
      + destruct (f (Vec (row_of cs j))) as [y|] eqn:Ey; [|done]. cbn [res_bind]. destruct (cell y) as [q|] eqn:Eq; [|done]. cbn [res_bind].
        intros (m & -> & Hm & Hi)%IH. exists ((q + shift) :: m). split; [by rewrite <-app_assoc|]. split; [cbn; lia|]. intros [|i] Hlt.
        * exists y, q. rewrite Nat.add_0_r. split_and!; [done|by apply Hcell|done].
        * destruct (Hi i) as (y' & q' & ? & ? & ?); [lia|]. exists y', q'. by rewrite <-Nat.add_succ_comm.
      + intros (m & -> & Hm & Hi). destruct (Hi 0%nat) as (y & q & Ey & Hq & Hm0); [lia|]. rewrite Nat.add_0_r in Ey. rewrite Ey. cbn [res_bind].
        apply Hcell in Hq as ->. cbn [res_bind]. destruct m as [|a m]; [done|]. injection Hm0 as ->. apply IH. exists m.
        split; [by rewrite <-app_assoc|]. split; [cbn in Hm; lia|]. intros i Hlt. destruct (Hi (Datatypes.S i)) as (y' & q' & ? & ? & ?); [lia|]. exists y', q'. by rewrite Nat.add_succ_comm. }
  split.
  - destruct (loopR body (seq 0 r) []) as [l'|] eqn:E; [|done]. intros [= <-]. apply H in E as (m & -> & Hm & Hi). done.
  - intros [Hl Hi]. assert (loopR body (seq 0 r) [] = Ok l) as -> by (apply H; by exists l). done.
Qed.
(** A repeated node makes [sample] raise, as does a node that only the arcs mention. *)
Theorem C106_nodes_refuted :
  (∃ S o n, sdag_make o [0; 0]%nat ∅ = Ok S ∧
    scm_sample o (set_conditional 0%nat (λ _, Ok (Scal 0)) S) n = Raise IndexError) ∧
  (∃ S o n, sdag_make o [0]%nat {[(0, 1)]}%nat = Ok S ∧
    scm_sample o (set_conditional 1%nat (λ _, Ok (Scal 0)) (set_conditional 0%nat (λ _, Ok (Scal 0)) S)) n = Raise KeyError).
Proof.
  split.
  - exists (SDag (dag_of {[0%nat]} ∅) [0; 0]%nat ∅), oracle0, 1%nat. split; [|by_vm]. unfold sdag_make.
    replace (list_to_set [0; 0]%nat : nset) with ({[0%nat]} : nset) by by_vm. by rewrite dag_of_make by by_vm.
  - exists (SDag (dag_of {[0%nat]} {[(0, 1)]}%nat) [0]%nat ∅), oracle0, 1%nat. split; [|by_vm]. unfold sdag_make.
    replace (list_to_set [0]%nat : nset) with ({[0%nat]} : nset) by by_vm. by rewrite dag_of_make by by_vm.
Qed.

(** ** C107: samples of mixtures *)

(** A binary mixture: where 1 is chosen the values of the first component, in order, and else those of the second.  Every
    component is asked for exactly as many values as it is chosen. *)
Theorem C107_binary p1 p2 choices n : drawn (PBinary p1 p2 choices) →
  ∃ r v0 v1, perfect_sample (PBinary p1 p2 choices) n = Ok r ∧
    perfect_sample p1 (length (list_filter (λ k, k = 1%nat) _ (choices n))) = Ok v1 ∧
    perfect_sample p2 (length (list_filter (λ k, k = 0%nat) _ (choices n))) = Ok v0 ∧
    mixture (choices n) (λ k, if decide (k = 1%nat) then v1 else v0) r.
Proof.
  intros (H1 & H2 & Hc). destruct (Hc n) as [Hlen Hin]. cbn [perfect_sample]. rewrite <-!where_count.
  destruct (perfect_total p1 (length (where_eq (choices n) 1)) H1) as (v1 & Hv1 & Hl1). rewrite Hv1. cbn [res_bind].
  destruct (scatter_ok (choices n) 1 v1 (replicate n 0) Hl1) as (m1 & -> & Hm1 & Ha & Hb); [by rewrite replicate_length|]. cbn [res_bind].
  destruct (perfect_total p2 (length (where_eq (choices n) 0)) H2) as (v2 & Hv2 & Hl2). rewrite Hv2. cbn [res_bind].
  destruct (scatter_ok (choices n) 0 v2 m1 Hl2) as (m2 & -> & Hm2 & Ha' & Hb'); [done|].
  exists m2, v2, v1. split; [done|]. split; [done|]. split; [done|]. split; [done|]. intros i k Hi.
  assert (k < 2)%nat as Hk by (apply Hin; by eapply elem_of_list_lookup_2). case_decide as Hk1.
  - subst k. rewrite Hb' by (rewrite Hi; congruence). by apply Ha.
  - assert (k = 0%nat) as -> by lia. by apply Ha'.
Qed.
Theorem C107_multinomial pvals ps choices n : drawn (PMulti pvals ps choices) →
  ∃ r draws, perfect_sample (PMulti pvals ps choices) n = Ok r ∧
    (∀ k p, ps !! k = Some p → perfect_sample p (length (list_filter (λ j, j = k) _ (choices n))) = Ok (draws k)) ∧
    mixture (choices n) draws r.
Proof.
  cbn [drawn]. intros (Hps & Hlen & Hnn & Hsum & Hc). rewrite drawn_all in Hps. destruct (Hc n) as [Hcl Hin]. cbn [perfect_sample].
  rewrite decide_True by (split; [done|]; split; [by apply Forall_forall|done]).
  destruct (multi_loop_ok (choices n) ps 0 (replicate n 0)) as (r & draws & Hr & Hrl & Hd & Hrin & _).
  { intros p k Hp. apply perfect_total. by apply Hps. }
  { by rewrite replicate_length. }
  exists r, draws. split; [exact Hr|]. split.
  - intros k p Hk. rewrite <-where_count. by apply Hd.
  - split; [done|]. intros i k Hi. apply Hrin; [done|]. split; [lia|]. apply Hin. by eapply elem_of_list_lookup_2.
Qed.
(** Every distribution gives an array of the length asked for. *)
Theorem C107_length p n : drawn p → ∃ r, perfect_sample p n = Ok r ∧ length r = n.
Proof. apply perfect_total. Qed.
(** A mixture of constants: every entry is the constant of the component chosen for it. *)
Theorem C107_constants pvals vals choices n r i k : drawn (PMulti pvals (PConst <$> vals) choices) →
  perfect_sample (PMulti pvals (PConst <$> vals) choices) n = Ok r → choices n !! i = Some k → r !! i = vals !! k.
Proof.
  intros Hdr Hr Hi. pose proof Hdr as (_ & _ & _ & _ & Hc). destruct (C107_multinomial _ _ _ n Hdr) as (r' & draws & Hr' & Hd & Hmix).
  rewrite Hr in Hr'. injection Hr' as <-. destruct Hmix as [Hl Hmix]. rewrite (Hmix i k Hi).
  assert (k < length (PConst <$> vals))%nat as Hk by (apply (Hc n); by eapply elem_of_list_lookup_2). rewrite fmap_length in Hk.
  destruct (lookup_lt_is_Some_2 vals k Hk) as [q Hq]. rewrite Hq.
  specialize (Hd k (PConst q)). rewrite list_lookup_fmap, Hq in Hd. specialize (Hd eq_refl). cbn in Hd. injection Hd as <-.
  apply lookup_replicate_2. rewrite <-where_count. pose proof (where_eq_rank _ _ _ Hi) as Hrank. by eapply lookup_lt_Some.
Qed.
Example C107_example :
  let p := PMulti [Q2Qc (QArith_base.Qmake 1 2); Q2Qc (QArith_base.Qmake 1 4); Q2Qc (QArith_base.Qmake 1 4)] [PConst 0; PGauss (λ n, (λ i, zq (Z.of_nat i)) <$> seq 5 n); PBinary (PConst 1) (PConst (zq 2)) (λ n, (λ i, i `mod` 2)%nat <$> seq 0 n)]
    (λ n, (λ i, i `mod` 3)%nat <$> seq 0 n) in
  drawn p ∧ perfect_sample p 8 = Ok [0; zq 5; zq 2; 0; zq 6; 1; 0; zq 7].
Proof.
  cbn zeta. split; [|by_vm]. cbn [drawn length]. split; [split; [done|]; split; [|split; [|done]]|].
  - intros n. by rewrite fmap_length, seq_length.
  - split; [done|]. split; [done|]. intros n. split; [by rewrite fmap_length, seq_length|]. intros k (i & -> & _)%elem_of_list_fmap. apply Nat.mod_upper_bound. done.
  - split; [done|]. split; [|split; [by_vm|]].
    + intros x Hx. apply (proj1 (Forall_forall (λ x, 0 <= x) [Q2Qc (QArith_base.Qmake 1 2); Q2Qc (QArith_base.Qmake 1 4); Q2Qc (QArith_base.Qmake 1 4)])); [|done]. by_vm.
    + intros n. split; [by rewrite fmap_length, seq_length|]. intros k (i & -> & _)%elem_of_list_fmap. apply Nat.mod_upper_bound. done.
Qed.
(** Probabilities that are not those of a distribution on the components raise. *)
Theorem C107_probabilities pvals ps choices n :
  ¬ (length pvals = length ps ∧ (∀ x, x ∈ pvals → 0 <= x) ∧ foldr Qcplus 0 pvals = 1) →
  perfect_sample (PMulti pvals ps choices) n = Raise ValueError.
Proof.
  intros H. cbn [perfect_sample]. rewrite decide_False; [done|]. intros (? & Hf & ?). apply H. split; [done|]. split; [|done]. by apply Forall_forall.
Qed.
(** [pdf] of a constant is one number for the whole array: the density of a mixture of two constants is 0 on an array with both
    values, which is a sample of the mixture. *)
Theorem C107_pdf_refuted :
  ∃ a b choices n r, drawn (PBinary (PConst a) (PConst b) choices) ∧
    perfect_sample (PBinary (PConst a) (PConst b) choices) n = Ok r ∧
    (∀ x, x ∈ r → x = a ∨ x = b) ∧
    ∀ p, p * const_pdf a r + (1 - p) * const_pdf b r = 0.
Proof.
  exists 0, 1, (λ n, (λ i, i `mod` 2)%nat <$> seq 0 n), 2%nat, [1; 0]. split; [|split; [by_vm|split]].
  - split; [done|]. split; [done|]. intros n. split; [by rewrite fmap_length, seq_length|]. intros k (i & -> & _)%elem_of_list_fmap. apply Nat.mod_upper_bound. done.
  - intros x Hx. repeat (apply elem_of_cons in Hx as [->|Hx]; [auto|]). by apply elem_of_nil in Hx.
  - intros p. replace (const_pdf 0 [1; 0]) with 0 by by_vm. replace (const_pdf 1 [1; 0]) with 0 by by_vm. ring.
Qed.

Print Assumptions C106_sample.
Print Assumptions C106_unique.
Print Assumptions C106_total.
Print Assumptions C106_untouched.
Print Assumptions C106_perfect.
Print Assumptions C106_shift.
Print Assumptions C106_constructor.
Print Assumptions C106_order_refuted.
Print Assumptions C106_shift_refuted.
Print Assumptions C106_shift_shape.
Print Assumptions C106_nodes_refuted.
Print Assumptions C107_binary.
Print Assumptions C107_multinomial.
Print Assumptions C107_length.
Print Assumptions C107_constants.
Print Assumptions C107_probabilities.
Print Assumptions C107_pdf_refuted.
