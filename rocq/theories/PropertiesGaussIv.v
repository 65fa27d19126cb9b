(** Final theorems about [GaussDAG] under soft and mixed interventions: C110. *)
From Coq Require Import QArith.Qcanon Field.
From Verif Require Import Py Spec DagModel QMatModel GaussModel TopoProofs StateProofs ReachProofs CoreProofs MarkovProofs QMatProofs PropertiesDag GaussProofs GaussLoops PropertiesGauss PropertiesGauss2 GaussIvModel SpecGaussIv GaussIvProofs.
#[local] Open Scope Qc_scope.

(** ** C110: soft and mixed interventions *)

(** [sample_interventional]: the row is the solution of the structural equations, with the equations of the intervened nodes
    replaced. *)
Theorem C110_sample (o : oracle) (g : gauss) (n : nat) (iv : gmap node gdist) (dev : vec) :
  gauss_wf g → g_list g = seq 0 n → acyclic (d_arcs (g_dag g)) → length (g_bias g) = n → length (g_var g) = n →
  (∀ v d, (v < n)%nat → iv !! v = Some d → usable false d) →
  ∃ x, giv_row false o g iv dev = Ok x ∧ giv_solves g n (λ v, dev v + vec_of (g_bias g) v) iv x ∧
    ∀ y, giv_solves g n (λ v, dev v + vec_of (g_bias g) v) iv y → ∀ v, (v < n)%nat → y v = x v.
Proof.
  intros Hg Hl Hac Hb Hv Hu. destruct (giv_row_ok g n Hg Hl Hac false o iv dev Hb) as (x & Hx & Hs); [by right|done|].
  exists x. split; [done|]. split; [done|]. intros y Hy v Hvn. by apply (giv_unique g n Hg Hl Hac (λ v, dev v + vec_of (g_bias g) v) iv).
Qed.
(** [sample_interventional_soft]: the same, but the nodes without an intervention lose their biases. *)
Theorem C110_soft (o : oracle) (g : gauss) (n : nat) (iv : gmap node gdist) (dev : vec) :
  gauss_wf g → g_list g = seq 0 n → acyclic (d_arcs (g_dag g)) → length (g_bias g) = n →
  (∀ v d, (v < n)%nat → iv !! v = Some d → usable true d) →
  ∃ x, giv_row true o g iv dev = Ok x ∧ giv_solves g n dev iv x ∧
    ∀ y, giv_solves g n dev iv y → ∀ v, (v < n)%nat → y v = x v.
Proof.
  intros Hg Hl Hac Hb Hu. destruct (giv_row_ok g n Hg Hl Hac true o iv dev Hb) as (x & Hx & Hs); [by left|done|].
  exists x. split; [done|]. split; [done|]. intros y Hy v Hvn. by apply (giv_unique g n Hg Hl Hac dev iv).
Qed.
(** So both methods agree if the nodes without intervention have no bias. *)
Theorem C110_soft_unbiased (o o' : oracle) (g : gauss) (n : nat) (iv : gmap node gdist) (dev : vec) :
  gauss_wf g → g_list g = seq 0 n → acyclic (d_arcs (g_dag g)) → length (g_bias g) = n → length (g_var g) = n →
  (∀ v d, (v < n)%nat → iv !! v = Some d → usable true d) →
  (∀ v, (v < n)%nat → iv !! v = None → vec_of (g_bias g) v = 0) →
  ∃ x y, giv_row true o g iv dev = Ok x ∧ giv_row false o' g iv dev = Ok y ∧ ∀ v, (v < n)%nat → x v = y v.
Proof.
  intros Hg Hl Hac Hb Hv Hu Hz. destruct (C110_soft o g n iv dev Hg Hl Hac Hb Hu) as (x & Hx & Hsx & _).
  destruct (C110_sample o' g n iv dev Hg Hl Hac Hb Hv) as (y & Hy & Hsy & Huniq).
  { intros v d Hvn Hd. specialize (Hu v d Hvn Hd). destruct d; [done|done|]. done. }
  exists x, y. split; [done|]. split; [done|]. apply Huniq. intros v Hvn. specialize (Hsx v Hvn). specialize (Hz v Hvn). unfold giv_equation in *.
  destruct (iv !! v) as [[]|]; try done. rewrite Hsx, (Hz eq_refl). ring.
Qed.
(** An intervention that cannot be used always raises: scaling without a mean in both methods, a perfect intervention in the soft one. *)
Theorem C110_unusable (soft : bool) (o : oracle) (g : gauss) (n : nat) (iv : gmap node gdist) (dev : vec) v d :
  gauss_wf g → g_list g = seq 0 n → acyclic (d_arcs (g_dag g)) → length (g_bias g) = n → length (g_var g) = n →
  (v < n)%nat → iv !! v = Some d → ¬ usable soft d → giv_row soft o g iv dev = Raise TypeError.
Proof. intros Hg Hl Hac Hb Hv. eapply giv_row_bad; [done..|]. by right. Qed.

(** Perfect interventions only: the same rows as [sample_interventional_perfect] from the same draws; none: as [sample]. *)
Theorem C110_perfect (o o' : oracle) (g : gauss) (n : nat) (iv : gmap node Qc) (dev : vec) :
  gauss_wf g → g_list g = seq 0 n → acyclic (d_arcs (g_dag g)) → length (g_bias g) = n → length (g_var g) = n →
  ∃ x y, giv_row false o g (GPerfect <$> iv) dev = Ok x ∧
    sample_row o' g (dom iv) (λ v, default (dev v + vec_of (g_bias g) v) (iv !! v)) = Ok y ∧ ∀ v, (v < n)%nat → x v = y v.
Proof.
  intros Hg Hl Hac Hb Hv. destruct (C110_sample o g n (GPerfect <$> iv) dev Hg Hl Hac Hb Hv) as (x & Hx & Hsx & _).
  { intros v d _ Hd. rewrite lookup_fmap in Hd. destruct (iv !! v); [|done]. by injection Hd as <-. }
  destruct (C76_sample o' g n (dom iv) (λ v, default (dev v + vec_of (g_bias g) v) (iv !! v)) Hg Hl Hac) as (y & Hy & _ & Huniq).
  exists x, y. split; [done|]. split; [done|]. intros v Hvn. symmetry. apply Huniq; [|done]. clear v Hvn. intros v Hvn.
  specialize (Hsx v Hvn). unfold giv_equation in Hsx. rewrite lookup_fmap in Hsx. destruct (iv !! v) as [c|] eqn:Ei; cbn in Hsx.
  - rewrite decide_True by (by apply elem_of_dom). rewrite Hsx. cbn. ring.
  - rewrite decide_False by (by apply not_elem_of_dom). rewrite Hsx. cbn. unfold inflow. ring.
Qed.
(** A shift of one node moves every node by the shift times the total effect, the entry of the inverse of [I - W]. *)
Theorem C110_shift (o o' : oracle) (g : gauss) (n : nat) (dev : vec) (v : node) (s : Qc) (V : mat) :
  gauss_wf g → g_list g = seq 0 n → acyclic (d_arcs (g_dag g)) → length (g_bias g) = n → length (g_var g) = n → (v < n)%nat →
  is_inverse n (msub mid (weight g)) V →
  ∃ x x', giv_row false o g ∅ dev = Ok x ∧ giv_row false o' g {[v := GShift s (dev v)]} dev = Ok x' ∧
    ∀ u, (u < n)%nat → x' u = x u + s * V v u.
Proof.
  intros Hg Hl Hac Hb Hvar Hvn [_ HV]. destruct (C110_sample o g n ∅ dev Hg Hl Hac Hb Hvar) as (x & Hx & Hsx & _); [by intros ? ? _ ?%lookup_empty_Some|].
  destruct (C110_sample o' g n {[v := GShift s (dev v)]} dev Hg Hl Hac Hb Hvar) as (x' & Hx' & Hsx' & Huniq).
  { intros u d _ Hd. destruct (decide (v = u)) as [<-|]; [rewrite lookup_singleton in Hd; by injection Hd as <-|by rewrite lookup_singleton_ne in Hd]. }
  exists x, x'. split; [done|]. split; [done|]. intros u Hu. symmetry. apply (Huniq (λ u, x u + s * V v u)); [|done].
  clear u Hu. intros u Hu. specialize (Hsx u Hu). unfold giv_equation in Hsx. rewrite lookup_empty in Hsx.
  assert (V v u = mid v u + qsum n (λ k, weight g k u * V v k)) as HVu.
  { rewrite <-(HV v u Hvn Hu). unfold mmul, msub.
    rewrite (qsum_ext n (λ k, V v k * (mid k u - weight g k u)) (λ k, V v k * mid k u - weight g k u * V v k)) by (intros k _; ring).
    rewrite qsum_sub. rewrite (qsum_one n (λ k, V v k * mid k u) u); [|done|]. 2:{ intros k _ Hk. unfold mid. rewrite decide_False by done. ring. }
    unfold mid. rewrite decide_True by done. ring. }
  assert (inflow g n (λ u, x u + s * V v u) u = inflow g n x u + s * qsum n (λ k, weight g k u * V v k)) as Hin.
  { unfold inflow. rewrite <-qsum_mul_l, <-qsum_add. apply qsum_ext. intros k _. ring. }
  unfold giv_equation. destruct (decide (v = u)) as [<-|Hne].
  - rewrite lookup_singleton, Hin, Hsx, HVu. unfold mid. rewrite decide_True by done. ring.
  - rewrite lookup_singleton_ne by done. rewrite Hin, Hsx, HVu. unfold mid. rewrite decide_False by done. ring.
Qed.
(** Scaling by 1 with the bias as the mean and the same noise is no intervention; scaling by 0 is a perfect one. *)
Theorem C110_scale (o o' : oracle) (g : gauss) (n : nat) (dev : vec) (v : node) (e m : Qc) :
  gauss_wf g → g_list g = seq 0 n → acyclic (d_arcs (g_dag g)) → length (g_bias g) = n → length (g_var g) = n →
  (∃ x x', giv_row false o g ∅ dev = Ok x ∧ giv_row false o' g {[v := GScale 1 (Some (vec_of (g_bias g) v)) (dev v)]} dev = Ok x' ∧ ∀ u, (u < n)%nat → x' u = x u) ∧
  (∃ x x', giv_row false o g {[v := GPerfect (m + e)]} dev = Ok x ∧ giv_row false o' g {[v := GScale 0 (Some m) e]} dev = Ok x' ∧ ∀ u, (u < n)%nat → x' u = x u).
Proof.
  intros Hg Hl Hac Hb Hvar.
  assert (∀ d u d', usable false d → ({[v := d]} : gmap node gdist) !! u = Some d' → usable false d') as Hone.
  { intros d u d' Hd Hu. destruct (decide (v = u)) as [<-|]; [rewrite lookup_singleton in Hu; by injection Hu as <-|by rewrite lookup_singleton_ne in Hu]. }
  split.
  - destruct (C110_sample o g n ∅ dev Hg Hl Hac Hb Hvar) as (x & Hx & Hsx & Huniq); [by intros ? ? _ ?%lookup_empty_Some|].
    destruct (C110_sample o' g n {[v := GScale 1 (Some (vec_of (g_bias g) v)) (dev v)]} dev Hg Hl Hac Hb Hvar) as (x' & Hx' & Hsx' & _); [intros u d _; by apply Hone|].
    exists x, x'. split; [done|]. split; [done|]. apply Huniq. intros u Hu. specialize (Hsx' u Hu). unfold giv_equation in *. rewrite lookup_empty.
    destruct (decide (v = u)) as [<-|Hne]; [|by rewrite lookup_singleton_ne in Hsx'].
    rewrite lookup_singleton in Hsx'. destruct Hsx' as (m' & [= <-] & ->). ring.
  - destruct (C110_sample o g n {[v := GPerfect (m + e)]} dev Hg Hl Hac Hb Hvar) as (x & Hx & Hsx & Huniq); [intros u d _; by apply Hone|].
    destruct (C110_sample o' g n {[v := GScale 0 (Some m) e]} dev Hg Hl Hac Hb Hvar) as (x' & Hx' & Hsx' & _); [intros u d _; by apply Hone|].
    exists x, x'. split; [done|]. split; [done|]. apply Huniq. intros u Hu. specialize (Hsx' u Hu). unfold giv_equation in *.
    destruct (decide (v = u)) as [<-|Hne]; [|by rewrite lookup_singleton_ne in Hsx' |- *].
    rewrite lookup_singleton in Hsx' |- *. destruct Hsx' as (m' & [= <-] & ->). ring.
Qed.

(** ** C110: predictions and densities *)

(** [predict_from_parents], for any labels: the values must be in the iteration order of the set of parents. *)
Theorem C110_predict (o : oracle) (g : gauss) (v : node) (a : nat) (b : Qc) :
  gauss_wf g → g_ix g !! v = Some a → g_bias g !! a = Some b →
  ∃ ps, NoDup ps ∧ (∀ p, p ∈ ps ↔ (p, v) ∈ d_arcs (g_dag g)) ∧
    (∀ x : node → Qc, predict_from_parents o g v (x <$> ps) = Ok (foldr Qcplus 0 ((λ p, x p * weight g p v) <$> ps) + b)) ∧
    ∀ vals, length vals ≠ length ps → predict_from_parents o g v vals = Raise ValueError.
Proof.
  intros Hg Ha Hb. set (ps := on o [191%nat; v] (parents (g_dag g) v)). exists ps.
  assert (∀ p, p ∈ ps ↔ (p, v) ∈ d_arcs (g_dag g)) as Hps. { intros p. unfold ps. rewrite elem_of_on. apply (proj1 (proj1 Hg)). }
  assert (∀ l acc, (∀ p, p ∈ l → (p, v) ∈ d_arcs (g_dag g)) →
    loopR (λ p acc, match g_ix g !! p with Some c => Ok (acc ++ [c]) | None => Raise KeyError end) l acc = Ok (acc ++ ((λ p, default O (g_ix g !! p)) <$> l))) as Hixs.
  { intros l. induction l as [|p l IH]; intros acc Hl; cbn [loopR fmap list_fmap]; [by rewrite app_nil_r|].
    assert (is_Some (g_ix g !! p)) as [c Hc].
    { destruct Hg as (Hva & _ & HN & Hix & _). assert (p ∈ d_nodes (g_dag g)) as Hp by (apply (proj2 (proj2 (proj2 Hva)) p v); apply Hl; by left).
      apply HN, elem_of_list_lookup in Hp as [c Hc]. exists c. by apply Hix. }
    rewrite Hc. cbn [res_bind default from_option id]. rewrite IH by (intros q Hq; apply Hl; by right). by rewrite <-app_assoc. }
  assert (ixs_of g ps = Ok ((λ p, default O (g_ix g !! p)) <$> ps)) as Hix. { unfold ixs_of. by rewrite Hixs by (intros p; by rewrite Hps). }
  split; [apply NoDup_on|]. split; [done|]. unfold predict_from_parents. rewrite Ha. fold ps. rewrite Hix. cbn [res_bind]. rewrite Hb. split.
  - intros x. rewrite decide_True by (by rewrite !fmap_length). do 2 f_equal.
    assert (∀ p, p ∈ ps → g_w g (default O (g_ix g !! p)) a = weight g p v) as Hw.
    { intros p Hp%Hps. unfold weight. destruct Hg as (_ & _ & _ & _ & HA). apply HA in Hp. unfold weight in Hp. rewrite Ha in *. by destruct (g_ix g !! p). }
    clear Hixs Hix Hps. generalize dependent ps. intros l Hw. induction l as [|p l IH]; [done|]. cbn [fmap list_fmap zip_with foldr].
    rewrite Hw by (by left). f_equal. apply IH. intros q Hq. apply Hw. by right.
  - intros vals Hlen. rewrite decide_False by (by rewrite fmap_length). done.
Qed.
(** On a row of [sample_interventional] the prediction of a node without an intervention is off by the deviation drawn for it. *)
Theorem C110_predict_sample (o o' : oracle) (g : gauss) (n : nat) (iv : gmap node gdist) (dev x : vec) (v : node) :
  gauss_wf g → g_list g = seq 0 n → acyclic (d_arcs (g_dag g)) → length (g_bias g) = n → length (g_var g) = n → (v < n)%nat → iv !! v = None →
  (∀ v d, (v < n)%nat → iv !! v = Some d → usable false d) → giv_row false o g iv dev = Ok x →
  predict_from_parents o' g v (x <$> on o' [191%nat; v] (parents (g_dag g) v)) = Ok (x v - dev v).
Proof.
  intros Hg Hl Hac Hb Hvar Hv Hiv Hu Hx. destruct (C110_sample o g n iv dev Hg Hl Hac Hb Hvar Hu) as (x' & Hx' & Hsx & _).
  rewrite Hx in Hx'. injection Hx' as <-. specialize (Hsx v Hv). unfold giv_equation in Hsx. rewrite Hiv in Hsx.
  unfold predict_from_parents. assert (g_ix g !! v = Some v) as -> by (by apply (lab_ix g n Hg Hl)).
  set (ps := on o' [191%nat; v] (parents (g_dag g) v)). assert (∀ u, u ∈ ps → (u < n)%nat) as Hps. { intros u Hup. unfold ps in Hup. apply elem_of_on, (lab_parents g n Hg Hl) in Hup. lia. }
  rewrite (lab_ixs g n Hg Hl) by done. cbn [res_bind]. assert (is_Some (g_bias g !! v)) as [b Hbv] by (apply lookup_lt_is_Some; lia). rewrite Hbv.
  rewrite decide_True by (by rewrite fmap_length). f_equal. rewrite Hsx. unfold vec_of. rewrite Hbv. cbn [default from_option id].
  assert (foldr Qcplus 0 (zip_with (λ y p, y * g_w g p v) (x <$> ps) ps) = inflow g n x v) as ->; [|ring].
  rewrite (inflow_w g n Hg Hl) by done. rewrite <-(dot_at_qsum n (g_w g) ps v x).
  - unfold dot_at. clear Hps. generalize ps. intros l. induction l as [|p l IH]; [done|]. cbn [fmap list_fmap zip_with foldr]. rewrite IH. ring.
  - apply NoDup_on.
  - done.
  - intros k Hk Hn. destruct (decide (g_w g k v = 0)); [done|]. destruct Hn. unfold ps. by apply elem_of_on, (lab_parents g n Hg Hl).
Qed.
(** [logpdf] with interventions adds a term for every node: the normal log-density of the residual for a node without an intervention,
    nothing for an intervened node, or its own log-density if [exclude_intervention_prob] is false. *)
Definition logpdf_term (g : gauss) (n : nat) (iv : gmap node bool) (exclude : bool) (x : vec) (v : node) : list lterm :=
  match iv !! v with
  | None => [TNormal (x v - inflow g n x v) (vec_of (g_var g) v)]
  | Some true => if exclude then [] else [TGauss v (x v)]
  | Some false => if exclude then [] else [TPdf v (x v)]
  end.
Theorem C110_logpdf (o : oracle) (g : gauss) (n : nat) (iv : gmap node bool) (exclude : bool) (x : vec) :
  gauss_wf g → g_list g = seq 0 n → acyclic (d_arcs (g_dag g)) → length (g_var g) = n →
  ∃ t, t ≡ₚ seq 0 n ∧ logpdf_iv o g iv exclude x = Ok (mbind (logpdf_term g n iv exclude x) t).
Proof.
  intros Hg Hl Hac Hv. pose proof (lab_wf g Hg) as Hwf. unfold logpdf_iv.
  pose proof (topological_sort_spec (g_dag g) o Hwf) as Ht. destruct (topological_sort (g_dag g) o) as [t|e]; cycle 1.
  { destruct Ht as (w & _ & Hw). by apply closes_cycle_not_acyclic in Hw. }
  cbn [res_bind]. destruct Ht as (Hnd & Hin & _). exists t. split.
  { apply NoDup_Permutation; [done|apply NoDup_seq|]. intros v. rewrite Hin, (lab_node g n Hg Hl), elem_of_seq. lia. }
  assert (∀ v, v ∈ t → (v < n)%nat) as Hr by (intros v Hx; by apply (lab_node g n Hg Hl), Hin).
  rewrite (loopR_foldl _ (λ v acc, acc ++ logpdf_term g n iv exclude x v)).
  - f_equal. generalize t. clear. intros t. assert (∀ acc, foldl (λ y a, y ++ logpdf_term g n iv exclude x a) acc t = acc ++ mbind (logpdf_term g n iv exclude x) t) as H; [|apply H].
    induction t as [|v t IH]; intros acc; cbn; [by rewrite app_nil_r|]. by rewrite IH, <-app_assoc.
  - intros v acc Hx. apply Hr in Hx. unfold logpdf_node, logpdf_term. assert (g_ix g !! v = Some v) as -> by (by apply (lab_ix g n Hg Hl)).
    destruct (iv !! v) as [[]|]; [destruct exclude; [by rewrite app_nil_r|done]..|].
    pose proof (lab_dot g n Hg Hl o [192%nat; v] v x Hx) as Hdot.
    destruct (ixs_of g (on o [192%nat; v] (parents (g_dag g) v))); [|done]. cbn [res_bind] in *. injection Hdot as ->.
    rewrite decide_False by (rewrite (lab_dim g n Hl); lia). assert (is_Some (g_var g !! v)) as [s Hs] by (apply lookup_lt_is_Some; lia). unfold vec_of. rewrite Hs. cbn.
    by rewrite (inflow_w g n Hg Hl).
Qed.

(** ** Examples and refutations *)

(** A chain 2 → 1 → 0 with biases. *)
Definition biased_make : res gauss := gauss_make oracle0 [0; 1; 2]%nat [((2, 1)%nat, qz 2); ((1, 0)%nat, qz (-1))] (Some [1; qz 5; qz 2]) None.
Definition biased_dev : vec := λ v, qz (Z.of_nat v).
Lemma biased_ok : ∃ g, biased_make = Ok g ∧ gauss_wf g ∧ g_list g = seq 0 3 ∧ acyclic (d_arcs (g_dag g)) ∧ length (g_bias g) = 3%nat ∧ length (g_var g) = 3%nat.
Proof.
  unfold biased_make. destruct (gauss_new_spec oracle0 [0; 1; 2]%nat [((2, 1)%nat, qz 2); ((1, 0)%nat, qz (-1))] (Some [1; qz 5; qz 2]) None) as (g & Hg & Hwf & Hl & _).
  { by apply (bool_decide_unpack _). } { by apply (bool_decide_unpack _). }
  { intros e w. rewrite !elem_of_cons, elem_of_nil. intros [[= -> ->]|[[= -> ->]|[]]]; cbn; split; apply (bool_decide_unpack _); done. }
  assert (match biased_make with Ok g => bool_decide (acyclic (d_arcs (g_dag g)) ∧ length (g_bias g) = 3%nat ∧ length (g_var g) = 3%nat) | Raise _ => false end = true) as H by by_vm.
  unfold biased_make in H. rewrite Hg in H. apply bool_decide_eq_true in H. by exists g.
Qed.
Definition row3 (r : res vec) : list Qc := match r with Ok x => [x 0%nat; x 1%nat; x 2%nat] | Raise _ => [] end.
#[local] Instance lterm_eq_dec : EqDecision lterm.
Proof. solve_decision. Defined.
Example C110_example : ∃ g, biased_make = Ok g ∧ gauss_wf g ∧ g_list g = seq 0 3 ∧ acyclic (d_arcs (g_dag g)) ∧ length (g_bias g) = 3%nat ∧ length (g_var g) = 3%nat ∧
  (∃ V, is_inverse 3 (msub mid (weight g)) V) ∧
  row3 (giv_row false oracle0 g ∅ biased_dev) = [qz (-13); qz 14; qz 4] ∧
  row3 (giv_row false oracle0 g {[1%nat := GShift (qz 10) 1]} biased_dev) = [qz (-23); qz 24; qz 4] ∧
  row3 (giv_row false oracle0 g {[1%nat := GScale (qz 3) (Some 1) 0; 2%nat := GPerfect (qz 7)]} biased_dev) = [qz (-42); qz 43; qz 7] ∧
  row3 (giv_row true oracle0 g {[2%nat := GShift 1 0]} biased_dev) = [qz (-7); qz 7; qz 3] ∧
  predict_from_parents oracle0 g 1 [qz 4] = Ok (qz 13) ∧
  logpdf_iv oracle0 g {[2%nat := true]} false (λ _, 1) = Ok [TGauss 2 1; TNormal (qz (-1)) 1; TNormal (qz 2) 1].
Proof.
  destruct biased_ok as (g & Hg & H1 & H2 & H3 & H4 & H5). exists g. do 6 (split; [done|]). split.
  { destruct (C46_invertible g H1 H3) as [V [HV1 HV2]]. exists V. assert (g_dim g = 3%nat) as Hd by (unfold g_dim; by rewrite H2). rewrite Hd in *.
    assert (meq 3 (msub mid (weight g)) (msub mid (g_w g))) as He by (intros i j Hi Hj; unfold msub; by rewrite (lab_weight g 3 H1 H2)).
    split; rewrite He; done. }
  assert (match biased_make with Ok g => bool_decide (
    row3 (giv_row false oracle0 g ∅ biased_dev) = [qz (-13); qz 14; qz 4] ∧
    row3 (giv_row false oracle0 g {[1%nat := GShift (qz 10) 1]} biased_dev) = [qz (-23); qz 24; qz 4] ∧
    row3 (giv_row false oracle0 g {[1%nat := GScale (qz 3) (Some 1) 0; 2%nat := GPerfect (qz 7)]} biased_dev) = [qz (-42); qz 43; qz 7] ∧
    row3 (giv_row true oracle0 g {[2%nat := GShift 1 0]} biased_dev) = [qz (-7); qz 7; qz 3] ∧
    predict_from_parents oracle0 g 1 [qz 4] = Ok (qz 13) ∧
    logpdf_iv oracle0 g {[2%nat := true]} false (λ _, 1) = Ok [TGauss 2 1; TNormal (qz (-1)) 1; TNormal (qz 2) 1]) | Raise _ => false end = true) as H by by_vm.
  rewrite Hg in H. by apply bool_decide_eq_true in H.
Qed.

(** The soft method forgets the biases of the nodes without an intervention. *)
Theorem C110_soft_bias_refuted : ∃ g, gauss_wf g ∧ g_list g = seq 0 3 ∧ acyclic (d_arcs (g_dag g)) ∧ g_bias g = [1; qz 5; qz 2] ∧
  row3 (giv_row false oracle0 g {[2%nat := GShift 1 0]} biased_dev) = [qz (-11); qz 12; qz 3] ∧
  row3 (giv_row true oracle0 g {[2%nat := GShift 1 0]} biased_dev) = [qz (-7); qz 7; qz 3].
Proof.
  destruct biased_ok as (g & Hg & H1 & H2 & H3 & _). exists g. do 3 (split; [done|]).
  assert (match biased_make with Ok g => bool_decide (g_bias g = [1; qz 5; qz 2] ∧
    row3 (giv_row false oracle0 g {[2%nat := GShift 1 0]} biased_dev) = [qz (-11); qz 12; qz 3] ∧
    row3 (giv_row true oracle0 g {[2%nat := GShift 1 0]} biased_dev) = [qz (-7); qz 7; qz 3]) | Raise _ => false end = true) as H by by_vm.
  rewrite Hg in H. by apply bool_decide_eq_true in H.
Qed.
(** [ScalingIntervention] with the mean left out, as its constructor allows, never samples. *)
Theorem C110_default_mean_refuted : ∃ g, gauss_wf g ∧ g_list g = seq 0 3 ∧ acyclic (d_arcs (g_dag g)) ∧
  ∀ soft f e dev, giv_row soft oracle0 g {[1%nat := GScale f None e]} dev = Raise TypeError.
Proof.
  destruct biased_ok as (g & Hg & H1 & H2 & H3 & H4 & H5). exists g. do 3 (split; [done|]). intros soft f e dev.
  apply (C110_unusable soft oracle0 g 3 _ dev 1 (GScale f None e) H1 H2 H3 H4 H5); [lia|by rewrite lookup_singleton|].
  destruct soft; unfold usable; naive_solver.
Qed.
(** With other labels the weights are read from the wrong column: for the node list [1; 0] and the arc 1 -> 0 with
    weight 5 a shift of the parent does not reach the child. *)
Theorem C110_labels_refuted :
  ∃ g x, gauss_wf g ∧ acyclic (d_arcs (g_dag g)) ∧ g_list g = [1; 0]%nat ∧ weight g 1%nat 0%nat = qz 5 ∧
    giv_row false oracle0 g {[1%nat := GShift (qz 100) 1]} (λ _, 1) = Ok x ∧ x 0%nat = qz 101 ∧ x 1%nat = 1.
Proof.
  destruct (gauss_new_spec oracle0 [1; 0]%nat [((1, 0)%nat, qz 5)] None None) as (g & Hg & Hwf & Hl & _).
  { by apply (bool_decide_unpack _). } { by apply (bool_decide_unpack _). }
  { intros e w. rewrite !elem_of_cons, elem_of_nil. intros [[= -> ->]|[]]; cbn; split; apply (bool_decide_unpack _); done. }
  assert (match gauss_make oracle0 [1; 0]%nat [((1, 0)%nat, qz 5)] None None with
    | Ok g => bool_decide (acyclic (d_arcs (g_dag g)) ∧ weight g 1%nat 0%nat = qz 5) &&
       match giv_row false oracle0 g {[1%nat := GShift (qz 100) 1]} (λ _, 1) with Ok x => bool_decide (x 0%nat = qz 101 ∧ x 1%nat = 1) | Raise _ => false end
    | Raise _ => false end = true) as H by by_vm.
  rewrite Hg in H. apply andb_prop in H as [Ha Hb]. apply bool_decide_eq_true in Ha as [? ?].
  destruct (giv_row false oracle0 g _ _) as [x|] eqn:E; [|done]. apply bool_decide_eq_true in Hb as [? ?]. exists g, x. by do 6 (split; [done|]).
Qed.
(** The caller cannot know the order of the parents: the same values are used differently under another order of the set. *)
Theorem C110_predict_order_refuted : ∃ g, gauss_wf g ∧ acyclic (d_arcs (g_dag g)) ∧
  predict_from_parents oracle0 g 2 [1; qz 10] ≠ predict_from_parents oracle_rev g 2 [1; qz 10].
Proof.
  destruct (gauss_new_spec oracle0 [0; 1; 2]%nat [((0, 2)%nat, qz 5); ((1, 2)%nat, qz 3)] None None) as (g & Hg & Hwf & Hl & _).
  { by apply (bool_decide_unpack _). } { by apply (bool_decide_unpack _). }
  { intros e w. rewrite !elem_of_cons, elem_of_nil. intros [[= -> ->]|[[= -> ->]|[]]]; cbn; split; apply (bool_decide_unpack _); done. }
  exists g. split; [done|].
  assert (match gauss_make oracle0 [0; 1; 2]%nat [((0, 2)%nat, qz 5); ((1, 2)%nat, qz 3)] None None with
    | Ok g => bool_decide (acyclic (d_arcs (g_dag g)) ∧ predict_from_parents oracle0 g 2 [1; qz 10] ≠ predict_from_parents oracle_rev g 2 [1; qz 10])
    | Raise _ => false end = true) as H by by_vm.
  rewrite Hg in H. by apply bool_decide_eq_true in H.
Qed.
(** The density ignores the biases: at the row that [sample_interventional] returns for deviations 0 the arguments are not 0. *)
Theorem C110_logpdf_bias_refuted : ∃ g x, gauss_wf g ∧ g_list g = seq 0 3 ∧ acyclic (d_arcs (g_dag g)) ∧
  giv_row false oracle0 g {[2%nat := GPerfect 0]} (λ _, 0) = Ok x ∧
  logpdf_iv oracle0 g {[2%nat := false]} true x = Ok [TNormal (qz 5) 1; TNormal 1 1].
Proof.
  destruct biased_ok as (g & Hg & H1 & H2 & H3 & _). exists g.
  assert (match biased_make with Ok g => match giv_row false oracle0 g {[2%nat := GPerfect 0]} (λ _, 0) with
    | Ok x => bool_decide (logpdf_iv oracle0 g {[2%nat := false]} true x = Ok [TNormal (qz 5) 1; TNormal 1 1]) | Raise _ => false end | Raise _ => false end = true) as H by by_vm.
  rewrite Hg in H. destruct (giv_row false oracle0 g _ _) as [x|]; [|done]. apply bool_decide_eq_true in H. by exists x.
Qed.

Print Assumptions C110_sample.
Print Assumptions C110_soft.
Print Assumptions C110_soft_unbiased.
Print Assumptions C110_unusable.
Print Assumptions C110_perfect.
Print Assumptions C110_shift.
Print Assumptions C110_scale.
Print Assumptions C110_predict.
Print Assumptions C110_predict_sample.
Print Assumptions C110_logpdf.
Print Assumptions C110_soft_bias_refuted.
Print Assumptions C110_default_mean_refuted.
Print Assumptions C110_labels_refuted.
Print Assumptions C110_predict_order_refuted.
Print Assumptions C110_logpdf_bias_refuted.
