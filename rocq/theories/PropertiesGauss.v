(** Final theorems about [GaussDAG]: C45, C46, C47, C48. *)
From Coq Require Import QArith.Qcanon.
From Verif Require Import Py Spec DagModel QMatModel GaussModel TopoProofs StateProofs ReachProofs CoreProofs MarkovProofs QMatProofs PropertiesDag GaussProofs GaussLoops.
#[local] Open Scope Qc_scope.

(** ** C45: the constructor *)

(** The constructor accepts every dictionary of arcs between given nodes, cyclic or
    not; the arcs are those with a non-zero weight and the weights are the given
    ones.  Otherwise it raises [KeyError]. *)
Theorem C45_constructor (o : oracle) (nodes : list node) (arcs : list (arc * Qc)) (bs vs : option (list Qc)) :
  NoDup nodes → NoDup (arcs.*1) →
  ((∀ e w, (e, w) ∈ arcs → e.1 ∈ nodes ∧ e.2 ∈ nodes) →
   ∃ g, gauss_make o nodes arcs bs vs = Ok g ∧ gauss_wf g ∧ g_list g = nodes ∧
     (∀ i j w, ((i, j), w) ∈ arcs → weight g i j = w) ∧ (∀ i j, (i, j) ∉ arcs.*1 → weight g i j = 0) ∧
     (∀ e, e ∈ d_arcs (g_dag g) ↔ ∃ w, (e, w) ∈ arcs ∧ w ≠ 0)) ∧
  ((∃ e w, (e, w) ∈ arcs ∧ (e.1 ∉ nodes ∨ e.2 ∉ nodes)) → gauss_make o nodes arcs bs vs = Raise KeyError).
Proof.
  intros Hnd Hk. split; [|apply gauss_new_keyerror]. intros Hin.
  destruct (gauss_new_spec o nodes arcs bs vs Hnd Hk Hin) as (g & Hg & Hwf & Hl & Hw & _). exists g.
  assert (∀ i j w, ((i, j), w) ∈ arcs → weight g i j = w) as H1. { intros i j w H. rewrite Hw. apply given_Some in H; [|done]. by rewrite H. }
  assert (∀ i j, (i, j) ∉ arcs.*1 → weight g i j = 0) as H2. { intros i j H. rewrite Hw. apply given_None in H. by rewrite H. }
  split_and!; [done..|]. intros [i j]. destruct Hwf as (_ & _ & _ & _ & HA). rewrite HA. split.
  - intros Hne. destruct (decide ((i, j) ∈ arcs.*1)) as [H|H]; [|by rewrite H2 in Hne].
    apply elem_of_list_fmap in H as ([e w] & He & H). cbn in He. subst e. exists w. split; [done|]. by rewrite <-(H1 _ _ _ H).
  - intros (w & H & Hne). by rewrite (H1 _ _ _ H).
Qed.

Theorem C45_never_cycle_error (o : oracle) (nodes : list node) (arcs : list (arc * Qc)) (bs vs : option (list Qc)) w :
  NoDup nodes → NoDup (arcs.*1) → gauss_make o nodes arcs bs vs ≠ Raise (CycleError w).
Proof.
  intros Hnd Hk. destruct (C45_constructor o nodes arcs bs vs Hnd Hk) as [H1 H2].
  destruct (decide (Forall (λ a : arc * Qc, a.1.1 ∈ nodes ∧ a.1.2 ∈ nodes) arcs)) as [H|H].
  - destruct H1 as (g & -> & _); [|done]. intros e c Hec. rewrite Forall_forall in H. by apply H in Hec.
  - rewrite H2; [done|]. apply not_Forall_Exists, Exists_exists in H; [|apply _]. destruct H as ([e c] & Hec & Hn). exists e, c. split; [done|].
    destruct (decide (e.1 ∈ nodes)), (decide (e.2 ∈ nodes)); cbn in *; tauto.
Qed.

(** So the claim fails: a cyclic [GaussDAG] is constructed, and the error only
    shows when it is sorted. *)
Theorem C45_cyclic_refuted :
  ∃ (nodes : list node) (arcs : list (arc * Qc)) (g : gauss),
    gauss_make oracle0 nodes arcs None None = Ok g ∧ ¬ acyclic (d_arcs (g_dag g)) ∧
    topological_sort (g_dag g) oracle0 = Raise (CycleError [0; 1; 0]%nat).
Proof.
  exists [0; 1]%nat, [((0, 1)%nat, 1); ((1, 0)%nat, 1)].
  destruct (C45_constructor oracle0 [0; 1]%nat [((0, 1)%nat, 1); ((1, 0)%nat, 1)] None None) as [(g & Hg & _ & _ & _ & _ & HA) _].
  { by apply (bool_decide_unpack _). } { by apply (bool_decide_unpack _). }
  { intros e w. rewrite !elem_of_cons, elem_of_nil. intros [[= -> ->]|[[= -> ->]|[]]]; cbn; split; apply (bool_decide_unpack _); done. }
  exists g. split; [done|]. split.
  - intros Hac. apply (Hac 0%nat). eapply tc_l; [|apply tc_once]; unfold edge; apply HA; [exists 1|exists 1]; (split; [|done]); [left|right; left].
  - assert (match gauss_make oracle0 [0; 1]%nat [((0, 1)%nat, 1); ((1, 0)%nat, 1)] None None with Ok g => bool_decide (topological_sort (g_dag g) oracle0 = Raise (CycleError [0; 1; 0]%nat)) | Raise _ => false end = true) as H by by_vm.
    rewrite Hg in H. by apply bool_decide_eq_true in H.
Qed.

Example C45_example : NoDup [4; 7; 2]%nat ∧ NoDup [((4, 7)%nat, qz 3); ((7, 2)%nat, 0)].*1 ∧
  match gauss_make oracle0 [4; 7; 2]%nat [((4, 7)%nat, qz 3); ((7, 2)%nat, 0)] None None with
  | Ok g => d_arcs (g_dag g) = {[(4, 7)]}%nat ∧ weight g 4 7 = qz 3 | Raise _ => False end.
Proof.
  split_and!; [by apply (bool_decide_unpack _)..|].
  assert (match gauss_make oracle0 [4; 7; 2]%nat [((4, 7)%nat, qz 3); ((7, 2)%nat, 0)] None None with
  | Ok g => bool_decide (d_arcs (g_dag g) = {[(4, 7)]}%nat ∧ weight g 4 7 = qz 3) | Raise _ => false end = true) as H by by_vm.
  destruct (gauss_make _ _ _ _ _); [|done]. by apply bool_decide_eq_true in H.
Qed.

(** ** C46: covariance and precision *)

(** In exact arithmetic [inv(I - A)] never fails for an acyclic graph. *)
Theorem C46_invertible (g : gauss) :
  gauss_wf g → acyclic (d_arcs (g_dag g)) → ∃ V, is_inverse (g_dim g) (msub mid (g_w g)) V.
Proof. intros Hg Hac. eexists. apply acyclic_inverse. by apply gauss_macyclic. Qed.

(** A [GaussDAG] whose caches are empty. *)
Definition fresh (g : gauss) : Prop := g_prec g = None ∧ g_cov g = None.
(** One non-zero variance per node. *)
Definition variances_ok (g : gauss) : Prop := length (g_var g) = g_dim g ∧ Forall (λ v, v ≠ 0) (g_var g).

Lemma vec_of_one l i : all_one l → (i < length l)%nat → vec_of l i = 1.
Proof.
  intros H Hi. unfold vec_of. apply lookup_lt_is_Some in Hi as [x Hx]. rewrite Hx. cbn. unfold all_one in H. rewrite Forall_lookup in H. by eapply H.
Qed.
Lemma precision_formula g : gauss_wf g → variances_ok g →
  ∃ P, precision_of g = Ok P ∧
    meq (g_dim g) P (mmul (g_dim g) (mmul (g_dim g) (msub mid (g_w g)) (mdiag (λ i, / vec_of (g_var g) i))) (mT (msub mid (g_w g)))).
Proof.
  intros Hg [Hlen _]. unfold precision_of. rewrite decide_True by (by apply gauss_size). case_decide as H1; [|rewrite decide_True by done; by eexists].
  eexists. split; [done|]. assert (meq (g_dim g) (mdiag (λ i, / vec_of (g_var g) i)) mid) as ->; [|by rewrite mmul_id_r].
  intros i j Hi Hj. unfold mdiag, mid. case_decide; [|done]. rewrite vec_of_one by (done || by rewrite Hlen). by apply Qc_is_canon.
Qed.
Lemma covariance_formula inv g : gauss_wf g → variances_ok g →
  ∃ C, covariance_of inv g = Ok C ∧
    let V := inv (g_dim g) (msub mid (g_w g)) in
    meq (g_dim g) C (mmul (g_dim g) (mmul (g_dim g) (mT V) (mdiag (vec_of (g_var g)))) V).
Proof.
  intros Hg [Hlen _]. unfold covariance_of. rewrite decide_True by (by apply gauss_size). case_decide as H1; [|rewrite decide_True by done; by eexists].
  eexists. split; [done|]. cbn zeta. assert (meq (g_dim g) (mdiag (vec_of (g_var g))) mid) as ->; [|by rewrite mmul_id_r].
  intros i j Hi Hj. unfold mdiag, mid. case_decide; [|done]. by rewrite vec_of_one by (done || by rewrite Hlen).
Qed.

(** Read from a fresh object, [precision] and [covariance] are inverse to each other,
    and under [covariance] the residuals [X_i - sum_k w(k, i) X_k] are uncorrelated
    and have the given variances. *)
Theorem C46_inverse (inv : nat → mat → mat) (g : gauss) :
  gauss_wf g → variances_ok g → fresh g →
  is_inverse (g_dim g) (msub mid (g_w g)) (inv (g_dim g) (msub mid (g_w g))) →
  ∃ P C, (read_precision g).2 = Ok P ∧ (read_covariance inv g).2 = Ok C ∧ is_inverse (g_dim g) P C ∧
    ∀ i j, (i < g_dim g)%nat → (j < g_dim g)%nat →
      qsum (g_dim g) (λ k, qsum (g_dim g) (λ l,
        ((if decide (k = i) then 1 else 0) - g_w g k i) * C k l * ((if decide (l = j) then 1 else 0) - g_w g l j)))
      = if decide (i = j) then vec_of (g_var g) i else 0.
Proof.
  intros Hg Hv [Hp Hc] Hinv. unfold read_precision, read_covariance. rewrite Hp, Hc.
  destruct (precision_formula g Hg Hv) as (P & -> & HP). destruct (covariance_formula inv g Hg Hv) as (C & -> & HC). cbn zeta in HC.
  exists P, C. split; [done|]. split; [done|]. set (n := g_dim g) in *. set (B := msub mid (g_w g)) in *. set (V := inv n B) in *.
  destruct Hinv as [I1 I2]. pose proof (inverse_T n B V (conj I1 I2)) as [T1 T2].
  set (D := mdiag (vec_of (g_var g))) in *. set (Di := mdiag (λ i, / vec_of (g_var g) i)) in *.
  assert (∀ i, (i < n)%nat → vec_of (g_var g) i ≠ 0) as Hnz.
  { destruct Hv as [Hlen Hf]. intros i Hi. unfold n in Hi. rewrite <-Hlen in Hi. apply lookup_lt_is_Some in Hi as [x Hx]. unfold vec_of. rewrite Hx.
    rewrite Forall_lookup in Hf. by eapply Hf. }
  assert (meq n (mmul n Di D) mid) as HD1.
  { unfold Di, D. rewrite mdiag_mul. intros i j Hi Hj. unfold mdiag, mid. case_decide; [|done]. by apply Qcmult_inv_l, Hnz. }
  assert (meq n (mmul n D Di) mid) as HD2.
  { unfold Di, D. rewrite mdiag_mul. intros i j Hi Hj. unfold mdiag, mid. case_decide; [|done]. by apply Qcmult_inv_r, Hnz. }
  split; [split|].
  - rewrite HP, HC. rewrite !mmul_assoc. rewrite <-(mmul_assoc n (mT B) (mT V)), T1, mmul_id_l.
    rewrite <-(mmul_assoc n Di D), HD1, mmul_id_l. done.
  - rewrite HP, HC. rewrite !mmul_assoc. rewrite <-(mmul_assoc n V B), I2, mmul_id_l.
    rewrite <-(mmul_assoc n D Di), HD2, mmul_id_l. done.
  - assert (meq n (mmul n (mmul n (mT B) C) B) D) as HS.
    { rewrite HC, !mmul_assoc, I2, mmul_id_r, <-mmul_assoc, T1. apply mmul_id_l. }
    intros i j Hi Hj. specialize (HS i j Hi Hj). unfold D, mdiag in HS. rewrite <-HS. unfold mmul, mT, B, msub, mid.
    rewrite qsum_swap. apply qsum_ext. intros l _. rewrite <-qsum_mul_r. by apply qsum_ext.
Qed.

(** The caches are never invalidated: whatever is called in between, each property
    keeps the value of its first read. *)
Theorem C46_cache (inv : nat → mat → mat) (g : gauss) (P C : mat) (calls : list gcall) :
  ((read_precision g).2 = Ok P → (read_precision (foldl (λ g c, grun inv c g) (read_precision g).1 calls)).2 = Ok P) ∧
  ((read_covariance inv g).2 = Ok C → (read_covariance inv (foldl (λ g c, grun inv c g) (read_covariance inv g).1 calls)).2 = Ok C).
Proof.
  assert (∀ c g, gframe g c → g_prec c = g_prec g ∧ g_cov c = g_cov g) as Hf by (by intros c g' (_ & _ & _ & _ & ? & ?)).
  assert (∀ g' d, gframe g' (with_dag d g')) as Hd by (by intros; split_and!).
  assert (∀ i j v g', gframe g' (put_weight i j v g').1) as Hput.
  { intros i j v g'. unfold put_weight. repeat case_match; by split_and!. }
  assert (∀ m g', gframe g' (on_dag m g').1) as Hon. { intros m g'. unfold on_dag. destruct (m (g_dag g')). apply Hd. }
  assert (∀ (m k : M gauss unit) g', (∀ g, gframe g (m g).1) → (∀ g, gframe g (k g).1) → gframe g' ((m ;;; k) g').1) as Hthen.
  { intros m k g' Hm Hk. unfold mthen, mbind'. specialize (Hm g'). destruct (m g') as [g1 [[]|]]; [|done]. etrans; [exact Hm|apply Hk]. }
  assert (∀ o i j v g', gframe g' (set_arc_weight o i j v g').1) as Hset.
  { intros o i j v g'. apply Hthen; [intros; apply Hput|]. intros g1. apply Hthen; intros g2; case_decide; try apply Hon; done. }
  assert (∀ (A : Type) (l : list A) (f : A → M gauss unit) g', (∀ a g, gframe g (f a g).1) → gframe g' (mfor l f g').1) as Hfor.
  { intros A l f. induction l as [|a l IH]; intros g' Ha; cbn [mfor]; [done|]. apply Hthen; [by apply Ha|]. intros; by apply IH. }
  assert (∀ o arcs g', gframe g' (set_arc_weights o arcs g').1) as Hsets.
  { intros o arcs g'. unfold set_arc_weights. case_decide; [done|]. case_decide; [|done]. apply Hthen; [intros; by apply Hfor|].
    intros g1. apply Hthen; [intros; by apply Hfor|]. intros; apply Hon. }
  assert (∀ c g' p, g_prec g' = Some p → g_prec (grun inv c g') = Some p) as HP.
  { intros c g' p Hp. destruct c; cbn.
    - destruct (Hset o i j val g') as (_ & _ & _ & _ & -> & _). done.
    - destruct (Hsets o arcs g') as (_ & _ & _ & _ & -> & _). done.
    - unfold set_node_bias. by case_decide.
    - unfold set_node_variance. by case_decide.
    - unfold read_precision. by rewrite Hp.
    - unfold read_covariance. by repeat case_match. }
  assert (∀ c g' p, g_cov g' = Some p → g_cov (grun inv c g') = Some p) as HC.
  { intros c g' p Hp. destruct c; cbn.
    - destruct (Hset o i j val g') as (_ & _ & _ & _ & _ & ->). done.
    - destruct (Hsets o arcs g') as (_ & _ & _ & _ & _ & ->). done.
    - unfold set_node_bias. by case_decide.
    - unfold set_node_variance. by case_decide.
    - unfold read_precision. by repeat case_match.
    - unfold read_covariance. by rewrite Hp. }
  split; intros Hr.
  - assert (g_prec (read_precision g).1 = Some P) as H0.
    { unfold read_precision in *. destruct (g_prec g) eqn:E; [cbn in *; congruence|]. destruct (precision_of g); cbn in *; congruence. }
    assert (g_prec (foldl (λ g c, grun inv c g) (read_precision g).1 calls) = Some P) as H.
    { revert H0. generalize (read_precision g).1. induction calls as [|c calls IH]; intros g0 H0; cbn; [done|]. apply IH. by apply HP. }
    unfold read_precision at 1. by rewrite H.
  - assert (g_cov (read_covariance inv g).1 = Some C) as H0.
    { unfold read_covariance in *. destruct (g_cov g) eqn:E; [cbn in *; congruence|]. destruct (covariance_of inv g); cbn in *; congruence. }
    assert (g_cov (foldl (λ g c, grun inv c g) (read_covariance inv g).1 calls) = Some C) as H.
    { revert H0. generalize (read_covariance inv g).1. induction calls as [|c calls IH]; intros g0 H0; cbn; [done|]. apply IH. by apply HC. }
    unfold read_covariance at 1. by rewrite H.
Qed.

(** The exact inverse of [I - A] for acyclic [A]. *)
Definition series_inv (n : nat) (B : mat) : mat := mgeom n (msub mid B) n.
Lemma series_inv_ok n A : macyclic n A → is_inverse n (msub mid A) (series_inv n (msub mid A)).
Proof.
  intros H. assert (∀ i j, msub mid (msub mid A) i j = A i j) as E by (intros; unfold msub; ring).
  pose proof (acyclic_inverse n A H) as Hi. unfold series_inv. eapply inverse_proper; [done| |exact Hi].
  assert (∀ k, meq n (mpow n A k) (mpow n (msub mid (msub mid A)) k)) as Hp.
  { induction k as [|k IH]; cbn; [done|]. apply mmul_proper; [|done]. intros i j _ _. by rewrite E. }
  assert (∀ k, meq n (mgeom n A k) (mgeom n (msub mid (msub mid A)) k)) as Hgeo; [|apply Hgeo].
  induction k as [|k IH]; cbn; [done|]. by apply madd_proper.
Qed.

(** So the claim fails after a write: the covariance read before the write stays, and it is not the inverse of the
    precision read after it. *)
Theorem C46_stale_refuted :
  ∃ (g : gauss) (C C' P' : mat), gauss_wf g ∧ acyclic (d_arcs (g_dag g)) ∧ variances_ok g ∧ fresh g ∧
    (read_covariance series_inv g).2 = Ok C ∧
    let g' := (set_arc_weight oracle0 0 1 (qz 2) (read_covariance series_inv g).1).1 in
    (read_covariance series_inv g').2 = Ok C ∧ covariance_of series_inv g' = Ok C' ∧ (read_precision g').2 = Ok P' ∧
    ¬ meq (g_dim g') C C' ∧ ¬ is_inverse (g_dim g') P' C.
Proof.
  destruct (gauss_new_spec oracle0 [0; 1]%nat [((0, 1)%nat, 1)] None None) as (g & Hg & Hwf & Hl & Hw & Hv & Hb & Hp & Hc).
  { by apply (bool_decide_unpack _). } { by apply (bool_decide_unpack _). }
  { intros e w. rewrite !elem_of_cons, elem_of_nil. intros [[= -> ->]|[]]; cbn; split; apply (bool_decide_unpack _); done. }
  assert (match gauss_make oracle0 [0; 1]%nat [((0, 1)%nat, 1)] None None with
   | Ok g => bool_decide (acyclic (d_arcs (g_dag g))) &&
      match (read_covariance series_inv g).2, (let g' := (set_arc_weight oracle0 0 1 (qz 2) (read_covariance series_inv g).1).1 in
              res_bind (read_precision g').2 (λ P, res_bind (covariance_of series_inv g') (λ C', Ok (g_dim g', P, C')))) with
      | Ok C, Ok (n, P, C') => bool_decide (n = 2%nat ∧ C 0%nat 1%nat ≠ C' 0%nat 1%nat ∧ mmul 2 P C 0%nat 0%nat ≠ 1)
      | _, _ => false end
   | Raise _ => false end = true) as H by by_vm.
  rewrite Hg in H. apply andb_prop in H as [Hac H]. apply bool_decide_eq_true in Hac.
  destruct (read_covariance series_inv g).2 as [C|] eqn:EC; [|done]. cbn zeta in H.
  set (g' := (set_arc_weight _ _ _ _ _).1) in *.
  destruct (read_precision g').2 as [P'|] eqn:EP; [|done]. cbn [res_bind] in H. destruct (covariance_of series_inv g') as [C'|] eqn:EC'; [|done].
  cbn [res_bind] in H. apply bool_decide_eq_true in H as (Hn & H1 & H2).
  exists g, C, C', P'. split_and!; [done|done| |by split|done|]; [split; rewrite Hv; unfold g_dim; rewrite ?Hl; [done|]; by repeat constructor|].
  cbn zeta. fold g'. split_and!; [|done|done| |].
  - exact (proj2 (C46_cache series_inv g P' C [GSetArc oracle0 0 1 (qz 2)]) EC).
  - rewrite Hn. intros Hm. apply H1, Hm; lia.
  - rewrite Hn. intros [Hm _]. apply H2. rewrite (Hm 0%nat 0%nat) by lia. done.
Qed.

Example C46_example : ∃ g, gauss_make oracle0 [3; 1; 2]%nat [((3, 1)%nat, 1); ((3, 2)%nat, qz (-1)); ((1, 2)%nat, qz 4)] None (Some [1; qz 2; qz 3]) = Ok g ∧
  gauss_wf g ∧ acyclic (d_arcs (g_dag g)) ∧ variances_ok g ∧ fresh g ∧
  is_inverse (g_dim g) (msub mid (g_w g)) (series_inv (g_dim g) (msub mid (g_w g))) ∧
  match (read_covariance series_inv g).2 with Ok C => C 2%nat 2%nat = qz 44 | Raise _ => False end.
Proof.
  destruct (gauss_new_spec oracle0 [3; 1; 2]%nat [((3, 1)%nat, 1); ((3, 2)%nat, qz (-1)); ((1, 2)%nat, qz 4)] None (Some [1; qz 2; qz 3]))
    as (g & Hg & Hwf & Hl & Hw & Hv & Hb & Hp & Hc).
  { by apply (bool_decide_unpack _). } { by apply (bool_decide_unpack _). }
  { intros e w. rewrite !elem_of_cons, elem_of_nil. intros [[= -> ->]|[[= -> ->]|[[= -> ->]|[]]]]; cbn; split; apply (bool_decide_unpack _); done. }
  assert (match gauss_make oracle0 [3; 1; 2]%nat [((3, 1)%nat, 1); ((3, 2)%nat, qz (-1)); ((1, 2)%nat, qz 4)] None (Some [1; qz 2; qz 3]) with
   | Ok g => bool_decide (acyclic (d_arcs (g_dag g))) && match (read_covariance series_inv g).2 with Ok C => bool_decide (C 2%nat 2%nat = qz 44) | Raise _ => false end
   | Raise _ => false end = true) as H by by_vm.
  rewrite Hg in H. apply andb_prop in H as [Hac H]. apply bool_decide_eq_true in Hac.
  exists g. split_and!; [done|done|done| |by split| |].
  - split; rewrite Hv; unfold g_dim; rewrite ?Hl; [done|]. by repeat constructor.
  - by apply series_inv_ok, gauss_macyclic.
  - destruct (read_covariance series_inv g).2; [|done]. by apply bool_decide_eq_true in H.
Qed.

(** ** C47: means *)

Lemma means_loop (g : gauss) n o (iv : gmap node Qc) : gauss_wf g → g_list g = seq 0 n → length (g_bias g) = n →
  ∃ m, intervention_means o g iv = Ok m ∧ ∀ i, (i < n)%nat →
    m i = match iv !! i with
          | Some c => c
          | None => vec_of (g_bias g) i + qsum n (λ k, if decide (k < i)%nat then weight g k i * m k else 0)
          end.
Proof.
  intros Hg Hl Hb. unfold intervention_means. rewrite (lab_size g n Hg Hl), (lab_dim g n Hl).
  set (f := λ (i : nat) (x : vec), match iv !! i with Some c => c | None => qsum n (λ u, g_w g u i * x u) + vec_of (g_bias g) i end).
  rewrite (loopR_foldl _ (λ i x, vupd x i (f i x))); cycle 1.
  { intros i x Hi. apply elem_of_seq in Hi. unfold f. destruct (iv !! i) as [c|]; [by rewrite decide_True by lia|].
    assert (is_Some (g_bias g !! i)) as [b Hbi] by (apply lookup_lt_is_Some; lia). unfold vec_of. rewrite Hbi. cbn [default from_option].
    pose proof (lab_dot g n Hg Hl o [132%nat; i] i x ltac:(lia)) as Hdot.
    destruct (ixs_of g (on o [132%nat; i] (parents (g_dag g) i))); [|done]. cbn [res_bind] in *. injection Hdot as ->. by rewrite decide_True by lia. }
  eexists. split; [done|]. set (x0 := λ _ : nat, 0).
  assert (∀ k, (k ≤ n)%nat → let x := foldl (λ y a, vupd y a (f a y)) x0 (seq 0 k) in
    (∀ i, (k ≤ i)%nat → x i = 0) ∧ ∀ i, (i < k)%nat → x i = match iv !! i with Some c => c
      | None => vec_of (g_bias g) i + qsum n (λ u, if decide (u < i)%nat then weight g u i * x u else 0) end) as H.
  2: { intros i Hi. by apply H. }
  induction k as [|k IH]; intros Hk; cbn zeta; [split; [done|intros; lia]|]. rewrite seq_S. cbn [Nat.add]. rewrite foldl_app. cbn [foldl].
  specialize (IH ltac:(lia)). cbn zeta in IH. set (x := foldl (λ (y : vec) a, vupd y a (f a y)) x0 (seq 0 k)) in *. destruct IH as [IH1 IH2].
  split.
  - intros i Hi. unfold vupd. rewrite decide_False by lia. apply IH1. lia.
  - intros i Hi.
    assert ((match iv !! i with Some c => c | None => vec_of (g_bias g) i + qsum n (λ u, if decide (u < i)%nat then weight g u i * vupd x k (f k x) u else 0) end)
      = match iv !! i with Some c => c | None => vec_of (g_bias g) i + qsum n (λ u, if decide (u < i)%nat then weight g u i * x u else 0) end) as ->.
    { destruct (iv !! i); [done|]. f_equal. apply qsum_ext. intros u _. case_decide; [|done]. unfold vupd. by rewrite decide_False by lia. }
    destruct (decide (i = k)) as [->|Hne]; unfold vupd; [rewrite decide_True by done|rewrite decide_False by done; apply IH2; lia].
    unfold f. destruct (iv !! k); [done|]. rewrite Qcplus_comm. f_equal. apply qsum_ext. intros u Hu.
    case_decide; [by rewrite (lab_weight g n Hg Hl) by lia|]. rewrite IH1 by lia. ring.
Qed.

(** What [means] computes when the labels are the indices 0..n-1: the contributions
    of the parents with a smaller label only. *)
Theorem C47_means_computed (o : oracle) (g : gauss) (n : nat) :
  gauss_wf g → g_list g = seq 0 n → length (g_bias g) = n →
  ∃ m, means o g = Ok m ∧ ∀ i, (i < n)%nat →
    m i = vec_of (g_bias g) i + qsum n (λ k, if decide (k < i)%nat then weight g k i * m k else 0).
Proof.
  intros Hg Hl Hb. destruct (means_loop g n o ∅ Hg Hl Hb) as (m & Hm & H). exists m. split; [done|]. intros i Hi. by rewrite (H i Hi).
Qed.

(** When moreover all arcs go from a smaller to a larger label, the result solves the
    structural equations. *)
Theorem C47_means (o : oracle) (g : gauss) (n : nat) :
  gauss_wf g → g_list g = seq 0 n → length (g_bias g) = n → (∀ i j, (i, j) ∈ d_arcs (g_dag g) → (i < j)%nat) →
  ∃ m, means o g = Ok m ∧ ∀ i, (i < n)%nat → m i = vec_of (g_bias g) i + qsum n (λ k, weight g k i * m k).
Proof.
  intros Hg Hl Hb Hinc. destruct (C47_means_computed o g n Hg Hl Hb) as (m & Hm & H). exists m. split; [done|].
  intros i Hi. rewrite (H i Hi). f_equal. apply qsum_ext. intros k _. case_decide; [done|].
  destruct (decide (weight g k i = 0)) as [->|Hne]; [ring|]. destruct Hg as (_ & _ & _ & _ & HA). apply HA, Hinc in Hne. done.
Qed.
(** The same under a deterministic intervention. *)
Theorem C47_intervention_means (o : oracle) (g : gauss) (n : nat) (iv : gmap node Qc) :
  gauss_wf g → g_list g = seq 0 n → length (g_bias g) = n → (∀ i j, (i, j) ∈ d_arcs (g_dag g) → (i < j)%nat) →
  ∃ m, intervention_means o g iv = Ok m ∧ ∀ i, (i < n)%nat →
    m i = match iv !! i with Some c => c | None => vec_of (g_bias g) i + qsum n (λ k, weight g k i * m k) end.
Proof.
  intros Hg Hl Hb Hinc. destruct (means_loop g n o iv Hg Hl Hb) as (m & Hm & H). exists m. split; [done|].
  intros i Hi. rewrite (H i Hi). destruct (iv !! i); [done|]. f_equal. apply qsum_ext. intros k _. case_decide; [done|].
  destruct (decide (weight g k i = 0)) as [->|Hne]; [ring|]. destruct Hg as (_ & _ & _ & _ & HA). apply HA, Hinc in Hne. done.
Qed.

(** Otherwise the claim fails: for the graph 1 -> 0, and for the node list [1; 0] although its
    order is topological. *)
Theorem C47_means_refuted :
  ∃ g g' m m', gauss_wf g ∧ gauss_wf g' ∧ acyclic (d_arcs (g_dag g)) ∧ acyclic (d_arcs (g_dag g')) ∧
    g_list g = [0; 1]%nat ∧ means oracle0 g = Ok m ∧ m 0%nat ≠ vec_of (g_bias g) 0%nat + qsum 2 (λ k, g_w g k 0%nat * m k) ∧
    g_list g' = [1; 0]%nat ∧ topo_order (d_nodes (g_dag g')) (d_arcs (g_dag g')) (g_list g') ∧
    means oracle0 g' = Ok m' ∧ m' 1%nat ≠ vec_of (g_bias g') 1%nat + qsum 2 (λ k, g_w g' k 1%nat * m' k).
Proof.
  destruct (gauss_new_spec oracle0 [0; 1]%nat [((1, 0)%nat, 1)] (Some [0; 1]) None) as (g & Hg & Hwf & Hl & _).
  { by apply (bool_decide_unpack _). } { by apply (bool_decide_unpack _). }
  { intros e w. rewrite !elem_of_cons, elem_of_nil. intros [[= -> ->]|[]]; cbn; split; apply (bool_decide_unpack _); done. }
  destruct (gauss_new_spec oracle0 [1; 0]%nat [((1, 0)%nat, 1)] (Some [1; 0]) None) as (g' & Hg' & Hwf' & Hl' & _).
  { by apply (bool_decide_unpack _). } { by apply (bool_decide_unpack _). }
  { intros e w. rewrite !elem_of_cons, elem_of_nil. intros [[= -> ->]|[]]; cbn; split; apply (bool_decide_unpack _); done. }
  assert (match gauss_make oracle0 [0; 1]%nat [((1, 0)%nat, 1)] (Some [0; 1]) None with
    | Ok g => bool_decide (acyclic (d_arcs (g_dag g))) &&
       match means oracle0 g with Ok m => bool_decide (m 0%nat ≠ vec_of (g_bias g) 0%nat + qsum 2 (λ k, g_w g k 0%nat * m k)) | Raise _ => false end
    | Raise _ => false end = true) as H by by_vm.
  assert (match gauss_make oracle0 [1; 0]%nat [((1, 0)%nat, 1)] (Some [1; 0]) None with
    | Ok g => bool_decide (acyclic (d_arcs (g_dag g)) ∧ d_arcs (g_dag g) = {[(1, 0)]}%nat) &&
       match means oracle0 g with Ok m => bool_decide (m 1%nat ≠ vec_of (g_bias g) 1%nat + qsum 2 (λ k, g_w g k 1%nat * m k)) | Raise _ => false end
    | Raise _ => false end = true) as H' by by_vm.
  rewrite Hg in H. rewrite Hg' in H'. apply andb_prop in H as [H1 H2], H' as [H1' H2']. apply bool_decide_eq_true in H1, H1'.
  destruct (means oracle0 g) as [m|] eqn:Em; [|done]. destruct (means oracle0 g') as [m'|] eqn:Em'; [|done]. apply bool_decide_eq_true in H2, H2'.
  exists g, g', m, m'. destruct H1' as [H1' HE].
  assert (topo_order (d_nodes (g_dag g')) (d_arcs (g_dag g')) (g_list g')) as Ht.
  { split; [by destruct Hwf' as (_ & ? & _)|]. split; [intros x; destruct Hwf' as (_ & _ & Hn & _); by rewrite Hn|].
    rewrite HE, Hl'. intros i j x y Hxy%elem_of_singleton. injection Hxy as -> ->. intros Hi Hj.
    destruct i as [|[|?]]; [|done..]. destruct j as [|[|?]]; [done|lia|done]. }
  do 10 (split; [done|]). done.
Qed.

Example C47_example : ∃ g, gauss_make oracle0 [0; 1; 2]%nat [((0, 1)%nat, qz 2); ((0, 2)%nat, qz (-1)); ((1, 2)%nat, qz 4)] (Some [1; 1; qz 5]) None = Ok g ∧
  gauss_wf g ∧ g_list g = seq 0 3 ∧ length (g_bias g) = 3%nat ∧ (∀ i j, (i, j) ∈ d_arcs (g_dag g) → (i < j)%nat) ∧
  match means oracle0 g with Ok m => m 2%nat = qz 16 | Raise _ => False end.
Proof.
  destruct (C45_constructor oracle0 [0; 1; 2]%nat [((0, 1)%nat, qz 2); ((0, 2)%nat, qz (-1)); ((1, 2)%nat, qz 4)] (Some [1; 1; qz 5]) None) as [(g & Hg & Hwf & Hl & _ & _ & HA) _].
  { by apply (bool_decide_unpack _). } { by apply (bool_decide_unpack _). }
  { intros e w. rewrite !elem_of_cons, elem_of_nil. intros [[= -> ->]|[[= -> ->]|[[= -> ->]|[]]]]; cbn; split; apply (bool_decide_unpack _); done. }
  assert (match gauss_make oracle0 [0; 1; 2]%nat [((0, 1)%nat, qz 2); ((0, 2)%nat, qz (-1)); ((1, 2)%nat, qz 4)] (Some [1; 1; qz 5]) None with
   | Ok g => bool_decide (length (g_bias g) = 3%nat) && match means oracle0 g with Ok m => bool_decide (m 2%nat = qz 16) | Raise _ => false end
   | Raise _ => false end = true) as H by by_vm.
  rewrite Hg in H. apply andb_prop in H as [H1 H2]. apply bool_decide_eq_true in H1. exists g. split_and!; [done..| |].
  - intros i j (w & H & _)%HA. rewrite !elem_of_cons, elem_of_nil in H. destruct H as [[= -> ->]|[[= -> ->]|[[= -> ->]|[]]]]; lia.
  - destruct (means oracle0 g); [|done]. by apply bool_decide_eq_true in H2.
Qed.

(** ** C48: weights by arc, copy *)

Lemma arc_weights_ok (o : oracle) (g : gauss) (n : nat) : gauss_wf g → g_list g = seq 0 n →
  ∃ ws, arc_weights o g = Ok ws ∧ NoDup (ws.*1) ∧ ∀ i j w, ((i, j), w) ∈ ws ↔ (i, j) ∈ d_arcs (g_dag g) ∧ w = weight g i j.
Proof.
  intros Hg Hl. unfold arc_weights. rewrite (lab_dim g n Hl).
  assert (∀ i j, (i, j) ∈ d_arcs (g_dag g) → (i < n)%nat ∧ (j < n)%nat) as Hr.
  { intros i j H. pose proof (lab_wf g Hg) as [Ho _ _ _]. apply Ho in H as [? ?]. by rewrite <-!(lab_node g n Hg Hl). }
  rewrite (loopR_foldl _ (λ a acc, acc ++ [(a, g_w g a.1 a.2)])); cycle 1.
  { intros [i j] acc Ha%elem_of_oa. cbn. rewrite decide_True by (by apply Hr). done. }
  eexists. split; [done|]. set (l := oa o [130%nat] (d_arcs (g_dag g))).
  assert (∀ acc, foldl (λ y a, y ++ [(a, g_w g a.1 a.2)]) acc l = acc ++ ((λ a : arc, (a, g_w g a.1 a.2)) <$> l)) as ->.
  { generalize l. clear. induction l as [|a l IH]; intros acc; cbn; [by rewrite app_nil_r|]. by rewrite IH, <-app_assoc. }
  cbn [app]. split.
  - rewrite <-list_fmap_compose. replace (fst ∘ (λ a : arc, (a, g_w g a.1 a.2))) with (id : arc → arc) by done. rewrite list_fmap_id. apply NoDup_oa.
  - intros i j w. rewrite elem_of_list_fmap. split.
    + intros ([i' j'] & [= -> -> ->] & H%elem_of_oa). cbn. destruct (Hr _ _ H). by rewrite (lab_weight g n Hg Hl).
    + intros [H ->]. exists (i, j). cbn. destruct (Hr _ _ H). rewrite (lab_weight g n Hg Hl) by done. split; [done|]. by apply elem_of_oa.
Qed.

(** When the labels are the indices, [arc_weights] has exactly the arcs with their weights. *)
Theorem C48_arc_weights (o : oracle) (g : gauss) (n : nat) :
  gauss_wf g → g_list g = seq 0 n →
  ∃ ws, arc_weights o g = Ok ws ∧ NoDup (ws.*1) ∧ ∀ i j w, ((i, j), w) ∈ ws ↔ (i, j) ∈ d_arcs (g_dag g) ∧ w = weight g i j.
Proof. apply arc_weights_ok. Qed.

(** Setting a weight changes that weight only and keeps the attributes consistent. *)
Theorem C48_set_arc_weight (o : oracle) (g : gauss) (i j : node) (val : Qc) :
  gauss_wf g → oriented (d_arcs (g_dag g)) → i ∈ g_list g → j ∈ g_list g →
  ∃ g', set_arc_weight o i j val g = (g', Ok tt) ∧ gauss_wf g' ∧ g_list g' = g_list g ∧
    (∀ x y, weight g' x y = if decide (x = i ∧ y = j) then val else weight g x y) ∧
    (∀ x y, (x, y) ∈ d_arcs (g_dag g') ↔ if decide (x = i ∧ y = j) then val ≠ 0 else (x, y) ∈ d_arcs (g_dag g)).
Proof.
  intros (Hv & Hnd & HN & Hix & HA) Hor Hi Hj.
  assert (∀ v, v ∈ g_list g → is_Some (g_ix g !! v)) as Hs. { intros v [a Ha]%elem_of_list_lookup. exists a. by apply Hix. }
  destruct (set_arc_weight_spec o i j val g) as (g' & Hr & (F1 & F2 & _) & Hwf' & Hn' & Ha' & Hw').
  { intros x y a Hx%Hix Hy%Hix. congruence. } { by apply Hs. } { by apply Hs. } { by apply wf_views_agree. } { done. }
  assert (∀ x y, (x, y) ∈ d_arcs (g_dag g') ↔ if decide (x = i ∧ y = j) then val ≠ 0 else (x, y) ∈ d_arcs (g_dag g)) as HA'.
  { intros x y. rewrite Ha'. destruct (decide (x = i ∧ y = j)) as [[-> ->]|Hne], (decide (val = 0)) as [->|Hval].
    - clear. set_solver. - clear -Hval. set_solver.
    - assert ((x, y) ≠ (i, j)) by (intros [= -> ->]; tauto). clear -H. set_solver.
    - assert ((x, y) ≠ (i, j)) by (intros [= -> ->]; tauto). clear -H. set_solver. }
  exists g'. split_and!; [done| |done|done|done]. split_and!.
  - by apply wf_views_agree.
  - by rewrite F1.
  - intros v. rewrite Hn', F1. rewrite <-HN in Hi, Hj. rewrite elem_of_union, HN. split; [|by right]. intros [H|H]; [|done].
    case_decide; [|by apply elem_of_empty in H]. apply HN. clear -H Hi Hj. set_solver.
  - intros v a. by rewrite F2, F1.
  - intros x y. rewrite HA', Hw'. destruct (decide (x = i ∧ y = j)); [done|apply HA].
Qed.

(** [copy] keeps nodes, weights, variances and biases, provided the set of nodes is
    enumerated in increasing order. *)
Theorem C48_copy (o : oracle) (g : gauss) (n : nat) :
  gauss_wf g → g_list g = seq 0 n → on o [131%nat] (d_nodes (g_dag g)) = seq 0 n →
  ∃ g', gauss_copy o g = Ok g' ∧ gauss_wf g' ∧ g_list g' = g_list g ∧ d_arcs (g_dag g') = d_arcs (g_dag g) ∧
    (∀ i j, weight g' i j = weight g i j) ∧ g_var g' = g_var g ∧ g_bias g' = g_bias g ∧ fresh g'.
Proof.
  intros Hg Hl Ho. unfold gauss_copy. destruct (arc_weights_ok o g n Hg Hl) as (ws & -> & Hnd & Hws). cbn [res_bind]. rewrite Ho.
  destruct (gauss_new_spec o (seq 0 n) ws (Some (g_bias g)) (Some (g_var g))) as (g' & -> & Hwf & Hl' & Hw & Hv & Hb & Hp & Hc); [apply NoDup_seq|done| |].
  { intros [i j] w [H _]%Hws. cbn. pose proof (lab_wf g Hg) as [Hov _ _ _]. apply Hov in H as [Hi Hj].
    rewrite (lab_node g n Hg Hl) in Hi, Hj. rewrite !elem_of_seq. lia. }
  assert (∀ i j, weight g' i j = weight g i j) as HW.
  { intros i j. rewrite Hw. destruct (given ws (i, j)) as [w|] eqn:E.
    - apply given_Some in E; [|done]. by apply Hws in E as [_ ->].
    - apply given_None in E. cbn. destruct (decide (weight g i j = 0)) as [->|Hne]; [done|]. destruct E. apply elem_of_list_fmap.
      exists ((i, j), weight g i j). split; [done|]. apply Hws. split; [|done]. destruct Hg as (_ & _ & _ & _ & HA). by apply HA. }
  exists g'. split_and!; [done|done|congruence| |done|done|done|by split].
  apply set_eq. intros [i j]. destruct Hg as (_ & _ & _ & _ & HA), Hwf as (_ & _ & _ & _ & HA'). rewrite HA, HA'. by rewrite HW.
Qed.

(** Otherwise the claim fails.  With the node list [1; 0] the arc 1 -> 0 has weight 5 but is listed with
    weight 0, and the copy loses the arc; with the node list [7; 8] both raise. *)
Theorem C48_labels_refuted :
  ∃ g g' c, gauss_wf g ∧ gauss_wf g' ∧ acyclic (d_arcs (g_dag g)) ∧
    weight g 1%nat 0%nat = qz 5 ∧ arc_weights oracle0 g = Ok [((1, 0)%nat, 0)] ∧
    gauss_copy oracle0 g = Ok c ∧ d_arcs (g_dag g) ≠ ∅ ∧ d_arcs (g_dag c) = ∅ ∧
    weight g' 7 8 = qz 5 ∧ arc_weights oracle0 g' = Raise IndexError ∧ gauss_copy oracle0 g' = Raise IndexError.
Proof.
  destruct (gauss_new_spec oracle0 [1; 0]%nat [((1, 0)%nat, qz 5)] None None) as (g & Hg & Hwf & Hl & _).
  { by apply (bool_decide_unpack _). } { by apply (bool_decide_unpack _). }
  { intros e w. rewrite !elem_of_cons, elem_of_nil. intros [[= -> ->]|[]]; cbn; split; apply (bool_decide_unpack _); done. }
  destruct (gauss_new_spec oracle0 [7; 8]%nat [((7, 8)%nat, qz 5)] None None) as (g' & Hg' & Hwf' & Hl' & _).
  { by apply (bool_decide_unpack _). } { by apply (bool_decide_unpack _). }
  { intros e w. rewrite !elem_of_cons, elem_of_nil. intros [[= -> ->]|[]]; cbn; split; apply (bool_decide_unpack _); done. }
  assert (match gauss_make oracle0 [1; 0]%nat [((1, 0)%nat, qz 5)] None None with
    | Ok g => bool_decide (acyclic (d_arcs (g_dag g)) ∧ weight g 1%nat 0%nat = qz 5 ∧ arc_weights oracle0 g = Ok [((1, 0)%nat, 0)] ∧ d_arcs (g_dag g) ≠ ∅) &&
       match gauss_copy oracle0 g with Ok c => bool_decide (d_arcs (g_dag c) = ∅) | Raise _ => false end
    | Raise _ => false end = true) as H by by_vm.
  assert (match gauss_make oracle0 [7; 8]%nat [((7, 8)%nat, qz 5)] None None with
    | Ok g => bool_decide (weight g 7 8 = qz 5 ∧ arc_weights oracle0 g = Raise IndexError)
    | Raise _ => false end = true) as H' by by_vm.
  rewrite Hg in H. rewrite Hg' in H'. apply andb_prop in H as [H1 H2]. apply bool_decide_eq_true in H1 as (H11 & H12 & H13 & H14), H' as [H'1 H'2].
  destruct (gauss_copy oracle0 g) as [c|] eqn:Ec; [|done]. apply bool_decide_eq_true in H2. exists g, g', c. split_and!; try done.
  unfold gauss_copy. by rewrite H'2.
Qed.

Example C48_example : ∃ g, gauss_make oracle0 [0; 1; 2]%nat [((2, 1)%nat, qz 2); ((2, 0)%nat, qz (-1))] None None = Ok g ∧
  gauss_wf g ∧ g_list g = seq 0 3 ∧ oriented (d_arcs (g_dag g)) ∧ on oracle0 [131%nat] (d_nodes (g_dag g)) = seq 0 3.
Proof.
  destruct (C45_constructor oracle0 [0; 1; 2]%nat [((2, 1)%nat, qz 2); ((2, 0)%nat, qz (-1))] None None) as [(g & Hg & Hwf & Hl & _ & _ & HA) _].
  { by apply (bool_decide_unpack _). } { by apply (bool_decide_unpack _). }
  { intros e w. rewrite !elem_of_cons, elem_of_nil. intros [[= -> ->]|[[= -> ->]|[]]]; cbn; split; apply (bool_decide_unpack _); done. }
  assert (match gauss_make oracle0 [0; 1; 2]%nat [((2, 1)%nat, qz 2); ((2, 0)%nat, qz (-1))] None None with
   | Ok g => bool_decide (on oracle0 [131%nat] (d_nodes (g_dag g)) = seq 0 3) | Raise _ => false end = true) as H by by_vm.
  rewrite Hg in H. apply bool_decide_eq_true in H. exists g. split_and!; [done..| |done].
  intros i j H1 H2. apply HA in H1 as (w1 & H1 & _), H2 as (w2 & H2 & _). rewrite !elem_of_cons, elem_of_nil in H1, H2.
  destruct H1 as [[= -> ->]|[[= -> ->]|[]]], H2 as [[= ? ?]|[[= ? ?]|[]]]; lia.
Qed.

Print Assumptions C45_constructor.
Print Assumptions C45_never_cycle_error.
Print Assumptions C45_cyclic_refuted.
Print Assumptions C46_invertible.
Print Assumptions C46_inverse.
Print Assumptions C46_cache.
Print Assumptions C46_stale_refuted.
Print Assumptions C47_means_computed.
Print Assumptions C47_means.
Print Assumptions C47_intervention_means.
Print Assumptions C47_means_refuted.
Print Assumptions C48_arc_weights.
Print Assumptions C48_set_arc_weight.
Print Assumptions C48_copy.
Print Assumptions C48_labels_refuted.
