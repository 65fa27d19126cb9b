(** Final theorems about distances, confusion matrices and adjacency matrices: C28-C30, C33, C60, C61. *)
From Coq Require Import QArith.
From Verif Require Import Py Spec SpecMec SpecCompare DagModel DsepModel UGraphModel PdagModel CompareModel TopoProofs StateProofs ReachProofs
  OrderProofs QueryProofs MarkovProofs UGraphProofs PdagProofs ProtProofs CpdagProofs EquivProofs MecProofs ShdProofs CompareProofs MatProofs
  PropertiesDag PropertiesMec PropertiesEnum.
#[local] Open Scope nat_scope.

Definition cx1_arcs : arcset := {[(1, 2); (2, 3); (1, 4)]}.
Definition cx2_arcs : arcset := {[(2, 1); (2, 3); (5, 3)]}.
Definition cx1_dag : dag := dag_of {[5]} cx1_arcs.
Definition cx2_dag : dag := dag_of {[4]} cx2_arcs.
Lemma cx_ok : views_agree cx1_dag ∧ views_agree cx2_dag ∧ acyclic (d_arcs cx1_dag) ∧ acyclic (d_arcs cx2_dag).
Proof. split; [apply wf_views_agree, dag_of_wf|]. split; [apply wf_views_agree, dag_of_wf|]. split; by_vm. Qed.

(** ** C28: [shd] *)

(** The structural Hamming distance is the least number of additions, removals and
    reversals of arcs, no matter what graphs occur on the way; and it can be reached
    passing through acyclic graphs only. *)
Theorem C28_shd_edit_distance d1 d2 :
  acyclic (d_arcs d1) → acyclic (d_arcs d2) →
  edits 1 acyclic (shd d1 d2) (d_arcs d1) (d_arcs d2) ∧
  ∀ k, edits 1 (λ _, True) k (d_arcs d1) (d_arcs d2) → shd d1 d2 ≤ k.
Proof.
  intros H1 H2. rewrite shd_wdist by by apply acyclic_oriented. split; [by apply wdist_attained|].
  intros k. apply wdist_lower; [lia|]. by apply acyclic_oriented.
Qed.

Theorem C28_shd_metric d1 d2 d3 :
  acyclic (d_arcs d1) → acyclic (d_arcs d2) → acyclic (d_arcs d3) →
  shd d1 d2 = shd d2 d1 ∧ (shd d1 d2 = 0 ↔ d_arcs d1 = d_arcs d2) ∧ shd d1 d3 ≤ shd d1 d2 + shd d2 d3.
Proof.
  intros H1 H2 H3. rewrite !shd_wdist by by apply acyclic_oriented. split; [apply wdist_sym|]. split.
  - apply wdist_zero; [lia|done|done].
  - apply wdist_triangle; [lia|done|done|done].
Qed.

(** [shd_skeleton] counts the node pairs adjacent in exactly one of the graphs. *)
Theorem C28_shd_skeleton d1 d2 d3 :
  acyclic (d_arcs d1) → acyclic (d_arcs d2) → acyclic (d_arcs d3) →
  (∃ L : arcset, (∀ x y, (x, y) ∈ L ↔ x < y ∧ ¬ (adjacent (d_arcs d1) x y ↔ adjacent (d_arcs d2) x y)) ∧ shd_skeleton d1 d2 = size L) ∧
  shd_skeleton d1 d2 = shd_skeleton d2 d1 ∧ (shd_skeleton d1 d2 = 0 ↔ same_skeleton (d_arcs d1) (d_arcs d2)) ∧
  shd_skeleton d1 d3 ≤ shd_skeleton d1 d2 + shd_skeleton d2 d3.
Proof.
  intros H1 H2 H3. unfold shd_skeleton.
  assert (∀ d x y, acyclic (d_arcs d) → (x, y) ∈ skeleton d ↔ x < y ∧ adjacent (d_arcs d) x y) as Hs.
  { clear. intros d x y Hac. unfold skeleton. split.
    - intros H. assert (x < y) as Hlt.
      { apply elem_of_as_edges in H as ([u v] & Ha & Heq). cbn in Heq. assert (u ≠ v) by (intros ->; by apply (acyclic_irr _ v Hac)).
        pose proof (upair_lt u v). rewrite <-Heq in *. cbn in *. auto. }
      split; [done|]. apply upair_as_edges. unfold upair. by rewrite Nat.min_l, Nat.max_r by lia.
    - intros [Hlt Ha]. apply upair_as_edges in Ha. unfold upair in Ha. by rewrite Nat.min_l, Nat.max_r in Ha by lia. }
  split; [|split; [by rewrite sym_diff_comm|split]].
  - exists (sym_diff (skeleton d1) (skeleton d2)). split; [|done]. intros x y. rewrite elem_of_sym_diff, !Hs by done.
    unfold adjacent. destruct (decide ((x, y) ∈ d_arcs d1)), (decide ((y, x) ∈ d_arcs d1)), (decide ((x, y) ∈ d_arcs d2)), (decide ((y, x) ∈ d_arcs d2)); tauto.
  - split.
    + intros Hz x y. assert (skeleton d1 = skeleton d2) as Heq.
      { apply sym_diff_empty. by apply leibniz_equiv, size_empty_inv. }
      unfold skeleton in Heq. by rewrite <-!upair_as_edges, Heq.
    + intros Heq. assert (sym_diff (skeleton d1) (skeleton d2) = ∅) as ->; [|apply size_empty]. apply set_eq. intros [x y].
      rewrite elem_of_sym_diff, !Hs, (Heq x y) by done. clear. set_solver.
  - etrans; [|apply size_union_le]. apply subseteq_size. intros e. rewrite elem_of_union, !elem_of_sym_diff.
    destruct (decide (e ∈ skeleton d2)); tauto.
Qed.

Example C28_example : shd cx1_dag cx2_dag = 3 ∧ shd_skeleton cx1_dag cx2_dag = 2.
Proof. by_vm. Qed.

(** ** C60: [chickering_distance] *)
Theorem C60_chickering_distance d1 d2 :
  acyclic (d_arcs d1) → acyclic (d_arcs d2) →
  edits 2 acyclic (chickering_distance d1 d2) (d_arcs d1) (d_arcs d2) ∧
  (∀ k, edits 2 (λ _, True) k (d_arcs d1) (d_arcs d2) → chickering_distance d1 d2 ≤ k) ∧
  chickering_distance d1 d2 = chickering_distance d2 d1.
Proof.
  intros H1 H2. rewrite !chickering_wdist. split; [by apply wdist_attained|]. split; [|apply wdist_sym].
  intros k. apply wdist_lower; [lia|]. by apply acyclic_oriented.
Qed.
Theorem C60_chickering_metric d1 d2 d3 :
  acyclic (d_arcs d1) → acyclic (d_arcs d2) → acyclic (d_arcs d3) →
  (chickering_distance d1 d2 = 0 ↔ d_arcs d1 = d_arcs d2) ∧
  chickering_distance d1 d3 ≤ chickering_distance d1 d2 + chickering_distance d2 d3.
Proof.
  intros H1 H2 H3. rewrite !chickering_wdist. split; [apply wdist_zero; [lia|done|done]|]. apply wdist_triangle; [lia|done|done|done].
Qed.
Example C60_example : chickering_distance cx1_dag cx2_dag = 5.
Proof. by_vm. Qed.

(** ** C61: [PDAG.shd] *)

(** The connection between [x] and [y] is of the same kind in both graphs. *)
Definition same_connection (g h : pdag) (x y : node) : Prop :=
  ((x, y) ∈ p_arcs g ↔ (x, y) ∈ p_arcs h) ∧ ((y, x) ∈ p_arcs g ↔ (y, x) ∈ p_arcs h) ∧ has_edge g x y = has_edge h x y.

Theorem C61_pdag_shd g h k :
  pdag_wf g → pdag_wf h → pdag_wf k →
  (∃ L : arcset, (∀ x y, (x, y) ∈ L ↔ x < y ∧ ¬ same_connection g h x y) ∧ p_shd g h = size L) ∧
  p_shd g h = p_shd h g ∧ (p_shd g h = 0 ↔ p_arcs g = p_arcs h ∧ p_edges g = p_edges h) ∧
  p_shd g k ≤ p_shd g h + p_shd h k.
Proof.
  rewrite <-!pok_pdag_wf. intros Hg Hh Hk. split; [|split; [by apply p_shd_sym|split; [by apply p_shd_zero|by apply p_shd_triangle]]].
  exists (differ g h). split; [|by apply p_shd_differ]. intros x y. rewrite elem_of_differ by done.
  assert (same_conn g h x y ↔ same_connection g h x y) as ->; [|done].
  unfold same_conn, same_connection. rewrite <-!has_edge_true. destruct (has_edge g x y), (has_edge h x y); intuition congruence.
Qed.
Example C61_example :
  match cpdag cx1_dag oracle0, cpdag cx2_dag oracle0 with Ok g, Ok h => bool_decide (p_shd g h = 3) | _, _ => false end = true.
Proof. vm_compute. reflexivity. Qed.

(** ** C33: confusion matrices *)

(** [r] is [a / b], or [c] if [b] is 0. *)
Definition quotient (a b : Z) (c r : Q) : Prop := (b = 0%Z → r = c) ∧ (b ≠ 0%Z → (r == inject_Z a / inject_Z b)%Q).
Lemma ratio_quotient a b c : quotient a b c (ratio a b c).
Proof. unfold quotient, ratio. split; intros H; [by rewrite decide_True|by rewrite decide_False]. Qed.

(** The skeleton version: the four counts are the numbers of node pairs of the four
    kinds, they add up to the number of pairs, and the rates are the documented quotients. *)
Theorem C33_confusion_skeleton d1 d2 :
  views_agree d1 → views_agree d2 → acyclic (d_arcs d1) → acyclic (d_arcs d2) → d_nodes d2 ⊆ d_nodes d1 →
  let c := confusion_skeleton d1 d2 in
  (∀ x y, upair x y ∈ sc_true_positives c ↔ adjacent (d_arcs d1) x y ∧ adjacent (d_arcs d2) x y) ∧
  (∀ x y, upair x y ∈ sc_false_positives c ↔ ¬ adjacent (d_arcs d1) x y ∧ adjacent (d_arcs d2) x y) ∧
  (∀ x y, upair x y ∈ sc_false_negatives c ↔ adjacent (d_arcs d1) x y ∧ ¬ adjacent (d_arcs d2) x y) ∧
  sc_num_tp c = size (sc_true_positives c) ∧ sc_num_fp c = size (sc_false_positives c) ∧ sc_num_fn c = size (sc_false_negatives c) ∧
  (∃ TN : arcset, (∀ x y, (x, y) ∈ TN ↔
      x < y ∧ x ∈ d_nodes d1 ∧ y ∈ d_nodes d1 ∧ ¬ adjacent (d_arcs d1) x y ∧ ¬ adjacent (d_arcs d2) x y) ∧
    sc_num_tn c = Z.of_nat (size TN) ∧
    2 * (sc_num_tp c + sc_num_fp c + sc_num_fn c + size TN) = size (d_nodes d1) * (size (d_nodes d1) - 1)) ∧
  quotient (Z.of_nat (sc_num_tp c)) (Z.of_nat (sc_num_tp c + sc_num_fn c)) 1 (sc_tpr c) ∧
  quotient (Z.of_nat (sc_num_fp c)) (Z.of_nat (sc_num_fp c) + sc_num_tn c) 0 (sc_fpr c).
Proof.
  rewrite <-!wf_views_agree. intros Hw1 Hw2 Hac1 Hac2 HN c. unfold c, confusion_skeleton. cbn.
  destruct (skel_counts d1 d2) as [Hc1 Hc2]; [done|by apply wf_over|done|..].
  { intros x y Hxy. apply (wf_over d2 Hw2) in Hxy as [??]. split; by apply HN. }
  cbv zeta in Hc1, Hc2. pose proof (comb2_pairs (d_nodes d1)) as Hp.
  split; [intros x y; unfold skeleton; by rewrite elem_of_intersection, !upair_as_edges|].
  split; [intros x y; unfold skeleton; rewrite elem_of_difference, !upair_as_edges; tauto|].
  split; [intros x y; unfold skeleton; by rewrite elem_of_difference, !upair_as_edges|].
  do 3 (split; [done|]). split; [|split].
  - exists (non_pairs d1 d2). split; [apply elem_of_non_pairs|]. split; [rewrite Hp, Hc2; lia|].
    rewrite <-size_pairs_of, Hc2. lia.
  - rewrite <-Hc1. apply ratio_quotient.
  - replace (Z.of_nat (size (skeleton d2 ∖ skeleton d1)) + _)%Z with (comb2 (size (d_nodes d1)) - Z.of_nat (size (skeleton d1)))%Z;
      [apply ratio_quotient|]. rewrite Hp, Hc2, Hc1. lia.
Qed.
Example C33_skeleton_example :
  let c := confusion_skeleton cx1_dag cx2_dag in sc_num_tp c = 2 ∧ sc_num_fp c = 1 ∧ sc_num_fn c = 1 ∧ sc_num_tn c = 6%Z.
Proof. cbv zeta. by_vm. Qed.

Lemma edge_either g x y : pok g → (x, y) ∈ p_edges g ∨ (y, x) ∈ p_edges g ↔ has_edge g x y = true.
Proof.
  intros Hg. rewrite has_edge_true. unfold upair. split.
  - intros [H|H]; pose proof (pok_edge g Hg _ H) as Hlt; cbn in Hlt; [rewrite Nat.min_l, Nat.max_r by lia|rewrite Nat.min_r, Nat.max_l by lia]; done.
  - destruct (decide (x < y)); [rewrite Nat.min_l, Nat.max_r by lia|rewrite Nat.min_r, Nat.max_l by lia]; tauto.
Qed.

(** The nine sets and two of the four counts are as documented.  Missing from the
    claim: [num_false_positives] and [num_true_negatives], see the refutations. *)
Theorem C33_confusion_matrix_partial d1 d2 o1 o2 :
  views_agree d1 → views_agree d2 → acyclic (d_arcs d1) → acyclic (d_arcs d2) →
  ∃ g h c, cpdag d1 o1 = Ok g ∧ cpdag d2 o2 = Ok h ∧ confusion_matrix d1 d2 o1 o2 = Ok c ∧
  (∀ x y, (x, y) ∈ cm_false_positive_arcs c ↔ (x, y) ∈ p_arcs h ∧ (x, y) ∉ p_arcs g ∧ has_edge g x y = false) ∧
  (∀ x y, upair x y ∈ cm_false_positive_edges c ↔ has_edge h x y = true ∧ ¬ adjacent (p_arcs g) x y ∧ has_edge g x y = false) ∧
  (∀ x y, (x, y) ∈ cm_false_negative_arcs c ↔ (x, y) ∈ p_arcs g ∧ (x, y) ∉ p_arcs h ∧ has_edge h x y = false) ∧
  (∀ x y, (x, y) ∈ cm_true_positive_arcs c ↔ (x, y) ∈ p_arcs g ∧ (x, y) ∈ p_arcs h) ∧
  (∀ x y, (x, y) ∈ cm_reversed_arcs c ↔ (x, y) ∈ p_arcs g ∧ (y, x) ∈ p_arcs h) ∧
  (∀ x y, (x, y) ∈ cm_mistaken_arcs_for_edges c ↔ (x, y) ∈ p_arcs g ∧ has_edge h x y = true) ∧
  (∀ x y, upair x y ∈ cm_false_negative_edges c ↔ has_edge g x y = true ∧ ¬ adjacent (p_arcs h) x y ∧ has_edge h x y = false) ∧
  (∀ x y, upair x y ∈ cm_true_positive_edges c ↔ has_edge g x y = true ∧ has_edge h x y = true) ∧
  (∀ x y, upair x y ∈ cm_mistaken_edges_for_arcs c ↔ has_edge g x y = true ∧ adjacent (p_arcs h) x y) ∧
  cm_num_fn c = size (cm_false_negative_arcs c) + size (cm_false_negative_edges c) + size (cm_mistaken_arcs_for_edges c) + size (cm_reversed_arcs c) ∧
  cm_num_tp c = size (cm_true_positive_arcs c) + size (cm_true_positive_edges c) + size (cm_mistaken_edges_for_arcs c) ∧
  quotient (Z.of_nat (cm_num_tp c)) (Z.of_nat (cm_num_tp c + cm_num_fp c)) 1 (cm_precision c).
Proof.
  rewrite <-!wf_views_agree. intros Hw1 Hw2 Hac1 Hac2.
  destruct (cpdag_spec d1 Hw1 Hac1 o1) as (g & Hg & Hcg & _). destruct (cpdag_spec d2 Hw2 Hac2 o2) as (h & Hh & Hch & _).
  pose proof (sh_ok _ _ (cf_shows _ _ _ _ Hcg)) as Pg. pose proof (sh_ok _ _ (cf_shows _ _ _ _ Hch)) as Ph.
  exists g, h, (confusion_of g h (size (d_nodes d1)) (size (d_arcs d1))). split; [done|]. split; [done|].
  split; [unfold confusion_matrix; by rewrite Hg, Hh|]. unfold confusion_of. cbn.
  assert (∀ k x y, has_edge k x y = false ↔ ¬ has_edge k x y = true) as Hf by (intros k x y; destruct (has_edge k x y); intuition congruence).
  split; [intros x y; rewrite !elem_of_difference, elem_of_rev_arcs, Hf, <-(edge_either g x y Pg); tauto|].
  split; [intros x y; rewrite !elem_of_difference, upair_as_edges, Hf, !has_edge_true; tauto|].
  split; [intros x y; rewrite !elem_of_difference, elem_of_rev_arcs, Hf, <-(edge_either h x y Ph); tauto|].
  split; [intros x y; by rewrite elem_of_intersection|].
  split; [intros x y; by rewrite elem_of_intersection, elem_of_rev_arcs|].
  split; [intros x y; by rewrite elem_of_intersection, elem_of_union, elem_of_rev_arcs, <-(edge_either h x y Ph)|].
  split; [intros x y; rewrite !elem_of_difference, upair_as_edges, Hf, !has_edge_true; tauto|].
  split; [intros x y; by rewrite elem_of_intersection, !has_edge_true|].
  split; [intros x y; by rewrite elem_of_intersection, upair_as_edges, has_edge_true|].
  split; [done|]. split; [lia|]. apply ratio_quotient.
Qed.
Example C33_confusion_example :
  match confusion_matrix cx1_dag cx2_dag oracle0 oracle0 with
  | Ok c => bool_decide (cm_mistaken_edges_for_arcs c = {[(2, 3)]} ∧ cm_true_positive_edges c = {[(1, 2)]} ∧
              cm_false_positive_arcs c = {[(5, 3)]} ∧ cm_num_tp c = 2)
  | _ => false end = true.
Proof. vm_compute. reflexivity. Qed.

(** The documented [num_false_positives] is the number of false positive arcs and
    edges; the code adds the false {e negative} arcs instead. *)
Theorem C33_false_positives_refuted :
  ∃ d1 d2 o c, views_agree d1 ∧ views_agree d2 ∧ acyclic (d_arcs d1) ∧ acyclic (d_arcs d2) ∧ d_nodes d1 = d_nodes d2 ∧
    confusion_matrix d1 d2 o o = Ok c ∧ cm_num_fp c ≠ size (cm_false_positive_arcs c) + size (cm_false_positive_edges c).
Proof.
  pose (d1 := dag_of {[0; 1; 2]} ∅). pose (d2 := dag_of ∅ {[(0, 1); (2, 1)]}).
  assert (views_agree d1) as Hv1 by apply wf_views_agree, dag_of_wf. assert (views_agree d2) as Hv2 by apply wf_views_agree, dag_of_wf.
  assert (acyclic (d_arcs d1)) as Ha1 by by_vm. assert (acyclic (d_arcs d2)) as Ha2 by by_vm.
  destruct (C33_confusion_matrix_partial d1 d2 oracle0 oracle0 Hv1 Hv2 Ha1 Ha2) as (g & h & c & _ & _ & Hc & _).
  exists d1, d2, oracle0, c. do 4 (split; [assumption|]). split; [by_vm|]. split; [exact Hc|].
  assert (match confusion_matrix d1 d2 oracle0 oracle0 with
    | Ok c => bool_decide (cm_num_fp c ≠ size (cm_false_positive_arcs c) + size (cm_false_positive_edges c)) | _ => false end = true) as Hr
    by (vm_compute; reflexivity).
  rewrite Hc in Hr. by apply bool_decide_eq_true in Hr.
Qed.

(** [num_true_negatives] can be negative and the false positive rate can exceed 1. *)
Theorem C33_true_negatives_refuted :
  ∃ d1 d2 o c, views_agree d1 ∧ views_agree d2 ∧ acyclic (d_arcs d1) ∧ acyclic (d_arcs d2) ∧ d_nodes d1 = d_nodes d2 ∧
    confusion_matrix d1 d2 o o = Ok c ∧ (cm_num_tn c < 0)%Z ∧ (1 < cm_fpr c)%Q.
Proof.
  pose (d1 := dag_of ∅ {[(0, 2); (1, 2); (0, 3); (1, 3)]}). pose (d2 := dag_of ∅ {[(2, 0); (2, 1); (3, 0); (3, 1)]}).
  assert (views_agree d1) as Hv1 by apply wf_views_agree, dag_of_wf. assert (views_agree d2) as Hv2 by apply wf_views_agree, dag_of_wf.
  assert (acyclic (d_arcs d1)) as Ha1 by by_vm. assert (acyclic (d_arcs d2)) as Ha2 by by_vm.
  destruct (C33_confusion_matrix_partial d1 d2 oracle0 oracle0 Hv1 Hv2 Ha1 Ha2) as (g & h & c & _ & _ & Hc & _).
  exists d1, d2, oracle0, c. do 4 (split; [assumption|]). split; [by_vm|]. split; [exact Hc|].
  assert (match confusion_matrix d1 d2 oracle0 oracle0 with
    | Ok c => bool_decide (cm_num_tn c < 0)%Z && negb (Qle_bool (cm_fpr c) 1) | _ => false end = true) as Hr
    by (vm_compute; reflexivity).
  rewrite Hc in Hr. apply andb_true_iff in Hr as [H1 H2]. apply bool_decide_eq_true in H1. split; [done|].
  apply Qnot_le_lt. intros Hle. apply Qle_bool_iff in Hle. by rewrite Hle in H2.
Qed.

(** ** C29: adjacency matrices of DAGs *)

(** The value at row [i] and column [j]. *)
Definition value (A : amat) (i j : nat) : Z := default 0%Z (a_at A !! (i, j)).

(** [to_amat] with any order of the nodes (or none) yields the 0/1 matrix of the arcs. *)
Theorem C29_to_amat d o nl :
  views_agree d → (∀ x l, nl = Some (x :: l) → listing (d_nodes d) (x :: l)) →
  ∃ A l, to_amat d o nl = Ok (A, l) ∧ listing (d_nodes d) l ∧ (∀ x l', nl = Some (x :: l') → l = x :: l') ∧
    a_rows A = size (d_nodes d) ∧ a_cols A = size (d_nodes d) ∧
    (∀ i j x y, l !! i = Some x → l !! j = Some y → value A i j = if decide ((x, y) ∈ d_arcs d) then 1%Z else 0%Z).
Proof.
  rewrite <-wf_views_agree. intros Hwf Hnl.
  assert (listing (d_nodes d) (order_of (d_nodes d) nl)) as Hl.
  { unfold order_of. destruct nl as [[|x l]|]; [apply sorted_listing|by apply Hnl|apply sorted_listing]. }
  destruct (to_amat_ok d o nl Hwf Hl) as (A & HA & H1 & H2 & H3). exists A, (order_of (d_nodes d) nl). split; [done|]. split; [done|].
  split; [by intros x l' ->|]. split; [done|]. split; [done|]. intros i j x y Hx Hy. unfold value.
  destruct (a_at A !! (i, j)) as [v|] eqn:Hv; cbn.
  - apply H3 in Hv as [-> (x' & y' & Hx' & Hy' & Ha)]. rewrite decide_True by congruence. done.
  - rewrite decide_False; [done|]. intros Ha. assert (a_at A !! (i, j) = Some 1%Z) as Hs.
    { apply H3. split; [done|]. by exists x, y. } congruence.
Qed.

(** [from_amat] builds the graph of the off-diagonal non-zero entries and raises
    exactly if that graph is cyclic. *)
Theorem C29_from_amat A o :
  a_rows A ≤ a_cols A →
  ∃ E : arcset, (∀ i j, (i, j) ∈ E ↔ i < a_rows A ∧ j < a_rows A ∧ i ≠ j ∧ value A i j ≠ 0%Z) ∧
    (acyclic E → ∃ d, from_amat A o = Ok d ∧ views_agree d ∧ d_arcs d = E ∧ ∀ x, x ∈ d_nodes d ↔ x < a_rows A) ∧
    (¬ acyclic E → ∃ e, from_amat A o = Raise e).
Proof.
  intros Hle. exists (support A). split; [apply elem_of_support|]. rewrite from_amat_eq by done. split.
  - intros Hac. destruct (dag_make_ok o (list_to_set (seq 0 (a_rows A))) _ Hac) as [d Hd]. exists d. split; [done|].
    apply dag_make_spec in Hd as (Hwf & _ & HE & HN). split; [by apply wf_views_agree|]. split; [done|]. intros x. rewrite HN.
    rewrite !elem_of_union, elem_of_list_to_set, elem_of_seq, !elem_of_map. split; [|intros; left; left; lia].
    intros [[?|([i j] & -> & H)]|([i j] & -> & H)]; [lia|..]; apply elem_of_support in H; cbn; tauto.
  - intros Hn. destruct (dag_make _ _ _) as [d|e] eqn:Hd; [|by exists e]. apply dag_make_spec in Hd as (_ & Hac & HE & _).
    by rewrite HE in Hac.
Qed.

(** Round trip: the DAG comes back with its nodes renamed to their positions. *)
Theorem C29_round_trip d o o' nl :
  views_agree d → acyclic (d_arcs d) → (∀ x l, nl = Some (x :: l) → listing (d_nodes d) (x :: l)) →
  ∃ A l d', to_amat d o nl = Ok (A, l) ∧ from_amat A o' = Ok d' ∧ views_agree d' ∧ listing (d_nodes d) l ∧
    (∀ i, i ∈ d_nodes d' ↔ i < size (d_nodes d)) ∧
    (∀ i j x y, l !! i = Some x → l !! j = Some y → (i, j) ∈ d_arcs d' ↔ (x, y) ∈ d_arcs d) ∧
    (∀ i j, (i, j) ∈ d_arcs d' → is_Some (l !! i) ∧ is_Some (l !! j)).
Proof.
  intros Hv Hac Hnl. destruct (C29_to_amat d o nl Hv Hnl) as (A & l & HA & Hl & _ & Hr & Hc & Hval).
  assert (length l = size (d_nodes d)) as Hlen by by apply listing_length.
  destruct (C29_from_amat A o') as (E & HE & Hok & _); [lia|].
  assert (∀ i j x y, l !! i = Some x → l !! j = Some y → (i, j) ∈ E ↔ (x, y) ∈ d_arcs d) as HEd.
  { intros i j x y Hx Hy. rewrite HE, (Hval i j x y Hx Hy). apply lookup_lt_Some in Hx as Hi. apply lookup_lt_Some in Hy as Hj. case_decide as Ha.
    - split; [done|]. intros _. split; [lia|]. split; [lia|]. split; [|done]. intros ->. rewrite Hx in Hy. injection Hy as ->.
      by apply (acyclic_irr (d_arcs d) y).
    - split; [|done]. intros (_ & _ & _ & ?). done. }
  assert (acyclic E) as HacE.
  { apply (acyclic_img E (d_arcs d) (λ i, default 0 (l !! i))); [done|]. intros i j Hij.
    pose proof (proj1 (HE i j) Hij) as (Hi & Hj & _). rewrite Hr, <-Hlen in Hi, Hj.
    apply lookup_lt_is_Some in Hi as [x Hx]. apply lookup_lt_is_Some in Hj as [y Hy]. rewrite Hx, Hy. cbn. by apply (HEd i j x y Hx Hy). }
  destruct (Hok HacE) as (d' & Hd' & Hv' & HE' & HN'). exists A, l, d'. split; [done|]. split; [done|]. split; [done|]. split; [done|].
  split; [intros i; by rewrite HN', Hr|]. rewrite HE'. split; [done|]. intros i j Hij. apply HE in Hij as (Hi & Hj & _).
  rewrite Hr, <-Hlen in Hi, Hj. split; by apply lookup_lt_is_Some.
Qed.
Example C29_example :
  match to_amat cx1_dag oracle0 (Some [4; 1; 2; 3; 5]) with
  | Ok (A, l) => bool_decide (l = [4; 1; 2; 3; 5] ∧ value A 1 0 = 1%Z ∧ value A 1 2 = 1%Z ∧ value A 2 1 = 0%Z) &&
      match from_amat A oracle0 with Ok d => bool_decide (d_arcs d = {[(1, 0); (1, 2); (2, 3)]} ∧ size (d_nodes d) = 5) | _ => false end
  | _ => false end = true.
Proof. vm_compute. reflexivity. Qed.

(** ** C30: adjacency matrices of PDAGs *)
Lemma p_matrix g o nl axis :
  pok g → (∀ l, nl = Some l → listing (p_nodes g) l) →
  ∃ A l, p_to_amat g o nl axis = Ok (A, l) ∧ listing (p_nodes g) l ∧ length l = size (p_nodes g) ∧
    (∀ l', nl = Some l' → l = l') ∧ a_rows A = size (p_nodes g) ∧ a_cols A = size (p_nodes g) ∧
    (∀ i j x y, l !! i = Some x → l !! j = Some y →
      entry A i j ≠ 0%Z ↔ (if decide (axis = 0) then (x, y) ∈ p_arcs g else (y, x) ∈ p_arcs g) ∨ upair x y ∈ p_edges g).
Proof.
  intros Hg Hnl. assert (listing (p_nodes g) (default (sorted_nodes (p_nodes g)) nl)) as Hl.
  { destruct nl as [l|]; [by apply Hnl|apply sorted_listing]. }
  destruct (p_to_amat_ok g o nl axis Hg Hl) as (A & HA & HM). exists A, (default (sorted_nodes (p_nodes g)) nl). split; [done|]. split; [done|].
  split; [by apply listing_length|]. split; [by intros l' ->|]. pose proof HM as (H1 & H2 & _). split; [done|]. split; [done|].
  intros i j x y Hx Hy. rewrite (marks_entry _ _ _ _ _ HM). split.
  - intros (x' & y' & Hx' & Hy' & H). rewrite Hx in Hx'. rewrite Hy in Hy'. injection Hx' as <-. injection Hy' as <-. done.
  - intros H. by exists x, y.
Qed.

Lemma entry_case A i j P : (entry A i j ≠ 0%Z ↔ P) → entry A i j = 0%Z ↔ ¬ P.
Proof. destruct (decide (entry A i j = 0%Z)); tauto. Qed.

(** Rows as sources: [from_amat] inverts [to_amat]; nodes become positions. *)
Theorem C30_axis0_partial g o o' nl :
  pdag_wf g → (∀ l, nl = Some l → listing (p_nodes g) l) →
  ∃ A l g', p_to_amat g o nl 0 = Ok (A, l) ∧ p_from_amat A o' 0 = Ok g' ∧ pdag_wf g' ∧ listing (p_nodes g) l ∧
    (∀ i, i ∈ p_nodes g' ↔ i < length l) ∧
    (∀ i j x y, l !! i = Some x → l !! j = Some y →
      ((i, j) ∈ p_arcs g' ↔ (x, y) ∈ p_arcs g) ∧ has_edge g' i j = has_edge g x y).
Proof.
  rewrite <-pok_pdag_wf. intros Hg Hnl. destruct (p_matrix g o nl 0 Hg Hnl) as (A & l & HA & Hl & Hlen & _ & Hr & Hc & Hent).
  destruct (build_ok A 0 false (λ i, i) (list_to_set (seq 0 (a_rows A))) o') as (arcs & edges & Heq & Hok & HN & _ & _ & Harcs & Hedges).
  { congruence. } { done. } { intros i Hi. apply elem_of_list_to_set. apply elem_of_seq. lia. }
  assert (∀ L : list arc, (λ a : arc, (a.1, a.2)) <$> L = L) as Hid.
  { intros L. rewrite <-(list_fmap_id L) at 2. apply list_fmap_ext. by intros ? [] ?. }
  rewrite !Hid in *. eexists A, l, _. split; [done|]. split; [unfold p_from_amat; by rewrite Heq|]. cbn [fst snd].
  split; [by apply pok_pdag_wf|]. split; [done|]. split.
  { intros i. rewrite HN, elem_of_list_to_set, elem_of_seq, Hr, Hlen. lia. }
  intros i j x y Hx Hy. apply lookup_lt_Some in Hx as Hi. apply lookup_lt_Some in Hy as Hj.
  assert (i ≠ j ↔ x ≠ y) as Hne.
  { split; intros H Heq'; subst; apply H; [|congruence]. destruct Hl as [Hnd _]. by eapply NoDup_lookup. }
  pose proof (Hent i j x y Hx Hy) as E1. pose proof (Hent j i y x Hy Hx) as E2. rewrite decide_True in E1, E2 by done.
  rewrite (upair_comm y x) in E2. pose proof (conn_cases g x y Hg) as Hcc.
  split.
  - rewrite Harcs by lia. unfold oriented_as. rewrite E1, E2, (entry_case _ _ _ _ E1), (entry_case _ _ _ _ E2), !decide_True by done.
    assert (((x, y) ∈ p_arcs g → i ≠ j)) as Hirr. { intros H. apply Hne. intros ->. by apply (pok_irr g y Hg). }
    split.
    + intros [[Hlt [(H1 & H2 & _)|(H1 & H2 & H3)]]|[Hlt [(H1 & H2 & H3)|(H1 & H2 & _)]]]; [tauto| | |tauto]; injection H3; lia.
    + intros H. specialize (Hirr H). assert ((y, x) ∉ p_arcs g ∧ upair x y ∉ p_edges g) as [] by (clear -Hcc H; tauto).
      destruct (decide (i < j)); [left; split; [done|]; left; tauto|right; split; [lia|]; right; tauto].
  - apply eq_true_iff_eq. rewrite !has_edge_true. rewrite Hedges, E1, E2 by lia.
    assert (upair x y ∈ p_edges g → x ≠ y) as Hn by by apply upair_edge_ne. rewrite Hne. clear -Hcc Hn. tauto.
Qed.
Example C30_example :
  match cpdag cx2_dag oracle0 with
  | Ok g => match p_to_amat g oracle0 None 0 with
            | Ok (A, l) => match p_from_amat A oracle0 0 with
                           | Ok g' => bool_decide (l = [1; 2; 3; 4; 5] ∧ p_arcs g' = {[(1, 2); (4, 2)]} ∧ p_edges g' = {[(0, 1)]}) | _ => false end
            | _ => false end
  | _ => false end = true.
Proof. vm_compute. reflexivity. Qed.

(** Columns as sources: every arc comes back pointing from the later to the earlier
    position, whatever its direction was; edges are kept. *)
Theorem C30_axis1_partial g o o' nl :
  pdag_wf g → (∀ l, nl = Some l → listing (p_nodes g) l) →
  ∃ A l g', p_to_amat g o nl 1 = Ok (A, l) ∧ p_from_amat A o' 1 = Ok g' ∧ pdag_wf g' ∧ listing (p_nodes g) l ∧
    (∀ i, i ∈ p_nodes g' ↔ i < length l) ∧
    (∀ i j x y, l !! i = Some x → l !! j = Some y →
      ((i, j) ∈ p_arcs g' ↔ j < i ∧ adjacent (p_arcs g) x y) ∧ has_edge g' i j = has_edge g x y).
Proof.
  rewrite <-pok_pdag_wf. intros Hg Hnl. destruct (p_matrix g o nl 1 Hg Hnl) as (A & l & HA & Hl & Hlen & _ & Hr & Hc & Hent).
  destruct (build_ok A 1 false (λ i, i) (list_to_set (seq 0 (a_rows A))) o') as (arcs & edges & Heq & Hok & HN & _ & _ & Harcs & Hedges).
  { congruence. } { done. } { intros i Hi. apply elem_of_list_to_set. apply elem_of_seq. lia. }
  assert (∀ L : list arc, (λ a : arc, (a.1, a.2)) <$> L = L) as Hid.
  { intros L. rewrite <-(list_fmap_id L) at 2. apply list_fmap_ext. by intros ? [] ?. }
  rewrite !Hid in *. eexists A, l, _. split; [done|]. split; [unfold p_from_amat; by rewrite Heq|]. cbn [fst snd].
  split; [by apply pok_pdag_wf|]. split; [done|]. split.
  { intros i. rewrite HN, elem_of_list_to_set, elem_of_seq, Hr, Hlen. lia. }
  intros i j x y Hx Hy. apply lookup_lt_Some in Hx as Hi. apply lookup_lt_Some in Hy as Hj.
  assert (i ≠ j ↔ x ≠ y) as Hne.
  { split; intros H Heq'; subst; apply H; [|congruence]. destruct Hl as [Hnd _]. by eapply NoDup_lookup. }
  pose proof (Hent i j x y Hx Hy) as E1. pose proof (Hent j i y x Hy Hx) as E2. rewrite decide_False in E1, E2 by done.
  rewrite (upair_comm y x) in E2. pose proof (conn_cases g x y Hg) as Hcc.
  split.
  - rewrite Harcs by lia. unfold oriented_as, adjacent. rewrite E1, E2, (entry_case _ _ _ _ E1), (entry_case _ _ _ _ E2), !decide_False by done. split.
    + intros [[Hlt [(H1 & H2 & H3)|(H1 & H2 & H3)]]|[Hlt [(H1 & H2 & H3)|(H1 & H2 & H3)]]]; [injection H3; lia|injection H3; lia|..]; (split; [done|tauto]).
    + intros [Hlt H]. right. split; [done|]. clear -Hcc H. tauto.
  - apply eq_true_iff_eq. rewrite !has_edge_true. rewrite Hedges, E1, E2 by lia.
    assert (upair x y ∈ p_edges g → x ≠ y) as Hn by by apply upair_edge_ne. rewrite Hne. clear -Hcc Hn. tauto.
Qed.

(** So the round trip fails for [source_axis=1]. *)
Theorem C30_axis1_refuted :
  ∃ g o A l g', pdag_wf g ∧ (∀ i, i ∈ p_nodes g ↔ i < 2) ∧ p_to_amat g o None 1 = Ok (A, l) ∧ p_from_amat A o 1 = Ok g' ∧
    p_nodes g' = p_nodes g ∧ p_arcs g' ≠ p_arcs g.
Proof.
  pose (g := pdag_make oracle0 {[0; 1]} {[(0, 1)]} ∅ ∅).
  destruct (pdag_make_ok oracle0 {[0; 1]} {[(0, 1)]} ∅ ∅) as (Hg & HA & _ & _ & HN & _).
  { intros x y. rewrite !elem_of_singleton. congruence. } { intros x. clear. set_solver. } { intros x y. clear. set_solver. }
  fold g in Hg, HA, HN.
  assert (p_nodes g = {[0; 1]}) as HNg. { apply HN; [|intros x y; clear; set_solver]. intros x y. rewrite elem_of_singleton. intros [= -> ->]. clear. set_solver. }
  assert (pdag_wf g) as Hwf by by apply pok_pdag_wf.
  destruct (C30_axis1_partial g oracle0 oracle0 None Hwf) as (A & l & g' & H1 & H2 & _); [done|].
  exists g, oracle0, A, l, g'. split; [done|]. split.
  { intros i. rewrite HNg, elem_of_union, !elem_of_singleton. lia. }
  split; [done|]. split; [done|].
  assert (match p_to_amat g oracle0 None 1 with
    | Ok (A, _) => match p_from_amat A oracle0 1 with Ok g' => bool_decide (p_nodes g' = p_nodes g ∧ p_arcs g' ≠ p_arcs g) | _ => false end
    | _ => false end = true) as Hr by (vm_compute; reflexivity).
  rewrite H1, H2 in Hr. by apply bool_decide_eq_true in Hr.
Qed.

(** The data-frame versions, which also keep the labels, are inverse for both axes. *)
Theorem C30_data_frame g o o' nl axis :
  pdag_wf g → (∀ l, nl = Some l → listing (p_nodes g) l) →
  ∃ A l g', p_to_amat g o nl axis = Ok (A, l) ∧ p_from_df A l o' axis = Ok g' ∧ pdag_wf g' ∧
    p_nodes g' = p_nodes g ∧ p_arcs g' = p_arcs g ∧ p_edges g' = p_edges g.
Proof.
  rewrite <-pok_pdag_wf. intros Hg Hnl. destruct (p_matrix g o nl axis Hg Hnl) as (A & l & HA & Hl & Hlen & _ & Hr & Hc & Hent).
  assert (∀ i, i < length l → l !! i = Some (nth i l 0)) as Hnth.
  { intros i Hi. destruct (lookup_lt_is_Some_2 l i Hi) as [x Hx]. rewrite Hx. f_equal. symmetry. by apply nth_lookup_Some. }
  destruct (build_ok A axis true (λ i, nth i l 0) (list_to_set l) o') as (arcs & edges & Heq & Hok & HN & Hia & Hie & Harcs & Hedges).
  { congruence. }
  { intros i j Hi Hj Hij. rewrite Hr, <-Hlen in Hi, Hj. destruct Hl as [Hnd _]. eapply NoDup_lookup; [done|by apply Hnth|]. rewrite Hij. by apply Hnth. }
  { intros i Hi. apply elem_of_list_to_set. rewrite Hr, <-Hlen in Hi. eapply elem_of_list_lookup_2. by apply Hnth. }
  eexists A, l, _. split; [done|]. split; [unfold p_from_df; by rewrite Heq|]. cbn [fst snd].
  split; [by apply pok_pdag_wf|]. split.
  { rewrite HN. apply set_eq. intros x. rewrite elem_of_list_to_set. apply Hl. }
  set (g' := pdag_make _ _ _ _ _) in *.
  assert (∀ x y, x ∈ p_nodes g → y ∈ p_nodes g → ((x, y) ∈ p_arcs g' ↔ (x, y) ∈ p_arcs g) ∧ (upair x y ∈ p_edges g' ↔ upair x y ∈ p_edges g)) as Hmain.
  { intros x y Hxn Hyn. apply Hl in Hxn. apply Hl in Hyn. apply elem_of_list_lookup in Hxn as [i Hx]. apply elem_of_list_lookup in Hyn as [j Hy].
    apply lookup_lt_Some in Hx as Hi. apply lookup_lt_Some in Hy as Hj.
    assert (x = nth i l 0) as Hxi by (rewrite (Hnth i Hi) in Hx; congruence). assert (y = nth j l 0) as Hyj by (rewrite (Hnth j Hj) in Hy; congruence).
    assert (i ≠ j ↔ x ≠ y) as Hne.
    { split; intros H Heq'; [|congruence]. apply H. destruct Hl as [Hnd _]. eapply NoDup_lookup; [done| |exact Hy]. by rewrite <-Heq'. }
    pose proof (Hent i j x y Hx Hy) as E1. pose proof (Hent j i y x Hy Hx) as E2. rewrite (upair_comm y x) in E2. pose proof (conn_cases g x y Hg) as Hcc.
    assert ((x, y) ∈ p_arcs g → i ≠ j) as Hirr. { intros H. apply Hne. intros Hxy. rewrite Hxy in H. by apply (pok_irr g y Hg). }
    assert (upair x y ∈ p_edges g → x ≠ y) as Hn by by apply upair_edge_ne.
    pose proof (Harcs i j ltac:(lia) ltac:(lia)) as HA'. pose proof (Hedges i j ltac:(lia) ltac:(lia)) as HE'. rewrite <-Hxi, <-Hyj in HA', HE'.
    split.
    - rewrite HA'. unfold oriented_as. rewrite E1, E2, (entry_case _ _ _ _ E1), (entry_case _ _ _ _ E2). clear -Hcc Hirr. destruct (decide (axis = 0)); split.
      + intros [[Hlt [(H1 & H2 & _)|(H1 & H2 & H3)]]|[Hlt [(H1 & H2 & H3)|(H1 & H2 & _)]]]; [tauto| | |tauto]; injection H3; lia.
      + intros H. specialize (Hirr H). assert ((y, x) ∉ p_arcs g ∧ upair x y ∉ p_edges g) as [] by (clear -Hcc H; tauto).
        destruct (decide (i < j)); [left; split; [done|]; left; tauto|right; split; [lia|]; right; tauto].
      + intros [[Hlt [(H1 & H2 & H3)|(H1 & H2 & _)]]|[Hlt [(H1 & H2 & _)|(H1 & H2 & H3)]]]; [|tauto|tauto|]; injection H3; lia.
      + intros H. specialize (Hirr H). assert ((y, x) ∉ p_arcs g ∧ upair x y ∉ p_edges g) as [] by (clear -Hcc H; tauto).
        destruct (decide (i < j)); [left; split; [done|]; right; tauto|right; split; [lia|]; left; tauto].
    - rewrite HE', E1, E2, Hne. clear -Hcc Hn. destruct (decide (axis = 0)); tauto. }
  assert (∀ i, i < a_rows A → nth i l 0 ∈ p_nodes g) as Hin.
  { intros i Hi. apply Hl. rewrite Hr, <-Hlen in Hi. eapply elem_of_list_lookup_2. by apply Hnth. }
  split; apply set_eq; intros [x y].
  - split; intros H.
    + pose proof H as H'. apply Hia in H' as (i & j & Hi & Hj & -> & ->). apply Hmain; [by apply Hin|by apply Hin|done].
    + pose proof H as H'. apply (pok_over g Hg) in H' as [??]. by apply Hmain.
  - assert (∀ k, pok k → (x, y) ∈ p_edges k ↔ x < y ∧ upair x y ∈ p_edges k) as Hu.
    { clear. intros k Hk. split.
      - intros H. pose proof (pok_edge k Hk _ H) as Hlt. cbn in Hlt. split; [done|]. unfold upair. by rewrite Nat.min_l, Nat.max_r by lia.
      - intros [Hlt H]. unfold upair in H. by rewrite Nat.min_l, Nat.max_r in H by lia. }
    rewrite !Hu by done. split; intros [Hlt H]; (split; [done|]).
    + pose proof H as H'. apply Hie in H' as (i & j & Hi & Hj & -> & ->). apply Hmain; [by apply Hin|by apply Hin|done].
    + pose proof H as H'. apply (over_upair (p_nodes g)) in H' as [??]; [|apply (pok_over g Hg)]. by apply Hmain.
Qed.
Example C30_data_frame_example :
  match cpdag cx2_dag oracle0 with
  | Ok g => match p_to_amat g oracle0 (Some [5; 3; 1; 2; 4]) 1 with
            | Ok (A, l) => match p_from_df A l oracle0 1 with
                           | Ok g' => bool_decide (p_arcs g' = {[(2, 3); (5, 3)]} ∧ p_edges g' = {[(1, 2)]}) | _ => false end
            | _ => false end
  | _ => false end = true.
Proof. vm_compute. reflexivity. Qed.

Print Assumptions C28_shd_edit_distance.
Print Assumptions C28_shd_metric.
Print Assumptions C28_shd_skeleton.
Print Assumptions C60_chickering_distance.
Print Assumptions C60_chickering_metric.
Print Assumptions C61_pdag_shd.
Print Assumptions C33_confusion_skeleton.
Print Assumptions C33_confusion_matrix_partial.
Print Assumptions C33_false_positives_refuted.
Print Assumptions C33_true_negatives_refuted.
Print Assumptions C29_to_amat.
Print Assumptions C29_from_amat.
Print Assumptions C29_round_trip.
Print Assumptions C30_axis0_partial.
Print Assumptions C30_axis1_partial.
Print Assumptions C30_axis1_refuted.
Print Assumptions C30_data_frame.
