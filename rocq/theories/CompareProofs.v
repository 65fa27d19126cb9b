(** Distances of partially directed graphs, confusion matrices. *)
From Coq Require Import QArith.
From Verif Require Import Py Spec SpecDsep SpecMec SpecCompare DagModel UGraphModel PdagModel CompareModel TopoProofs StateProofs ReachProofs
  OrderProofs QueryProofs MarkovProofs UGraphProofs PdagProofs ProtProofs EquivProofs ShdProofs.
#[local] Open Scope nat_scope.

(** ** [PDAG.shd] *)

(** The connection between [x] and [y] is the same in both graphs. *)
Definition same_conn (g h : pdag) (x y : node) : Prop :=
  ((x, y) ∈ p_arcs g ↔ (x, y) ∈ p_arcs h) ∧ ((y, x) ∈ p_arcs g ↔ (y, x) ∈ p_arcs h) ∧
  (upair x y ∈ p_edges g ↔ upair x y ∈ p_edges h).
Global Instance same_conn_dec g h x y : Decision (same_conn g h x y).
Proof. unfold same_conn. apply _. Defined.
Definition conns (g : pdag) : arcset := as_edges (p_arcs g) ∪ p_edges g.
Definition differ (g h : pdag) : arcset := filter (λ e : arc, ¬ same_conn g h e.1 e.2) (conns g ∪ conns h).

Lemma conns_lt g e : pok g → e ∈ conns g → e.1 < e.2.
Proof.
  intros Hg [(a & Ha & ->)%elem_of_as_edges|He]%elem_of_union; [|by apply (pok_edge g Hg)].
  apply upair_lt. intros Heq. destruct a as [x y]. cbn in Heq. subst. by apply (pok_asym g Hg y y).
Qed.
Lemma upair_conns g x y : upair x y ∈ conns g ↔ adjacent (p_arcs g) x y ∨ upair x y ∈ p_edges g.
Proof. unfold conns. by rewrite elem_of_union, upair_as_edges. Qed.

Lemma elem_of_differ g h x y : pok g → pok h → (x, y) ∈ differ g h ↔ x < y ∧ ¬ same_conn g h x y.
Proof.
  intros Hg Hh. unfold differ. rewrite elem_of_filter. cbn. split.
  - intros [H1 [H2|H2]%elem_of_union]; split; try done; by apply conns_lt in H2.
  - intros [H1 H2]. split; [done|]. assert ((x, y) = upair x y) as Hu.
    { unfold upair. by rewrite Nat.min_l, Nat.max_r by lia. }
    destruct (decide ((x, y) ∈ conns g ∪ conns h)) as [|Hn]; [done|]. exfalso. apply H2.
    rewrite elem_of_union in Hn. rewrite Hu, !upair_conns in Hn. unfold adjacent in Hn. unfold same_conn. tauto.
Qed.

Lemma conn_cases g x y : pok g →
  ((x, y) ∈ p_arcs g ∧ (y, x) ∉ p_arcs g ∧ upair x y ∉ p_edges g) ∨
  ((x, y) ∉ p_arcs g ∧ (y, x) ∈ p_arcs g ∧ upair x y ∉ p_edges g) ∨
  ((x, y) ∉ p_arcs g ∧ (y, x) ∉ p_arcs g ∧ upair x y ∈ p_edges g) ∨
  ((x, y) ∉ p_arcs g ∧ (y, x) ∉ p_arcs g ∧ upair x y ∉ p_edges g).
Proof.
  intros Hg. destruct (decide ((x, y) ∈ p_arcs g)) as [H1|H1].
  { left. split; [done|]. split; [by apply (pok_asym g Hg)|by apply (pok_disj g Hg)]. }
  right. destruct (decide ((y, x) ∈ p_arcs g)) as [H2|H2].
  { left. split; [done|]. split; [done|]. rewrite upair_comm. by apply (pok_disj g Hg). }
  right. destruct (decide (upair x y ∈ p_edges g)); [by left|by right].
Qed.
Lemma p_shd_differ g h : pok g → pok h → p_shd g h = size (differ g h).
Proof.
  intros Hg Hh. unfold p_shd. fold (conns g) (conns h). set (D := filter _ (conns g ∩ conns h)).
  assert (differ g h = ((conns g ∖ conns h) ∪ (conns h ∖ conns g)) ∪ D) as ->.
  { apply set_eq. intros [x y]. rewrite elem_of_differ by done. unfold D.
    rewrite !elem_of_union, !elem_of_difference, elem_of_filter, elem_of_intersection. cbn.
    assert (x < y → (x, y) = upair x y) as Hu. { intros Hlt. unfold upair. by rewrite Nat.min_l, Nat.max_r by lia. }
    assert ((x, y) ∈ conns g → x < y) as Hl1 by (intros H; by apply conns_lt in H).
    assert ((x, y) ∈ conns h → x < y) as Hl2 by (intros H; by apply conns_lt in H).
    destruct (decide (x < y)) as [Hlt|]; [|tauto]. assert (∀ k, (x, y) ∈ conns k ↔ adjacent (p_arcs k) x y ∨ upair x y ∈ p_edges k) as Hk.
    { intros k. rewrite (Hu Hlt). apply upair_conns. }
    rewrite !Hk. clear Hu Hl1 Hl2 Hk D.
    unfold same_conn, adjacent.
    pose proof (conn_cases g x y Hg) as Cg. pose proof (conn_cases h x y Hh) as Ch. revert Cg Ch. clear -Hlt. revert Hlt.
    generalize ((x, y) ∈ p_arcs g) ((y, x) ∈ p_arcs g) (upair x y ∈ p_edges g) ((x, y) ∈ p_arcs h) ((y, x) ∈ p_arcs h) (upair x y ∈ p_edges h) (x < y).
    clear. intros P1 P2 P3 P4 P5 P6 P7 Hlt Cg Ch.
    destruct Cg as [(G1 & G2 & G3)|[(G1 & G2 & G3)|[(G1 & G2 & G3)|(G1 & G2 & G3)]]];
      destruct Ch as [(H1 & H2 & H3)|[(H1 & H2 & H3)|[(H1 & H2 & H3)|(H1 & H2 & H3)]]]; tauto. }
  rewrite !size_union_arcs; [done|clear; set_solver|]. unfold D. intros e. rewrite elem_of_union, !elem_of_difference, elem_of_filter, elem_of_intersection.
  tauto.
Qed.

Lemma same_conn_sym g h x y : same_conn g h x y ↔ same_conn h g x y.
Proof. unfold same_conn. tauto. Qed.
Lemma p_shd_sym g h : pok g → pok h → p_shd g h = p_shd h g.
Proof.
  intros Hg Hh. rewrite !p_shd_differ by done. f_equal. apply set_eq. intros [x y]. rewrite !elem_of_differ by done. by rewrite same_conn_sym.
Qed.
Lemma size_union_le (X Y : arcset) : size (X ∪ Y) ≤ size X + size Y.
Proof. rewrite size_union_alt. apply Nat.add_le_mono_l. apply subseteq_size. clear. set_solver. Qed.
Lemma p_shd_triangle g h k : pok g → pok h → pok k → p_shd g k ≤ p_shd g h + p_shd h k.
Proof.
  intros Hg Hh Hk. rewrite !p_shd_differ by done. etrans; [|apply size_union_le]. apply subseteq_size. intros [x y].
  rewrite elem_of_union, !elem_of_differ by done. intros [Hlt Hn]. destruct (decide (same_conn g h x y)) as [H1|]; [|tauto].
  destruct (decide (same_conn h k x y)) as [H2|]; [|tauto]. exfalso. apply Hn. unfold same_conn in *. tauto.
Qed.
Lemma p_shd_zero g h : pok g → pok h → p_shd g h = 0 ↔ p_arcs g = p_arcs h ∧ p_edges g = p_edges h.
Proof.
  intros Hg Hh. rewrite p_shd_differ by done. split.
  - intros Hz. assert (differ g h = ∅) as Hd by (apply leibniz_equiv, size_empty_inv; done).
    assert (∀ x y, x < y → same_conn g h x y) as Hs.
    { intros x y Hlt. destruct (decide (same_conn g h x y)); [done|]. exfalso.
      assert ((x, y) ∈ differ g h) as Hin by by apply elem_of_differ. rewrite Hd in Hin. clear -Hin. set_solver. }
    split; apply set_eq; intros [x y].
    + destruct (decide (x < y)) as [Hlt|Hge]; [apply (Hs x y Hlt)|]. destruct (decide (y < x)) as [Hlt|Hge']; [apply (Hs y x Hlt)|].
      assert (x = y) as -> by lia. pose proof (pok_asym g Hg y y). pose proof (pok_asym h Hh y y). tauto.
    + destruct (decide (x < y)) as [Hlt|Hge].
      * destruct (Hs x y Hlt) as (_ & _ & He). unfold upair in He. by rewrite Nat.min_l, Nat.max_r in He by lia.
      * split; intros He; [apply (pok_edge g Hg) in He|apply (pok_edge h Hh) in He]; cbn in He; lia.
  - intros [H1 H2]. assert (differ g h = ∅) as ->; [|apply size_empty]. apply set_eq. intros [x y]. rewrite elem_of_differ by done.
    split; [|clear; set_solver]. intros [_ Hn]. exfalso. apply Hn. unfold same_conn. by rewrite H1, H2.
Qed.

(** ** Pairs of nodes *)
Definition pairs_of (N : nset) : arcset :=
  list_to_set (x ← elements N; y ← elements N; if decide (x < y) then [(x, y)] else []).
Lemma elem_of_pairs_of N x y : (x, y) ∈ pairs_of N ↔ x < y ∧ x ∈ N ∧ y ∈ N.
Proof.
  unfold pairs_of. rewrite elem_of_list_to_set. rewrite elem_of_list_bind. setoid_rewrite elem_of_list_bind. setoid_rewrite elem_of_elements. split.
  - intros (u & (v & Huv & Hv) & Hu). case_decide; [|by apply elem_of_nil in Huv]. apply elem_of_list_singleton in Huv. injection Huv as -> ->. done.
  - intros (H1 & H2 & H3). exists x. split; [|done]. exists y. split; [|done]. rewrite decide_True by done. by apply elem_of_list_singleton.
Qed.
Lemma size_pairs_of N : 2 * size (pairs_of N) = size N * (size N - 1).
Proof.
  induction N as [|a N Ha IH] using set_ind_L.
  - assert (pairs_of ∅ = ∅) as ->. { apply set_eq. intros [x y]. rewrite elem_of_pairs_of. clear. set_solver. }
    by rewrite !size_empty.
  - pose (F := set_map (upair a) N : arcset).
    assert (pairs_of ({[a]} ∪ N) = F ∪ pairs_of N) as ->.
    { apply set_eq. intros [x y]. rewrite elem_of_union, !elem_of_pairs_of, !elem_of_union, !elem_of_singleton. unfold F. rewrite elem_of_map. split.
      - intros (Hlt & [->|Hx] & [->|Hy]); [lia| | |by right].
        + left. exists y. split; [|done]. unfold upair. by rewrite Nat.min_l, Nat.max_r by lia.
        + left. exists x. split; [|done]. unfold upair. by rewrite Nat.min_r, Nat.max_l by lia.
      - intros [(z & Hz & Hin)|?]; [|tauto]. assert (a ≠ z) by (by intros ->). unfold upair in Hz. injection Hz as -> ->.
        destruct (decide (a < z)); [rewrite Nat.min_l, Nat.max_r by lia|rewrite Nat.min_r, Nat.max_l by lia]; (split; [lia|tauto]). }
    rewrite size_union_arcs.
    2:{ intros [x y]. unfold F. rewrite elem_of_map, elem_of_pairs_of. intros (z & Hz & Hin) (_ & Hx & Hy). unfold upair in Hz. injection Hz as -> ->.
        destruct (decide (a < z)); [rewrite Nat.min_l in Hx by lia|rewrite Nat.max_l in Hy by lia]; done. }
    assert (size F = size N) as ->.
    { unfold F. assert (∀ l : list node, NoDup l → a ∉ l → size (list_to_set (upair a <$> l) : arcset) = length l) as Hl.
      { intros l Hnd Hal. rewrite size_list_to_set; [by rewrite fmap_length|]. apply NoDup_fmap_2_strong; [|done].
        intros u v Hu Hv Heq. apply upair_inj in Heq as [[_ ->]|[? ?]]; [done|congruence]. }
      unfold set_map. rewrite Hl; [done|apply NoDup_elements|]. by rewrite elem_of_elements. }
    rewrite size_union, size_singleton by (clear -Ha; set_solver). nia.
Qed.
Lemma comb2_pairs N : comb2 (size N) = Z.of_nat (size (pairs_of N)).
Proof. unfold comb2. f_equal. rewrite <-size_pairs_of. rewrite Nat.mul_comm. apply Nat.div_mul. done. Qed.

(** ** [confusion_matrix_skeleton] *)
Lemma skeleton_pairs d N : acyclic (d_arcs d) → over N (d_arcs d) → skeleton d ⊆ pairs_of N.
Proof.
  intros Hac Ho [u v] (a & Ha & Heq)%elem_of_as_edges. destruct a as [x y]. cbn in Heq. pose proof (Ho x y Ha) as [Hx Hy].
  assert (x ≠ y) as Hne by (intros ->; by apply (acyclic_irr (d_arcs d) y Hac)).
  unfold upair in Heq. injection Heq as -> ->. apply elem_of_pairs_of. split; [lia|].
  destruct (decide (x < y)); [rewrite Nat.min_l, Nat.max_r by lia|rewrite Nat.min_r, Nat.max_l by lia]; done.
Qed.

(** Pairs adjacent in neither graph. *)
Definition non_pairs (d1 d2 : dag) : arcset := pairs_of (d_nodes d1) ∖ skeleton d1 ∖ skeleton d2.
Lemma elem_of_non_pairs d1 d2 x y : (x, y) ∈ non_pairs d1 d2 ↔
  x < y ∧ x ∈ d_nodes d1 ∧ y ∈ d_nodes d1 ∧ ¬ adjacent (d_arcs d1) x y ∧ ¬ adjacent (d_arcs d2) x y.
Proof.
  unfold non_pairs. rewrite !elem_of_difference, elem_of_pairs_of. unfold skeleton. destruct (decide (x < y)) as [Hlt|]; [|tauto].
  rewrite <-!upair_as_edges. unfold upair. rewrite Nat.min_l, Nat.max_r by lia. tauto.
Qed.
Lemma skel_counts d1 d2 : acyclic (d_arcs d1) → over (d_nodes d1) (d_arcs d1) → acyclic (d_arcs d2) → over (d_nodes d1) (d_arcs d2) →
  let X := skeleton d1 in let Y := skeleton d2 in
  size X = size (X ∩ Y) + size (X ∖ Y) ∧
  size (pairs_of (d_nodes d1)) = size (X ∩ Y) + size (Y ∖ X) + size (X ∖ Y) + size (non_pairs d1 d2).
Proof.
  intros H1 H2 H3 H4 X Y. pose proof (skeleton_pairs d1 _ H1 H2) as HX. pose proof (skeleton_pairs d2 _ H3 H4) as HY.
  change (X ⊆ pairs_of (d_nodes d1)) in HX. change (Y ⊆ pairs_of (d_nodes d1)) in HY.
  assert (X = (X ∩ Y) ∪ (X ∖ Y)) as HX'.
  { apply set_eq. intros e. rewrite elem_of_union, elem_of_intersection, elem_of_difference. destruct (decide (e ∈ Y)); tauto. }
  assert (size X = size (X ∩ Y) + size (X ∖ Y)) as Hs. { rewrite HX' at 1. apply size_union_arcs. intros e. rewrite elem_of_intersection, elem_of_difference. tauto. }
  split; [done|].
  assert (pairs_of (d_nodes d1) = (X ∪ (Y ∖ X)) ∪ non_pairs d1 d2) as ->.
  { apply set_eq. intros e. unfold non_pairs. fold X Y. rewrite !elem_of_union, !elem_of_difference. pose proof (HX e). pose proof (HY e).
    destruct (decide (e ∈ X)), (decide (e ∈ Y)); tauto. }
  rewrite !size_union_arcs; [lia|intros e; rewrite elem_of_difference; tauto|]. intros e. unfold non_pairs. rewrite elem_of_union, !elem_of_difference. fold X Y. tauto.
Qed.
