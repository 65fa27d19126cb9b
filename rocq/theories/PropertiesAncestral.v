(** Final theorems about the state of an [AncestralGraph] object: C35-C37, C67-C69. *)
From Verif Require Import Py Spec SpecMixed DagModel UGraphModel AncestralModel TopoProofs StateProofs ReachProofs OrderProofs
  UGraphProofs PdagProofs AncestralState AncestralProofs AncestralCopy.

(** What the claims call a consistent object: every view agrees with the stored
    edges, at most one edge joins two nodes, no arrowhead meets an undirected
    edge.  The third line says that a frozenset is stored as a sorted pair. *)
Record ag_wf (g : ag) : Prop := AgWf {
  aw_nodes : over (g_nodes g) (g_dir g) ∧ over (g_nodes g) (g_bi g) ∧ over (g_nodes g) (g_un g);
  aw_sorted : ∀ x y, (x, y) ∈ g_bi g ∪ g_un g → x < y;
  aw_parents : ∀ i j, i ∈ g_parents g j ↔ (i, j) ∈ g_dir g;
  aw_children : ∀ i j, j ∈ g_children g i ↔ (i, j) ∈ g_dir g;
  aw_spouses : ∀ i j, j ∈ g_spouses g i ↔ spouse (gmix g) i j;
  aw_neighbors : ∀ i j, j ∈ g_neighbors g i ↔ neighbor (gmix g) i j;
  aw_adjacent : ∀ i j, j ∈ g_adjacent g i ↔ madj (gmix g) i j;
  aw_simple : simple (gmix g);
  aw_separate : separate (gmix g)
}.

Lemma gok_ag_wf g : gok g ↔ ag_wf g.
Proof.
  split.
  - intros H. split.
    + split_and!; apply H.
    + intros x y [Hx|Hx]%elem_of_union; [by apply (gok_bilt _ H)|by apply (gok_unlt _ H)].
    + apply H.
    + apply H.
    + intros i j. rewrite spouse_upair by done. apply H.
    + intros i j. rewrite neighbor_upair by done. apply H.
    + intros i j. unfold madj. rewrite spouse_upair, neighbor_upair by done. apply H.
    + split.
      * intros x. unfold madj. rewrite spouse_upair, neighbor_upair by done. intros [Hx|[Hx|[Hx|Hx]]].
        -- by apply (gok_dir1 _ H) in Hx as [? _].
        -- by apply (gok_dir1 _ H) in Hx as [? _].
        -- by apply (upair_ne_lt _ _ _ (gok_bilt _ H)) in Hx.
        -- by apply (upair_ne_lt _ _ _ (gok_unlt _ H)) in Hx.
      * intros x y Hx. rewrite spouse_upair, neighbor_upair by done. apply (gok_dir1 _ H) in Hx. tauto.
      * intros x y. rewrite spouse_upair, neighbor_upair by done. apply H.
    + intros x y z. unfold into. rewrite spouse_upair, neighbor_upair by done. intros [Hx|Hx].
      * by apply (gok_sepd _ H _ _ z Hx).
      * by apply (gok_sepb _ H _ _ z Hx).
  - intros [[HD [HB HU]] Hs Hp Hc Hsp Hne Had [I1 I2 I3] Hse].
    assert (∀ x y, (x, y) ∈ g_bi g → x < y) as LB by (intros x y Hx; apply Hs; set_solver).
    assert (∀ x y, (x, y) ∈ g_un g → x < y) as LU by (intros x y Hx; apply Hs; set_solver).
    assert (∀ x y, upair x y ∈ g_bi g ↔ spouse (gmix g) x y) as ES by (intros x y; rewrite (upair_in_lt _ x y LB); reflexivity).
    assert (∀ x y, upair x y ∈ g_un g ↔ neighbor (gmix g) x y) as EN by (intros x y; rewrite (upair_in_lt _ x y LU); reflexivity).
    split; [done|done|done|done|done|done|done|..].
    + intros i j. rewrite ES. apply Hsp.
    + intros i j. rewrite EN. apply Hne.
    + intros i j. rewrite ES, EN. apply Had.
    + intros i j Hx. rewrite ES, EN. split; [intros ->; apply (I1 j); by left|]. by apply I2.
    + intros i j. rewrite ES, EN. apply I3.
    + intros i j k Hx. rewrite EN. apply (Hse i). by left.
    + intros i j k Hx. rewrite EN. apply (Hse i). right. by apply ES.
Qed.

(** ** C35: the views agree with the edges *)

(** The call does not ask for an edge from a node to itself. *)
Definition no_loop_added (c : gcall) : Prop :=
  match c with
  | GAddDirected _ i j | GAddBidirected i j | GAddUndirected i j => i ≠ j
  | _ => True
  end.

(** For every constructor call (raising or not) and every later history of
    mutator calls in which exceptions are caught and the object is used further.
    Missing: calls that add a loop (see the refutation). *)
Theorem C35_consistent_partial (N : nset) (dir bi un : list arc) (h : list gcall) :
  (∀ e : arc, e ∈ dir ++ bi ++ un → e.1 ≠ e.2) → Forall no_loop_added h →
  ag_wf (grun h (ag_new N dir bi un).1).
Proof. intros Hne Hh. rewrite <-gok_ag_wf. apply grun_ok; [done|]. by apply ag_new_gok. Qed.

(** The same from any consistent object. *)
Theorem C35_consistent_from_partial g (h : list gcall) : ag_wf g → Forall no_loop_added h → ag_wf (grun h g).
Proof. rewrite <-!gok_ag_wf. intros Hg Hh. by apply grun_ok. Qed.

Definition ag0 : ag := (ag_new {[7]} [(1, 2); (2, 3)] [(4, 3)] [(5, 6)]).1.
Definition ag_history : list gcall :=
  [GAddBidirected 1 5; GAddDirected oracle0 3 1; GAddUndirected 7 5; GAddDirected oracle_rev 1 8; GAddDirected oracle0 4 2;
   GRemoveNode oracle0 7 false; GRemoveEdge 4 3 false; GRemoveDirected 9 9 false; GRemoveNode oracle_rev 2 false;
   GAddBidirected 3 8].
Example C35_example :
  Forall no_loop_added ag_history ∧
  g_dir (grun ag_history ag0) = {[(1, 8)]} ∧ g_bi (grun ag_history ag0) = {[(3, 8)]} ∧ g_un (grun ag_history ag0) = {[(5, 6)]}.
Proof. split; [unfold ag_history; repeat constructor; cbn; lia|]. by_vm. Qed.

(** With loops the claim fails: the removal of a loop raises half way. *)
Theorem C35_loop_refuted : ∃ h : list gcall, ¬ ag_wf (grun h (ag_init ∅)).
Proof.
  exists [GAddBidirected 1 1; GRemoveBidirected 1 1 false]. intros H.
  pose proof (aw_adjacent _ H 1 1) as Ha. revert Ha.
  assert (1 ∈ g_adjacent (grun [GAddBidirected 1 1; GRemoveBidirected 1 1 false] (ag_init ∅)) 1) as H1 by by_vm.
  intros [Ha _]. specialize (Ha H1). exact (simple_irr _ (aw_simple _ H) 1 Ha).
Qed.

(** The constructor succeeds exactly when the given edges are loop free, put at
    most one edge between two nodes and no arrowhead at an undirected edge; it
    then stores exactly these edges. *)
Theorem C69_constructor (N : nset) (dir bi un : list arc) :
  simple (lmix dir bi un) → separate (lmix dir bi un) →
  ∃ g, ag_make N dir bi un = Ok g ∧ ag_wf g ∧
    (∀ x, x ∈ g_nodes g ↔ x ∈ N ∨ ∃ e : arc, e ∈ dir ++ bi ++ un ∧ (x = e.1 ∨ x = e.2)) ∧
    (∀ e, e ∈ g_dir g ↔ e ∈ dir) ∧
    (∀ x y, spouse (gmix g) x y ↔ (x, y) ∈ bi ∨ (y, x) ∈ bi) ∧
    (∀ x y, neighbor (gmix g) x y ↔ (x, y) ∈ un ∨ (y, x) ∈ un).
Proof.
  intros Hs Hse. destruct (ag_make_ok N dir bi un Hs Hse) as (g & E & Hg & (HN & HD & HB & HU)).
  exists g. split; [done|]. split; [by apply gok_ag_wf|]. split_and!.
  - intros x. rewrite HN, !elem_of_union. unfold ends. rewrite !elem_of_union, !elem_of_list_to_set, !elem_of_list_fmap.
    setoid_rewrite elem_of_app. setoid_rewrite elem_of_app. clear. naive_solver.
  - intros e. by rewrite HD, elem_of_list_to_set.
  - intros x y. by rewrite spouse_upair, HB, elem_of_upairs by done.
  - intros x y. by rewrite neighbor_upair, HU, elem_of_upairs by done.
Qed.
Theorem C69_constructor_rejects (N : nset) (dir bi un : list arc) g :
  (∀ e : arc, e ∈ dir ++ bi ++ un → e.1 ≠ e.2) → ag_make N dir bi un = Ok g →
  simple (lmix dir bi un) ∧ separate (lmix dir bi un).
Proof.
  intros Hne E. destruct (ag_make_stored N dir bi un g Hne E) as [Hg (HN & HD & HB & HU)].
  pose proof (proj1 (gok_ag_wf g) Hg) as Hw.
  destruct (spouse_same (gmix g) (lmix dir bi un)) as [H1 H2].
  - intros x y. rewrite spouse_upair, HB, elem_of_upairs by done. unfold spouse. cbn. by rewrite !elem_of_list_to_set.
  - intros x y. rewrite neighbor_upair, HU, elem_of_upairs by done. unfold neighbor. cbn. by rewrite !elem_of_list_to_set.
  - done.
  - split; [apply H1, Hw|apply H2, Hw].
Qed.
(** Loops are not rejected. *)
Theorem C69_loop_accepted_refuted :
  ∃ (N : nset) (dir bi un : list arc) g, ag_make N dir bi un = Ok g ∧ ¬ simple (lmix dir bi un).
Proof.
  exists ∅, [(1, 1)], [], [], (ag_new ∅ [(1, 1)] [] []).1. split; [done|]. intros H. apply (simple_irr _ H 1). left. by_vm.
Qed.
Example C69_example :
  (∀ e : arc, e ∈ [(1, 2); (2, 3)] ++ [(4, 3)] ++ [(5, 6)] → e.1 ≠ e.2) ∧
  match ag_make {[7]} [(1, 2); (2, 3)] [(4, 3)] [(5, 6)] with Ok _ => true | Raise _ => false end = true ∧
  ag_make ∅ [(1, 2)] [] [(2, 3)] = Raise NeighborError ∧ ag_make ∅ [(1, 2)] [(2, 1)] [] = Raise AdjacentError.
Proof.
  split.
  { intros e He%elem_of_list_In. cbn in He. repeat destruct He as [<-|He]; cbn; try lia; done. }
  split; [|split]; by vm_compute.
Qed.

(** What each removal leaves, also when it raises. *)
Theorem C35_remove_node_partial o n ign g :
  ag_wf g → n ∈ g_nodes g →
  let r := g_remove_node o n ign g in
  ag_wf r.1 ∧ g_nodes r.1 = g_nodes g ∖ {[n]} ∧
  (∀ x y, (x, y) ∈ g_dir r.1 ↔ (x, y) ∈ g_dir g ∧ x ≠ n ∧ y ≠ n) ∧
  (∀ x y, spouse (gmix r.1) x y ↔ spouse (gmix g) x y ∧ x ≠ n ∧ y ≠ n) ∧
  (∀ x y, neighbor (gmix r.1) x y ↔ neighbor (gmix g) x y ∧ x ≠ n ∧ y ≠ n) ∧
  ((∃ m, madj (gmix g) n m) → r.2 = Ok tt).
Proof.
  rewrite <-gok_ag_wf. intros Hg Hn. cbn zeta. destruct (g_remove_node_spec o n ign g Hg) as [Hok H].
  rewrite decide_True in H by done. destruct H as [(HN & HD & HB & HU) Hr].
  rewrite <-gok_ag_wf. split; [done|]. split; [done|]. split_and!.
  - intros x y. rewrite HD. apply elem_of_off.
  - intros x y. rewrite !spouse_upair by done. rewrite HB. apply upair_off.
  - intros x y. rewrite !neighbor_upair by done. rewrite HU. apply upair_off.
  - intros [m Hm]. rewrite Hr.
    assert (m ∈ g_adjacent g n) as Ha.
    { apply (gok_adj _ Hg). unfold madj in Hm. rewrite spouse_upair, neighbor_upair in Hm by done. done. }
    unfold g_adjacent, dget in Ha. destruct (g_adj g !! n); [done|]. cbn in Ha. by apply not_elem_of_empty in Ha.
Qed.
Example C35_remove_node_example :
  2 ∈ g_nodes ag0 ∧ g_dir (g_remove_node oracle0 2 false ag0).1 = ∅ ∧ g_bi (g_remove_node oracle0 2 false ag0).1 = {[(3, 4)]}.
Proof. by_vm. Qed.

(** Removing an existing node that never had an edge raises [KeyError]. *)
Theorem C35_remove_isolated_node_refuted :
  ∃ (g : ag) (n : node), ag_wf g ∧ n ∈ g_nodes g ∧ ∀ o, (g_remove_node o n false g).2 = Raise KeyError.
Proof.
  exists (ag_init {[1]}), 1. split; [apply gok_ag_wf, gok_init|]. split; [by_vm|]. intros o.
  destruct (g_remove_node_spec o 1 false (ag_init {[1]}) (gok_init _)) as [_ H].
  rewrite decide_True in H by by_vm. destruct H as [_ ->]. done.
Qed.

(** [remove_edge] and the three typed removals delete exactly the named edge. *)
Theorem C35_remove_edge i j ign g :
  ag_wf g →
  let r := remove_edge i j ign g in
  ag_wf r.1 ∧ g_nodes r.1 = g_nodes g ∧
  (∀ x y, (x, y) ∈ g_dir r.1 ↔ (x, y) ∈ g_dir g ∧ (x, y) ≠ (i, j) ∧ (x, y) ≠ (j, i)) ∧
  (∀ x y, spouse (gmix r.1) x y ↔ spouse (gmix g) x y ∧ (x, y) ≠ (i, j) ∧ (x, y) ≠ (j, i)) ∧
  (∀ x y, neighbor (gmix r.1) x y ↔ neighbor (gmix g) x y ∧ (x, y) ≠ (i, j) ∧ (x, y) ≠ (j, i)) ∧
  (madj (gmix g) i j → r.2 = Ok tt) ∧ (¬ madj (gmix g) i j → r.2 = if ign then Ok tt else Raise KeyError).
Proof.
  rewrite <-gok_ag_wf. intros Hg. cbn zeta. destruct (remove_edge_spec i j ign g Hg) as (Hok & (HN & HD & HB & HU) & Hr).
  rewrite <-gok_ag_wf. split; [done|]. split; [done|].
  assert (madj (gmix g) i j ↔ j ∈ g_adjacent g i) as Ha.
  { unfold madj. rewrite spouse_upair, neighbor_upair by done. symmetry. apply (gok_adj _ Hg). }
  split_and!.
  - intros x y. rewrite HD. set_solver.
  - intros x y. rewrite !spouse_upair by done. rewrite HB, elem_of_difference, elem_of_singleton, upair_eq_or. naive_solver.
  - intros x y. rewrite !neighbor_upair by done. rewrite HU, elem_of_difference, elem_of_singleton, upair_eq_or. naive_solver.
  - intros H%Ha. by rewrite Hr, decide_True.
  - intros H. rewrite Hr, decide_False; [done|]. by rewrite <-Ha.
Qed.
Theorem C35_remove_directed i j ign g :
  ag_wf g →
  let r := remove_directed i j ign g in
  ag_wf r.1 ∧ g_nodes r.1 = g_nodes g ∧ g_dir r.1 = g_dir g ∖ {[(i, j)]} ∧ g_bi r.1 = g_bi g ∧ g_un r.1 = g_un g ∧
  r.2 = (if decide ((i, j) ∈ g_dir g) then Ok tt else if ign then Ok tt else Raise KeyError).
Proof.
  rewrite <-gok_ag_wf. intros Hg. cbn zeta. destruct (remove_directed_spec i j ign g Hg) as (Hok & (HN & HD & HB & HU) & Hr).
  rewrite <-gok_ag_wf. done.
Qed.
Theorem C35_remove_bidirected i j ign g :
  ag_wf g →
  let r := remove_bidirected i j ign g in
  ag_wf r.1 ∧ g_nodes r.1 = g_nodes g ∧ g_dir r.1 = g_dir g ∧ g_un r.1 = g_un g ∧
  (∀ x y, spouse (gmix r.1) x y ↔ spouse (gmix g) x y ∧ (x, y) ≠ (i, j) ∧ (x, y) ≠ (j, i)) ∧
  (spouse (gmix g) i j → r.2 = Ok tt) ∧ (¬ spouse (gmix g) i j → r.2 = if ign then Ok tt else Raise KeyError).
Proof.
  rewrite <-gok_ag_wf. intros Hg. cbn zeta. destruct (remove_bidirected_spec i j ign g Hg) as (Hok & (HN & HD & HB & HU) & Hr).
  rewrite <-gok_ag_wf. do 4 (split; [done|]). rewrite (spouse_upair g i j) by done. split_and!.
  - intros x y. rewrite !spouse_upair by done. rewrite HB, elem_of_difference, elem_of_singleton, upair_eq_or. naive_solver.
  - intros H. by rewrite Hr, decide_True.
  - intros H. by rewrite Hr, decide_False.
Qed.
Theorem C35_remove_undirected i j ign g :
  ag_wf g →
  let r := remove_undirected i j ign g in
  ag_wf r.1 ∧ g_nodes r.1 = g_nodes g ∧ g_dir r.1 = g_dir g ∧ g_bi r.1 = g_bi g ∧
  (∀ x y, neighbor (gmix r.1) x y ↔ neighbor (gmix g) x y ∧ (x, y) ≠ (i, j) ∧ (x, y) ≠ (j, i)) ∧
  (neighbor (gmix g) i j → r.2 = Ok tt) ∧ (¬ neighbor (gmix g) i j → r.2 = if ign then Ok tt else Raise KeyError).
Proof.
  rewrite <-gok_ag_wf. intros Hg. cbn zeta. destruct (remove_undirected_spec i j ign g Hg) as (Hok & (HN & HD & HB & HU) & Hr).
  rewrite <-gok_ag_wf. do 4 (split; [done|]). rewrite (neighbor_upair g i j) by done. split_and!.
  - intros x y. rewrite !neighbor_upair by done. rewrite HU, elem_of_difference, elem_of_singleton, upair_eq_or. naive_solver.
  - intros H. by rewrite Hr, decide_True.
  - intros H. by rewrite Hr, decide_False.
Qed.
Lemma ag0_wf : ag_wf ag0.
Proof.
  apply gok_ag_wf, ag_new_gok. intros e He. apply elem_of_list_In in He. cbn in He.
  repeat destruct He as [<-|He]; cbn; try lia; done.
Qed.
Example C35_remove_edge_example :
  ag_wf ag0 ∧ g_bi (remove_edge 3 4 false ag0).1 = ∅ ∧ (remove_edge 3 4 false ag0).2 = Ok tt ∧
  (remove_edge 1 3 false ag0).2 = Raise KeyError.
Proof. split; [apply ag0_wf|]. by_vm. Qed.

(** ** C36: mutators and ancestrality *)

(** [add_directed]: a successful call adds the edge and leaves no directed cycle;
    [CycleError], [NeighborError] and [AdjacentError] leave the edges unchanged.
    Missing: [SpouseError] and undetected violations (see the refutations). *)
Theorem C36_add_directed_partial o i j g :
  ag_wf g → i ≠ j → (i, j) ∉ g_dir g →
  let r := add_directed o i j g in
  ag_wf r.1 ∧
  match r.2 with
  | Ok _ => g_nodes r.1 = {[i; j]} ∪ g_nodes g ∧ gmix r.1 = Mixed ({[(i, j)]} ∪ g_dir g) (g_bi g) (g_un g) ∧ acyclic (g_dir r.1)
  | Raise (CycleError _) => gmix r.1 = gmix g ∧ ¬ acyclic ({[(i, j)]} ∪ g_dir g)
  | Raise NeighborError => r.1 = g ∧ ∃ k, neighbor (gmix g) j k
  | Raise AdjacentError => r.1 = g ∧ madj (gmix g) i j
  | Raise SpouseError => gmix r.1 = Mixed ({[(i, j)]} ∪ g_dir g) (g_bi g) (g_un g) ∧ ¬ ancestral (gmix r.1)
  | Raise _ => False
  end.
Proof.
  rewrite <-gok_ag_wf. intros Hg Hij Hnew. cbn zeta. destruct (add_directed_spec o i j g Hg Hij) as [Hok H].
  rewrite <-gok_ag_wf. split; [done|].
  destruct (add_directed o i j g) as [g' [a|[]]]; cbn [fst snd] in *; try done.
  - destruct H as [(HN & HD & HB & HU) Hac]. unfold gmix. rewrite HN, HD, HB, HU. done.
  - destruct H as [(HN & HD & HB & HU) Hac]. split; [|done]. unfold gmix. rewrite HD, HB, HU. f_equal. set_solver.
  - destruct H as [(HN & HD & HB & HU) (x & y & Hs & Hr)]. split; [unfold gmix; by rewrite HD, HB, HU|].
    intros [_ H]. apply (H x y Hs). cbn. by rewrite HD.
  - destruct H as (-> & _ & Ha). split; [done|]. unfold madj. rewrite spouse_upair, neighbor_upair by done. by apply (gok_adj _ Hg).
  - destruct H as (-> & _ & [k Hk]%set_choose_L). split; [done|]. exists k. rewrite neighbor_upair by done. by apply (gok_nei _ Hg).
Qed.
Example C36_add_directed_example :
  ag_wf ag0 ∧ (1, 3) ∉ g_dir ag0 ∧ (add_directed oracle0 1 3 ag0).2 = Ok tt ∧
  (add_directed oracle0 3 1 ag0).2 = Raise (CycleError []) ∧ (add_directed oracle0 1 5 ag0).2 = Raise NeighborError ∧
  (add_directed oracle0 4 3 ag0).2 = Raise AdjacentError.
Proof. split; [apply ag0_wf|]. by_vm. Qed.

(** A decision procedure for concrete instances. *)
Definition ancestralb (g : ag) : bool :=
  forallb (λ n, negb (reachb (g_dir g) n n)) (elements (g_nodes g)) &&
  forallb (λ e : arc, negb (reachb (g_dir g) e.1 e.2) && negb (reachb (g_dir g) e.2 e.1)) (elements (g_bi g)).
Lemma ancestralb_spec g : gok g → ancestralb g = true ↔ ancestral (gmix g).
Proof.
  intros Hg. unfold ancestralb. rewrite andb_true_iff, !forallb_forall. split.
  - intros [H1 H2]. split.
    + intros x Hx. assert (x ∈ g_nodes g) as Hn.
      { assert (∃ y, (x, y) ∈ g_dir g) as [y Hy] by (inversion Hx as [?? Hx1|??? Hx1]; subst; eexists; exact Hx1). by apply (gok_dirN _ Hg) in Hy as [? _]. }
      specialize (H1 x). rewrite <-elem_of_list_In, elem_of_elements, negb_true_iff in H1. specialize (H1 Hn).
      apply reachb_spec in Hx. cbn in Hx. congruence.
    + intros x y Hs [->|Hr]%rtc_tc.
      * rewrite spouse_upair in Hs by done. by apply (upair_ne_lt _ _ _ (gok_bilt _ Hg)) in Hs.
      * apply reachb_spec in Hr. cbn in Hr. destruct Hs as [Hs|Hs]; cbn in Hs;
          specialize (H2 _ (proj1 (elem_of_list_In _ _) (proj2 (elem_of_elements _ _) Hs))); cbn in H2;
          rewrite andb_true_iff, !negb_true_iff in H2; destruct H2; congruence.
  - intros [Ha Hs]. split.
    + intros n _. apply negb_true_iff, not_true_iff_false. rewrite reachb_spec. apply Ha.
    + intros [x y] He%elem_of_list_In. apply elem_of_elements in He. cbn. rewrite andb_true_iff, !negb_true_iff, <-!not_true_iff_false, !reachb_spec.
      split; intros Hr%tc_rtc; eapply Hs; [by left|done|by right|done].
Qed.

Definition new_gok (N : nset) (dir bi un : list arc) : bool := forallb (λ e : arc, negb (bool_decide (e.1 = e.2))) (dir ++ bi ++ un).
Lemma new_gok_wf (N : nset) (dir bi un : list arc) : new_gok N dir bi un = true → ag_wf (ag_new N dir bi un).1.
Proof.
  unfold new_gok. rewrite forallb_forall. intros H. apply gok_ag_wf, ag_new_gok. intros e He%elem_of_list_In.
  specialize (H e He). by rewrite negb_true_iff, bool_decide_eq_false in H.
Qed.

(** [SpouseError] is raised after the edge was added and the edge stays. *)
Definition agS : ag := (ag_new ∅ [(1, 2)] [(1, 3)] []).1.
Theorem C36_add_directed_no_rollback_refuted :
  ∃ (g : ag) (i j : node) (o : oracle), ag_wf g ∧ ancestral (gmix g) ∧ i ≠ j ∧
    (add_directed o i j g).2 = Raise SpouseError ∧ gmix (add_directed o i j g).1 ≠ gmix g ∧
    ¬ ancestral (gmix (add_directed o i j g).1).
Proof.
  exists agS, 2, 3, oracle0. assert (ag_wf agS) as Hw by (by apply new_gok_wf). split; [done|].
  apply gok_ag_wf in Hw. split; [apply ancestralb_spec; [done|by vm_compute]|]. split; [done|].
  assert (gok (add_directed oracle0 2 3 agS).1) as Hg by (by apply add_directed_spec).
  split; [by_vm|]. split.
  - intros E. assert ((2, 3) ∈ mx_dir (gmix (add_directed oracle0 2 3 agS).1)) as Hin by by_vm. rewrite E in Hin. revert Hin. by_vm.
  - rewrite <-ancestralb_spec by done. by vm_compute.
Qed.
(** The check can miss the violation: no exception, but not ancestral. *)
Definition agM : ag := (ag_new ∅ [(3, 2)] [(1, 3)] []).1.
Theorem C36_add_directed_unnoticed_refuted :
  ∃ (g : ag) (i j : node) (o : oracle), ag_wf g ∧ ancestral (gmix g) ∧ i ≠ j ∧
    (add_directed o i j g).2 = Ok tt ∧ ¬ ancestral (gmix (add_directed o i j g).1).
Proof.
  exists agM, 2, 1, oracle0. assert (ag_wf agM) as Hw by (by apply new_gok_wf). split; [done|].
  apply gok_ag_wf in Hw. split; [apply ancestralb_spec; [done|by vm_compute]|]. split; [done|].
  assert (gok (add_directed oracle0 2 1 agM).1) as Hg by (by apply add_directed_spec).
  split; [by_vm|]. rewrite <-ancestralb_spec by done. by vm_compute.
Qed.
(** [add_bidirected] never checks. *)
Definition agB : ag := (ag_new ∅ [(1, 2); (2, 3)] [] []).1.
Theorem C36_add_bidirected_refuted :
  ∃ (g : ag) (i j : node), ag_wf g ∧ ancestral (gmix g) ∧ i ≠ j ∧
    (add_bidirected i j g).2 = Ok tt ∧ ¬ ancestral (gmix (add_bidirected i j g).1).
Proof.
  exists agB, 1, 3. assert (ag_wf agB) as Hw by (by apply new_gok_wf). split; [done|].
  apply gok_ag_wf in Hw. split; [apply ancestralb_spec; [done|by vm_compute]|]. split; [done|].
  assert (gok (add_bidirected 1 3 agB).1) as Hg by (by apply add_bidirected_spec).
  split; [by_vm|]. rewrite <-ancestralb_spec by done. by vm_compute.
Qed.

(** What [add_bidirected] does guarantee: the edge is added or nothing changes;
    the result is ancestral exactly when neither endpoint is an ancestor of the other. *)
Theorem C36_add_bidirected_partial i j g :
  ag_wf g → ancestral (gmix g) → i ≠ j →
  let r := add_bidirected i j g in
  ag_wf r.1 ∧
  match r.2 with
  | Ok _ => g_nodes r.1 = {[i; j]} ∪ g_nodes g ∧ g_dir r.1 = g_dir g ∧ g_un r.1 = g_un g ∧
      (∀ x y, spouse (gmix r.1) x y ↔ spouse (gmix g) x y ∨ (x, y) = (i, j) ∨ (x, y) = (j, i)) ∧
      (ancestral (gmix r.1) ↔ ¬ ancestor (g_dir g) i j ∧ ¬ ancestor (g_dir g) j i)
  | Raise NeighborError => r.1 = g ∧ ∃ k, neighbor (gmix g) i k ∨ neighbor (gmix g) j k
  | Raise AdjacentError => r.1 = g ∧ madj (gmix g) i j
  | Raise _ => False
  end.
Proof.
  rewrite <-gok_ag_wf. intros Hg [Hac Hsp] Hij. cbn zeta. destruct (add_bidirected_spec i j g Hg Hij) as [Hok H].
  rewrite <-gok_ag_wf. split; [done|].
  destruct (add_bidirected i j g) as [g' [a|[]]]; cbn [fst snd] in *; try done.
  - destruct H as (HN & HD & HB & HU). do 3 (split; [done|]).
    assert (∀ x y, spouse (gmix g') x y ↔ spouse (gmix g) x y ∨ (x, y) = (i, j) ∨ (x, y) = (j, i)) as Hs.
    { intros x y. rewrite !spouse_upair by done. rewrite HB, elem_of_union, elem_of_singleton, upair_eq_or. naive_solver. }
    split; [done|]. unfold ancestral. change (mx_dir (gmix g')) with (g_dir g'). rewrite HD. split.
    + intros [_ H]. split; intros Hr%tc_rtc; eapply H; [apply Hs; right; by left|done|apply Hs; right; by right|done].
    + intros [H1 H2]. split; [done|]. intros x y [Hx|[[= -> ->]|[= -> ->]]]%Hs.
      * by apply Hsp.
      * intros [->|Hr]%rtc_tc; [done|]. by apply H1.
      * intros [->|Hr]%rtc_tc; [done|]. by apply H2.
  - destruct H as (-> & _ & Ha). split; [done|]. unfold madj. rewrite spouse_upair, neighbor_upair by done. by apply (gok_adj _ Hg).
  - destruct H as (-> & _ & Ha). split; [done|]. destruct Ha as [[k Hk]%set_choose_L|[k Hk]%set_choose_L]; exists k; rewrite !neighbor_upair by done;
      [left|right]; by apply (gok_nei _ Hg).
Qed.
Example C36_add_bidirected_example :
  ag_wf ag0 ∧ ancestral (gmix ag0) ∧ (add_bidirected 1 4 ag0).2 = Ok tt ∧ ¬ reachb (g_dir ag0) 1 4 ∧ ¬ reachb (g_dir ag0) 4 1.
Proof.
  split; [apply ag0_wf|]. split; [apply ancestralb_spec; [apply gok_ag_wf, ag0_wf|by vm_compute]|]. by_vm.
Qed.

(** [add_undirected]. *)
Theorem C36_add_undirected i j g :
  ag_wf g → i ≠ j →
  let r := add_undirected i j g in
  ag_wf r.1 ∧
  match r.2 with
  | Ok _ => g_nodes r.1 = {[i; j]} ∪ g_nodes g ∧ g_dir r.1 = g_dir g ∧ g_bi r.1 = g_bi g ∧
      (∀ x y, neighbor (gmix r.1) x y ↔ neighbor (gmix g) x y ∨ (x, y) = (i, j) ∨ (x, y) = (j, i))
  | Raise NeighborError => r.1 = g ∧ ∃ k, into (gmix g) k i ∨ into (gmix g) k j
  | Raise AdjacentError => r.1 = g ∧ madj (gmix g) i j
  | Raise _ => False
  end.
Proof.
  rewrite <-gok_ag_wf. intros Hg Hij. cbn zeta. destruct (add_undirected_spec i j g Hg Hij) as [Hok H].
  rewrite <-gok_ag_wf. split; [done|].
  destruct (add_undirected i j g) as [g' [a|[]]]; cbn [fst snd] in *; try done.
  - destruct H as (HN & HD & HB & HU). do 3 (split; [done|]).
    intros x y. rewrite !neighbor_upair by done. rewrite HU, elem_of_union, elem_of_singleton, upair_eq_or. naive_solver.
  - destruct H as (-> & _ & Ha). split; [done|]. unfold madj. rewrite spouse_upair, neighbor_upair by done. by apply (gok_adj _ Hg).
  - destruct H as (-> & _ & [k Hk]%set_choose_L). split; [done|]. exists k. unfold into. rewrite !(spouse_upair g), !(upair_comm k) by done.
    rewrite !elem_of_union, !(gok_par _ Hg), !(gok_spo _ Hg) in Hk. clear -Hk. tauto.
Qed.
Example C36_add_undirected_example :
  ag_wf ag0 ∧ (add_undirected 5 7 ag0).2 = Ok tt ∧ g_un (add_undirected 5 7 ag0).1 = {[(5, 6); (5, 7)]} ∧
  (add_undirected 5 3 ag0).2 = Raise NeighborError.
Proof. split; [apply ag0_wf|]. by_vm. Qed.

(** [add_undirected] and all removals keep an ancestral graph ancestral. *)
Lemma ancestral_sub (G H : mixed) : mx_dir H ⊆ mx_dir G → (∀ x y, spouse H x y → spouse G x y) → ancestral G → ancestral H.
Proof.
  intros HD HS [Ha Hs]. split; [by eapply acyclic_mono|]. intros x y Hx Hr. apply (Hs x y); [by apply HS|].
  eapply rtc_subrel; [|exact Hr]. intros a b Hab. by apply HD.
Qed.
Definition shrinks (c : gcall) : Prop :=
  match c with
  | GAddUndirected i j => i ≠ j
  | GAddNode _ | GAddNodes _ | GRemoveNode _ _ _ | GRemoveDirected _ _ _ | GRemoveBidirected _ _ _
  | GRemoveUndirected _ _ _ | GRemoveEdge _ _ _ | GRemoveEdges _ _ => True
  | _ => False
  end.
Lemma mfor_below {A} (l : list A) (f : A → M ag unit) g :
  (∀ a g, a ∈ l → gok g → gok (f a g).1 ∧ g_dir (f a g).1 ⊆ g_dir g ∧ g_bi (f a g).1 ⊆ g_bi g) → gok g →
  g_dir (mfor l f g).1 ⊆ g_dir g ∧ g_bi (mfor l f g).1 ⊆ g_bi g.
Proof.
  revert g. induction l as [|a l IH]; intros g Hf Hg; [done|]. cbn [mfor]. unfold mthen, mbind'.
  destruct (Hf a g (elem_of_list_here _ _) Hg) as (H1 & H2 & H3). destruct (f a g) as [g' [u|e]]; [|done]. cbn in *.
  destruct (IH g') as [H4 H5]; [|done|]. { intros b h Hb. apply Hf. by right. } split; etrans; done.
Qed.
Theorem C36_shrinking_calls c g :
  ag_wf g → shrinks c → ancestral (gmix g) → ancestral (gmix (gexec c g).1).
Proof.
  rewrite <-gok_ag_wf. intros Hg Hc Ha.
  assert (g_dir (gexec c g).1 ⊆ g_dir g ∧ g_bi (gexec c g).1 ⊆ g_bi g) as [HD HB].
  { destruct c as [n|l|o i j|i j|i j|o n ign|i j ign|i j ign|i j ign|i j ign|l ign]; cbn [gexec shrinks] in *; try done.
    - apply mfor_below; [|done]. clear. intros n g _ Hg. split; [|done]. eapply gok_same; [exact Hg|..]; cbn; try done. set_solver.
    - destruct (add_undirected_spec i j g Hg Hc) as [_ H].
      destruct (add_undirected i j g) as [g' [a|[]]]; cbn [fst snd] in *; try done.
      + destruct H as (_ & -> & -> & _). done.
      + by destruct H as [-> _].
      + by destruct H as [-> _].
    - destruct (g_remove_node_spec o n ign g Hg) as [_ H]. destruct (decide (n ∈ g_nodes g)).
      + destruct H as [(_ & -> & -> & _) _]. unfold off. split; intros e1; rewrite elem_of_filter; tauto.
      + by rewrite H.
    - destruct (remove_directed_spec i j ign g Hg) as (_ & (_ & -> & -> & _) & _). split; [|done]. set_solver.
    - destruct (remove_bidirected_spec i j ign g Hg) as (_ & (_ & -> & -> & _) & _). split; [done|]. set_solver.
    - destruct (remove_undirected_spec i j ign g Hg) as (_ & (_ & -> & -> & _) & _). done.
    - destruct (remove_edge_spec i j ign g Hg) as (_ & (_ & -> & -> & _) & _). split; set_solver.
    - apply mfor_below; [|done]. clear. intros e g _ Hg. destruct (remove_edge_spec e.1 e.2 ign g Hg) as (H & (_ & -> & -> & _) & _).
      split; [done|]. split; set_solver. }
  apply (ancestral_sub (gmix g)); [exact HD| |exact Ha]. intros x y [Hx|Hx]; [left|right]; by apply HB.
Qed.
Example C36_shrinking_example :
  ag_wf ag0 ∧ shrinks (GAddUndirected 7 5) ∧ ancestral (gmix ag0) ∧ (gexec (GAddUndirected 7 5) ag0).2 = Ok tt.
Proof.
  split; [apply ag0_wf|]. split; [cbn; lia|]. split; [apply ancestralb_spec; [apply gok_ag_wf, ag0_wf|by vm_compute]|]. by_vm.
Qed.

(** ** C37: [topological_sort] *)

(** Sound for every iteration order: a returned list is a topological order of
    all nodes, [CycleError] means a directed cycle, [SpouseError] a spouse that is
    an ancestor; directed cycles are always found; on an ancestral graph the call
    returns.  Missing: it may return although a spouse is an ancestor. *)
Theorem C37_topological_sort_partial g o :
  ag_wf g →
  match g_topological_sort g o with
  | Ok l => topo_order (g_nodes g) (g_dir g) l ∧ acyclic (g_dir g)
  | Raise (CycleError _) => ¬ acyclic (g_dir g)
  | Raise SpouseError => ∃ x y, spouse (gmix g) x y ∧ ancestor (g_dir g) x y
  | Raise _ => False
  end.
Proof.
  rewrite <-gok_ag_wf. intros Hg. pose proof (g_topological_sort_spec g o Hg) as H.
  destruct (g_topological_sort g o) as [l|e].
  - destruct H as [H _]. split; [done|]. eapply topo_order_acyclic; [apply (gok_dirN _ Hg)|exact H].
  - destruct H as [[-> H]|[-> (x & y & Hs & Hr)]]; [done|]. exists x, y. split; [done|]. apply rtc_tc in Hr as [->|?]; [|done].
    rewrite spouse_upair in Hs by done. by apply (upair_ne_lt _ _ _ (gok_bilt _ Hg)) in Hs.
Qed.
Theorem C37_topological_sort_ancestral g o :
  ag_wf g → ancestral (gmix g) → ∃ l, g_topological_sort g o = Ok l ∧ topo_order (g_nodes g) (g_dir g) l.
Proof.
  rewrite <-gok_ag_wf. intros Hg [Ha Hs]. pose proof (g_topological_sort_spec g o Hg) as H.
  destruct (g_topological_sort g o) as [l|e].
  - exists l. by destruct H.
  - destruct H as [[-> H]|[-> (x & y & Hsp & Hr)]]; [done|]. by apply Hs in Hr.
Qed.
Example C37_example :
  ag_wf ag0 ∧ ancestral (gmix ag0) ∧ g_topological_sort ag0 oracle0 ≠ g_topological_sort ag0 oracle_rev ∧
  g_topological_sort (add_bidirected 1 3 agB).1 oracle0 = Raise SpouseError.
Proof.
  split; [apply ag0_wf|]. split; [apply ancestralb_spec; [apply gok_ag_wf, ag0_wf|by vm_compute]|]. by_vm.
Qed.
Definition agT : ag := (ag_new ∅ [(3, 2); (2, 1)] [(1, 3)] []).1.
Theorem C37_spouse_unnoticed_refuted :
  ∃ (g : ag) (o : oracle), ag_wf g ∧ ¬ ancestral (gmix g) ∧ ∃ l, g_topological_sort g o = Ok l.
Proof.
  exists agT, oracle0. assert (ag_wf agT) as Hw by (by apply new_gok_wf). split; [done|]. apply gok_ag_wf in Hw.
  split; [rewrite <-ancestralb_spec by done; by vm_compute|].
  exists [3; 2; 1]. by_vm.
Qed.
(** Whether the violation is noticed depends on the iteration order. *)
Theorem C37_order_dependent_refuted :
  ∃ (g : ag) (o o' : oracle), ag_wf g ∧ (∃ l, g_topological_sort g o = Ok l) ∧ g_topological_sort g o' = Raise SpouseError.
Proof.
  exists (ag_new ∅ [(2, 1); (1, 3)] [(2, 3)] []).1, oracle0, oracle_rev. split; [by apply new_gok_wf|].
  split; [exists [2; 1; 3]; by_vm|]. by_vm.
Qed.

(** ** C67: [copy] and [induced_subgraph] *)
Theorem C67_copy g o flip :
  ag_wf g → ∃ h, ag_copy g o flip = Ok h ∧ ag_wf h ∧ g_nodes h = g_nodes g ∧ gmix h = gmix g ∧ ag_eqb g h = true.
Proof.
  rewrite <-gok_ag_wf. intros Hg. unfold ag_copy.
  rewrite (pairs_ok_lt _ (gok_bilt _ Hg)), (pairs_ok_lt _ (gok_unlt _ Hg)). cbn [andb].
  destruct (rebuild_spec g o flip (g_nodes g) (g_dir g) (g_bi g) (g_un g) Hg) as (h & E & Hh & (HN & HD & HB & HU)); [done|done|done|apply Hg..|].
  exists h. split; [done|]. rewrite <-gok_ag_wf. split; [done|]. split; [done|]. split; [unfold gmix; by rewrite HD, HB, HU|].
  unfold ag_eqb. by rewrite HN, HD, HB, HU, !bool_decide_eq_true_2.
Qed.
(** [==] compares nodes and edges of each kind. *)
Theorem C67_eq g h :
  ag_wf g → ag_wf h →
  ag_eqb g h = true ↔ (∀ x, x ∈ g_nodes g ↔ x ∈ g_nodes h) ∧ (∀ x y, (x, y) ∈ g_dir g ↔ (x, y) ∈ g_dir h) ∧
    (∀ x y, spouse (gmix g) x y ↔ spouse (gmix h) x y) ∧ (∀ x y, neighbor (gmix g) x y ↔ neighbor (gmix h) x y).
Proof.
  rewrite <-!gok_ag_wf. intros Hg Hh. unfold ag_eqb. rewrite !andb_true_iff, !bool_decide_eq_true. split.
  - intros [[[-> HD] HB] HU]. unfold spouse, neighbor. cbn. rewrite HD, HB, HU. done.
  - intros (HN & HD & HB & HU).
    assert (∀ X Y : arcset, (∀ x y, (x, y) ∈ X → x < y) → (∀ x y, (x, y) ∈ Y → x < y) →
      (∀ x y, upair x y ∈ X ↔ upair x y ∈ Y) → X = Y) as Hext.
    { intros X Y LX LY HXY. apply set_eq. intros [x y]. split; intros He.
      - assert (upair x y = (x, y)) as E by (apply (upair_id (x, y)); by apply LX). rewrite <-E. apply HXY. by rewrite E.
      - assert (upair x y = (x, y)) as E by (apply (upair_id (x, y)); by apply LY). rewrite <-E. apply HXY. by rewrite E. }
    split; [split; [split|]|].
    + by apply set_eq.
    + apply set_eq. intros [x y]. apply HD.
    + apply Hext; [apply Hg|apply Hh|]. intros x y. specialize (HB x y). by rewrite !spouse_upair in HB by done.
    + apply Hext; [apply Hg|apply Hh|]. intros x y. specialize (HU x y). by rewrite !neighbor_upair in HU by done.
Qed.
Example C67_eq_example : ag_wf ag0 ∧ ag_wf agT ∧ ag_eqb ag0 agT = false ∧ ag_eqb ag0 ag0 = true.
Proof. split; [apply ag0_wf|]. split; [by apply new_gok_wf|]. by_vm. Qed.
Theorem C67_induced_subgraph g o flip (X : nset) :
  ag_wf g →
  ∃ h, g_induced_subgraph g o flip X = Ok h ∧ ag_wf h ∧ g_nodes h = X ∧
    (∀ x y, (x, y) ∈ g_dir h ↔ (x, y) ∈ g_dir g ∧ x ∈ X ∧ y ∈ X) ∧
    (∀ x y, spouse (gmix h) x y ↔ spouse (gmix g) x y ∧ x ∈ X ∧ y ∈ X) ∧
    (∀ x y, neighbor (gmix h) x y ↔ neighbor (gmix g) x y ∧ x ∈ X ∧ y ∈ X).
Proof.
  rewrite <-gok_ag_wf. intros Hg. unfold g_induced_subgraph.
  rewrite (pairs_ok_lt _ (gok_bilt _ Hg)), (pairs_ok_lt _ (gok_unlt _ Hg)). cbn [andb].
  set (sub := λ E : arcset, filter (λ e : arc, e.1 ∈ X ∧ e.2 ∈ X) E : arcset).
  assert (∀ E x y, (x, y) ∈ sub E ↔ (x, y) ∈ E ∧ x ∈ X ∧ y ∈ X) as Hsub.
  { intros E x y. unfold sub. rewrite elem_of_filter. cbn. tauto. }
  destruct (rebuild_spec g o flip X (sub (g_dir g)) (sub (g_bi g)) (sub (g_un g)) Hg) as (h & E & Hh & (HN & HD & HB & HU)).
  1-3: intros [x y] Hx%Hsub; tauto. 1-3: intros x y Hx%Hsub; tauto.
  exists h. split; [done|]. rewrite <-gok_ag_wf. split; [done|]. split; [done|]. unfold spouse, neighbor. cbn.
  rewrite HD, HB, HU. split_and!; intros x y; rewrite !Hsub; tauto.
Qed.
Example C67_example :
  ag_wf ag0 ∧ match g_induced_subgraph ag0 oracle0 (λ _, true) {[2; 3; 4; 9]} with
              | Ok h => bool_decide (g_nodes h = {[2; 3; 4; 9]} ∧ g_dir h = {[(2, 3)]} ∧ g_bi h = {[(3, 4)]} ∧ g_un h = ∅)
              | Raise _ => false end = true.
Proof. split; [apply ag0_wf|]. by vm_compute. Qed.

(** ** C68: directed reachability *)
Section reach.
  Variables (g : ag) (o : oracle).
  Hypothesis Hg : gok g.
  Lemma gparents_sub x : g_parents g x ⊆ g_nodes g.
  Proof using Hg. intros y Hy. apply (gok_par _ Hg) in Hy. by apply (gok_dirN _ Hg) in Hy as [? _]. Qed.
  Lemma gchildren_sub x : g_children g x ⊆ g_nodes g.
  Proof using Hg. intros y Hy. apply (gok_chi _ Hg) in Hy. by apply (gok_dirN _ Hg) in Hy as [_ ?]. Qed.
  Lemma tc_gparents n x : tc (λ x y, y ∈ g_parents g x) n x ↔ ancestor (g_dir g) x n.
  Proof using Hg.
    unfold ancestor. rewrite (tc_flip (edge _)). apply tc_iff. intros a b. unfold edge. apply (gok_par _ Hg).
  Qed.
  Lemma tc_gchildren n x : tc (λ x y, y ∈ g_children g x) n x ↔ ancestor (g_dir g) n x.
  Proof using Hg. apply tc_iff. intros a b. unfold edge. apply (gok_chi _ Hg). Qed.
End reach.

Theorem C68_ancestors_of g o n :
  ag_wf g → ∃ X, g_ancestors_of g o n = Ok X ∧ ∀ x, x ∈ X ↔ ancestor (g_dir g) x n.
Proof.
  rewrite <-gok_ag_wf. intros Hg.
  destruct (add_closure_empty (g_parents g) o (g_nodes g) (gparents_sub g Hg) (g_fuel g) n) as (X & H & HX); [unfold g_fuel; lia|].
  exists X. split; [done|]. intros x. rewrite HX. by apply tc_gparents.
Qed.
Theorem C68_descendants_of g o n :
  ag_wf g → ∃ X, g_descendants_of g o n = Ok X ∧ ∀ x, x ∈ X ↔ ancestor (g_dir g) n x.
Proof.
  rewrite <-gok_ag_wf. intros Hg.
  destruct (add_closure_empty (g_children g) o (g_nodes g) (gchildren_sub g Hg) (g_fuel g) n) as (X & H & HX); [unfold g_fuel; lia|].
  exists X. split; [done|]. intros x. rewrite HX. by apply tc_gchildren.
Qed.
Theorem C68_ancestors_of_set g o (X : nset) :
  ag_wf g → X ≠ ∅ → ∃ Y, g_ancestors_of_set g o X = Ok Y ∧ ∀ x, x ∈ Y ↔ ∃ n, n ∈ X ∧ ancestor (g_dir g) x n.
Proof.
  rewrite <-gok_ag_wf. intros Hg HX. unfold g_ancestors_of_set, g_union_of. rewrite decide_False by done.
  destruct (union_loop (g_parents g) o (g_nodes g) (gparents_sub g Hg) (g_fuel g) (on o [6] X) ∅) as (Y & H & HY); [unfold g_fuel; lia|].
  exists Y. split; [exact H|]. intros x. rewrite HY. setoid_rewrite elem_of_on. setoid_rewrite tc_gparents; [|done]. set_solver.
Qed.
Theorem C68_descendants_of_set g o (X : nset) :
  ag_wf g → X ≠ ∅ → ∃ Y, g_descendants_of_set g o X = Ok Y ∧ ∀ x, x ∈ Y ↔ ∃ n, n ∈ X ∧ ancestor (g_dir g) n x.
Proof.
  rewrite <-gok_ag_wf. intros Hg HX. unfold g_descendants_of_set, g_union_of. rewrite decide_False by done.
  destruct (union_loop (g_children g) o (g_nodes g) (gchildren_sub g Hg) (g_fuel g) (on o [6] X) ∅) as (Y & H & HY); [unfold g_fuel; lia|].
  exists Y. split; [exact H|]. intros x. rewrite HY. setoid_rewrite elem_of_on. setoid_rewrite tc_gchildren; [|done]. set_solver.
Qed.
Theorem C68_ancestor_dict g o :
  ag_wf g → ancestral (gmix g) →
  ∃ m, g_ancestor_dict g o = Ok m ∧ ∀ v, v ∈ g_nodes g → ∀ x, x ∈ dget m v ↔ ancestor (g_dir g) x v.
Proof.
  rewrite <-gok_ag_wf. intros Hg [Ha Hs].
  destruct (ancestor_dict_spec (dview g) o (dview_wf g Hg) Ha) as (m & E & Hm). exists m. split; [|exact Hm].
  rewrite <-E. unfold g_ancestor_dict, ancestor_dict. pose proof (g_topological_sort_spec g o Hg) as H.
  destruct (g_topological_sort g o) as [l|e]; [by destruct H as [_ ->]|].
  destruct H as [[-> H]|[-> (x & y & Hsp & Hr)]]; [done|]. by apply Hs in Hr.
Qed.
Theorem C68_descendant_dict g o :
  ag_wf g → ancestral (gmix g) →
  ∃ m, g_descendant_dict g o = Ok m ∧ ∀ v, v ∈ g_nodes g → ∀ x, x ∈ dget m v ↔ ancestor (g_dir g) v x.
Proof.
  rewrite <-gok_ag_wf. intros Hg [Ha Hs].
  destruct (descendant_dict_spec (dview g) o (dview_wf g Hg) Ha) as (m & E & Hm). exists m. split; [|exact Hm].
  rewrite <-E. unfold g_descendant_dict, descendant_dict. pose proof (g_topological_sort_spec g o Hg) as H.
  destruct (g_topological_sort g o) as [l|e]; [by destruct H as [_ ->]|].
  destruct H as [[-> H]|[-> (x & y & Hsp & Hr)]]; [done|]. by apply Hs in Hr.
Qed.
Example C68_example :
  ag_wf ag0 ∧ ancestral (gmix ag0) ∧ g_ancestors_of ag0 oracle0 3 = Ok {[1; 2]} ∧
  g_descendants_of_set ag0 oracle_rev {[2; 4]} = Ok {[3]} ∧
  match g_ancestor_dict ag0 oracle0 with Ok m => bool_decide (dget m 3 = {[1; 2]} ∧ dget m 4 = ∅) | Raise _ => false end = true.
Proof.
  split; [apply ag0_wf|]. split; [apply ancestralb_spec; [apply gok_ag_wf, ag0_wf|by vm_compute]|]. by_vm.
Qed.

Print Assumptions C35_consistent_partial.
Print Assumptions C35_consistent_from_partial.
Print Assumptions C35_loop_refuted.
Print Assumptions C69_constructor.
Print Assumptions C69_constructor_rejects.
Print Assumptions C69_loop_accepted_refuted.
Print Assumptions C35_remove_node_partial.
Print Assumptions C35_remove_isolated_node_refuted.
Print Assumptions C35_remove_edge.
Print Assumptions C35_remove_directed.
Print Assumptions C35_remove_bidirected.
Print Assumptions C35_remove_undirected.
Print Assumptions C36_add_directed_partial.
Print Assumptions C36_add_directed_no_rollback_refuted.
Print Assumptions C36_add_directed_unnoticed_refuted.
Print Assumptions C36_add_bidirected_refuted.
Print Assumptions C36_add_bidirected_partial.
Print Assumptions C36_add_undirected.
Print Assumptions C36_shrinking_calls.
Print Assumptions C37_topological_sort_partial.
Print Assumptions C37_topological_sort_ancestral.
Print Assumptions C37_spouse_unnoticed_refuted.
Print Assumptions C37_order_dependent_refuted.
Print Assumptions C67_copy.
Print Assumptions C67_eq.
Print Assumptions C67_induced_subgraph.
Print Assumptions C68_ancestors_of.
Print Assumptions C68_descendants_of.
Print Assumptions C68_ancestors_of_set.
Print Assumptions C68_descendants_of_set.
Print Assumptions C68_ancestor_dict.
Print Assumptions C68_descendant_dict.
