(** Final theorems about the older class of ancestral graphs and about [shd_skeleton] and [as_hashed] of both: C129. *)
From Verif Require Import Py Spec SpecMec SpecMixed DagModel DsepModel UGraphModel PdagModel CompareModel AncestralModel MsepModel MagModel MagMatModel MagMecModel CyclicOpsModel
  TopoProofs StateProofs UGraphProofs CompareProofs ShdProofs AncestralState AncestralProofs AncestralCopy MsepProofs MaxProofs PropertiesAncestral PropertiesMsep PropertiesMag PropertiesMagMat MagEquivProofs MagAllProofs.
#[local] Open Scope nat_scope.

Definition no_loop_call (c : ccall) : Prop :=
  match c with
  | CAddDirected _ i j | CAddBidirected i j | CAddUndirected i j => i ≠ j
  | _ => True
  end.
Definition as_gcall (c : ccall) : gcall :=
  match c with
  | CAddNode n => GAddNode n
  | CAddNodes l => GAddNodes l
  | CAddDirected o i j => GAddDirected o i j
  | CAddBidirected i j => GAddBidirected i j
  | CAddUndirected i j => GAddUndirected i j
  | CRemoveNode o n ign => GRemoveNode o n ign
  | CRemoveDirected i j ign => GRemoveDirected i j ign
  | CRemoveBidirected i j ign => GRemoveBidirected i j ign
  | CRemoveUndirected i j ign => GRemoveUndirected i j ign
  end.
Lemma crun_grun h g : crun h g = grun (as_gcall <$> h) g.
Proof. revert g. induction h as [|c h IH]; intros g; [done|]. cbn. unfold crun, grun in IH. rewrite IH. by destruct c. Qed.

(** ** C129: the class of cyclic_graph.py *)

(** Whatever is passed to the constructor and called afterwards, raising or not, the attributes
    describe the same graph, as long as no loop is added. *)
Theorem C129_consistent (N : nset) (dir bi un : list arc) (h : list ccall) :
  (∀ e : arc, e ∈ dir ++ bi ++ un → e.1 ≠ e.2) → Forall no_loop_call h → ag_wf (crun h (c_new N dir bi un).1).
Proof.
  intros Hne Hh. rewrite crun_grun. apply C35_consistent_partial; [done|]. apply Forall_fmap. eapply Forall_impl; [exact Hh|]. by intros [].
Qed.

(** The constructor succeeds exactly if the loop-free edges put at most one edge between two nodes
    and no arrowhead at an undirected edge, and then stores each edge as the kind it was given as. *)
Theorem C129_new (N : nset) (dir bi un : list arc) :
  (∀ e : arc, e ∈ dir ++ bi ++ un → e.1 ≠ e.2) →
  ((∃ g, c_make N dir bi un = Ok g) ↔ simple (lmix dir bi un) ∧ separate (lmix dir bi un)) ∧
  ∀ g, c_make N dir bi un = Ok g →
    (∀ x, x ∈ g_nodes g ↔ x ∈ N ∨ ∃ e : arc, e ∈ dir ++ bi ++ un ∧ (x = e.1 ∨ x = e.2)) ∧
    (∀ e, e ∈ g_dir g ↔ e ∈ dir) ∧
    (∀ x y, spouse (gmix g) x y ↔ (x, y) ∈ bi ∨ (y, x) ∈ bi) ∧
    (∀ x y, neighbor (gmix g) x y ↔ (x, y) ∈ un ∨ (y, x) ∈ un).
Proof.
  intros Hne. change (c_make N dir bi un) with (ag_make N dir bi un). split.
  - split; [intros [g E]; by apply (C69_constructor_rejects N dir bi un g)|]. intros [Hs Hse].
    destruct (C69_constructor N dir bi un Hs Hse) as (g & E & _). by exists g.
  - intros g E. destruct (C69_constructor_rejects N dir bi un g Hne E) as [Hs Hse].
    destruct (C69_constructor N dir bi un Hs Hse) as (g' & E' & _ & H). rewrite E in E'. by injection E' as <-.
Qed.

(** [copy] gives an equal graph, whatever the iteration order. *)
Theorem C129_copy g o : ag_wf g → ∃ h, c_copy g o = Ok h ∧ ag_wf h ∧ g_nodes h = g_nodes g ∧ gmix h = gmix g ∧ c_eq g h = true.
Proof.
  intros Hg. destruct (C67_copy g o (λ _, false) Hg) as (h & E & H). exists h. split; [|done]. rewrite <-E.
  rewrite <-gok_ag_wf in Hg. unfold ag_copy. rewrite (pairs_ok_lt _ (gok_bilt _ Hg)), (pairs_ok_lt _ (gok_unlt _ Hg)). cbn [andb].
  assert (∀ l : list arc, unpack (λ _, false) <$> l = l) as Hid by (intros l; apply list_fmap_id). by rewrite !Hid.
Qed.

(** After any such history, [msep] and [msep_from_given] answer by the definition of m-separation
    in the graph of the attributes. *)
Theorem C129_msep (N : nset) (dir bi un : list arc) (h : list ccall) o p A B C :
  (∀ e : arc, e ∈ dir ++ bi ++ un → e.1 ≠ e.2) → Forall no_loop_call h → A ## C →
  let g := crun h (c_new N dir bi un).1 in
  (∃ b, c_msep g o p A B C = Ok b ∧ (b = true ↔ msepd (gmix g) A B C)) ∧
  (∃ X, c_msep_from_given g o A C = Ok X ∧ ∀ v, v ∈ X ↔ v ∈ g_nodes g ∧ v ∉ A ∧ v ∉ C ∧ msepd (gmix g) A {[v]} C).
Proof.
  intros Hne Hh HAC. cbn zeta. pose proof (C129_consistent N dir bi un h Hne Hh) as Hg. generalize dependent (crun h (c_new N dir bi un).1). intros g Hg.
  split; [by apply C38_msep_decides|by apply C39_msep_from_given_graph].
Qed.

(** On an ancestral graph, [topological_sort] returns an order, and [to_maximal] adds exactly
    the bidirected edges between the nodes that nothing separates and changes no m-separation. *)
Theorem C129_ancestral g o p : ag_wf g → ancestral (gmix g) →
  (∃ l, c_topological_sort g o = Ok l ∧ topo_order (g_nodes g) (g_dir g) l) ∧
  (∃ h, c_to_maximal o p g = (h, Ok tt) ∧ maximised g h).
Proof. intros Hg Ha. split; [by apply C37_topological_sort_ancestral|by apply C70_to_maximal_old]. Qed.

(** [from_amat] undoes [to_amat] if the nodes are numbered from 0. *)
Theorem C129_roundtrip g o o' : ag_wf g → numbered (g_nodes g) →
  ∃ A h, c_to_amat g o = Ok A ∧ c_from_amat A o' = Ok h ∧ ag_wf h ∧ c_eq g h = true.
Proof. apply C42_ag_roundtrip. Qed.

(** [shd_skeleton] counts the pairs of nodes that are adjacent in exactly one graph.  It is
    symmetric, 0 iff the adjacencies are the same, and satisfies the triangle inequality. *)
Theorem C129_shd_skeleton g h k : ag_wf g → ag_wf h → ag_wf k →
  (∃ L : arcset, (∀ x y, (x, y) ∈ L ↔ x < y ∧ ¬ (madj (gmix g) x y ↔ madj (gmix h) x y)) ∧ c_shd_skeleton g h = size L) ∧
  c_shd_skeleton g h = c_shd_skeleton h g ∧ (c_shd_skeleton g h = 0 ↔ ∀ x y, madj (gmix g) x y ↔ madj (gmix h) x y) ∧
  c_shd_skeleton g k ≤ c_shd_skeleton g h + c_shd_skeleton h k.
Proof.
  rewrite <-!gok_ag_wf. intros Hg Hh Hk. unfold c_shd_skeleton.
  assert (∀ g x y, gok g → (x, y) ∈ g_skeleton g ↔ x < y ∧ madj (gmix g) x y) as Hs.
  { clear. intros g x y Hg. split.
    - intros H. pose proof (skel_lt g _ Hg H) as Hlt. cbn in Hlt. split; [done|]. apply g_skeleton_spec; [done|]. unfold upair. by rewrite Nat.min_l, Nat.max_r by lia.
    - intros [Hlt Ha]. apply g_skeleton_spec in Ha; [|done]. unfold upair in Ha. by rewrite Nat.min_l, Nat.max_r in Ha by lia. }
  assert (∀ g x y, gok g → madj (gmix g) x y ∨ ¬ madj (gmix g) x y) as Hdec.
  { clear. intros g x y Hg. rewrite <-g_skeleton_spec by done. destruct (decide (upair x y ∈ g_skeleton g)); tauto. }
  split; [|split; [by rewrite sym_diff_comm|split]].
  - exists (sym_diff (g_skeleton g) (g_skeleton h)). split; [|done]. intros x y. rewrite elem_of_sym_diff, !Hs by done.
    destruct (Hdec g x y Hg), (Hdec h x y Hh); tauto.
  - rewrite <-(g_skeleton_eq g h) by done. split.
    + intros Hz. apply sym_diff_empty. by apply leibniz_equiv, size_empty_inv.
    + intros ->. assert (sym_diff (g_skeleton h) (g_skeleton h) = ∅) as ->; [|apply size_empty]. apply set_eq. intros e. rewrite elem_of_sym_diff. clear. set_solver.
  - etrans; [|apply size_union_le]. apply subseteq_size. intros e. rewrite elem_of_union, !elem_of_sym_diff.
    destruct (decide (e ∈ g_skeleton h)); tauto.
Qed.

(** Graphs on the same nodes are equal iff [as_hashed] is. *)
Theorem C129_as_hashed g h : g_nodes g = g_nodes h → c_eq g h = true ↔ c_as_hashed g = c_as_hashed h.
Proof.
  intros HN. unfold c_eq, ag_eqb, c_as_hashed. rewrite !andb_true_iff, !bool_decide_eq_true. split.
  - intros [[[_ ->] ->] ->]. done.
  - intros [= -> -> ->]. done.
Qed.
(** Without this it does not tell them apart: isolated nodes are left out. *)
Theorem C129_as_hashed_nodes_refuted : ∃ g h, ag_wf g ∧ ag_wf h ∧ c_as_hashed g = c_as_hashed h ∧ c_eq g h = false.
Proof. exists (c_new {[1]} [] [] []).1, (c_new {[1; 2]} [] [] []).1. split; [by apply new_gok_wf|]. split; [by apply new_gok_wf|]. by_vm. Qed.
(** The constructor accepts a directed cycle, for which the sort fails. *)
Theorem C129_cycle : ∃ g, c_make ∅ [(1, 2); (2, 3); (3, 1)] [] [] = Ok g ∧ ag_wf g ∧ ¬ acyclic (g_dir g) ∧ c_topological_sort g oracle0 = Raise (CycleError []).
Proof.
  exists (c_new ∅ [(1, 2); (2, 3); (3, 1)] [] []).1. split; [done|]. split; [by apply new_gok_wf|].
  assert (c_topological_sort (c_new ∅ [(1, 2); (2, 3); (3, 1)] [] []).1 oracle0 = Raise (CycleError [])) as E by by_vm. split; [|done].
  assert (ag_wf (c_new ∅ [(1, 2); (2, 3); (3, 1)] [] []).1) as Hw by (by apply new_gok_wf).
  pose proof (C37_topological_sort_partial _ oracle0 Hw) as H. unfold c_topological_sort in E. rewrite E in H. done.
Qed.

Definition cy_history : list ccall :=
  [CAddBidirected 1 5; CAddDirected oracle0 3 1; CAddUndirected 7 5; CAddDirected oracle_rev 1 8; CRemoveNode oracle0 7 false; CRemoveBidirected 4 3 false; CAddBidirected 3 8].
Example C129_example :
  let g := crun cy_history (c_new {[7]} [(1, 2); (2, 3)] [(4, 3)] [(5, 6)]).1 in
  Forall no_loop_call cy_history ∧ c_as_hashed g = ({[(1, 2); (2, 3); (1, 8)]}, {[(3, 8)]}, {[(5, 6)]}) ∧
  c_msep g oracle0 popper0 {[1]} {[3]} {[2]} = Ok true ∧ c_msep g oracle0 popper0 {[1]} {[3]} {[2; 8]} = Ok false ∧
  c_shd_skeleton g (c_new {[7]} [(1, 2); (2, 3)] [(4, 3)] [(5, 6)]).1 = 3.
Proof. cbn zeta. split; [unfold cy_history; repeat constructor; cbn; lia|]. by_vm. Qed.

Print Assumptions C129_consistent.
Print Assumptions C129_new.
Print Assumptions C129_copy.
Print Assumptions C129_msep.
Print Assumptions C129_ancestral.
Print Assumptions C129_roundtrip.
Print Assumptions C129_shd_skeleton.
Print Assumptions C129_as_hashed.
Print Assumptions C129_as_hashed_nodes_refuted.
Print Assumptions C129_cycle.
