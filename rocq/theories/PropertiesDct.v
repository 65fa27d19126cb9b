(** C116: directed clique trees and their residuals. *)
From Verif Require Import Py Spec DagModel DctModel SpecDct TopoProofs StateProofs ReachProofs QueryProofs CoreProofs MarkovProofs PropertiesDag
  DctUf DctGraph DctTree DctProofs DctResid.

Lemma topo_rank N E : acyclic E → over N E → ∃ r : node → nat, ∀ x y, (x, y) ∈ E → r x < r y.
Proof.
  intros Hac Ho. destruct (exists_topo N E Hac Ho) as (l & Hnd & Hin & Hl).
  exists (λ x, default 0 (fst <$> list_find (x =.) l)). intros x y Hxy. destruct (Ho x y Hxy) as [Hx Hy].
  assert (∀ x, x ∈ N → ∃ i, default 0 (fst <$> list_find (x =.) l) = i ∧ l !! i = Some x) as Hi.
  { intros z Hz. apply Hin in Hz. destruct (list_find_elem_of (z =.) l z Hz eq_refl) as [[i z'] E']. rewrite E'. apply list_find_Some in E' as (E' & <- & _). by exists i. }
  destruct (Hi x Hx) as (i & -> & Ei), (Hi y Hy) as (j & -> & Ej). by apply (Hl i j x y).
Qed.
Lemma points_initial A X Y : points_to A X Y ↔ initial A (X ∩ Y) Y.
Proof.
  unfold points_to, initial. split.
  - intros H. split; [set_solver|]. intros s y Hs Hy Hn. apply H; [set_solver|set_solver|done|set_solver].
  - intros [_ H] s y H1 H2 H3 H4. apply H; set_solver.
Qed.

(** The tree has no cycles, and its edges join cliques with common nodes.  This holds for all graphs and all lists of sets. *)
Theorem C116_forest tie cl d : NoDup cl →
  ∃ F, directed_clique_tree tie cl d = Ok F ∧ forest F ∧ ∀ X Y, (X, Y) ∈ F → X ∈ cl ∧ Y ∈ cl ∧ X ∩ Y ≠ ∅.
Proof. intros Hnd. destruct (tree_general tie cl d Hnd) as (F & E & H1 & H2 & _). by exists F. Qed.

(** Contracting the edges that go in both directions leaves a graph without directed cycles. *)
Theorem C116_contraction_acyclic tie cl d F : NoDup cl → directed_clique_tree tie cl d = Ok F →
  ∀ c, ¬ tc (λ a b, (a, b) ∈ (contracted F cl).2) c c.
Proof.
  intros Hnd E. destruct (tree_general tie cl d Hnd) as (F' & E' & _ & H & h & Hh). rewrite E in E'. injection E' as <-.
  apply (arcs_acyclic F cl h); [|done]. intros X Y HXY. by apply H in HXY as (? & ? & _).
Qed.

(** If the DAG has no collider between nodes that are not joined, the edges say which nodes come first, and two cliques are connected by cliques
    that contain their common nodes. *)
Theorem C116_clique_tree tie cl d : views_agree d → acyclic (d_arcs d) → moral_arcs (d_arcs d) → cliques_of (d_nodes d) (d_arcs d) cl →
  ∃ F, directed_clique_tree tie cl d = Ok F ∧ forest F ∧
    (∀ X Y, (X, Y) ∈ F → X ∈ cl ∧ Y ∈ cl ∧ X ∩ Y ≠ ∅ ∧ points_to (d_arcs d) X Y ∧ ((Y, X) ∈ F ↔ points_to (d_arcs d) Y X)) ∧
    ∀ X Y, X ∈ cl → Y ∈ cl → X ∩ Y ≠ ∅ → connected_over F (X ∩ Y) X Y.
Proof.
  intros Hwf%wf_views_agree Hac Hm [Hnd Hcl]. assert (over (d_nodes d) (d_arcs d)) as Hov by (by apply wf_over).
  destruct (topo_rank _ _ Hac Hov) as [r Hr].
  pose proof (λ X Y H, clique_pairs_in cl X Y Hnd H) as Hl. pose proof (clique_pairs_all cl) as Hall.
  destruct (loop_moral (d_nodes d) (d_arcs d) r cl tie Hr Hm Hov Hcl (clique_pairs cl) (by_size_descending _) Hl Hall (clique_pairs cl) []) as (st & E & HI & HP); [by rewrite app_nil_r|].
  exists (s_ct st). split; [unfold directed_clique_tree; fold (clique_pairs cl); by rewrite E|]. split; [apply (i_forest _ _ _ HI)|]. split.
  - intros X Y H. assert (X ∈ cl ∧ Y ∈ cl ∧ X ∩ Y ≠ ∅) as (HX & HY & HXY).
    { destruct (tree_general tie cl d Hnd) as (F & E' & _ & H' & _). unfold directed_clique_tree in E'. fold (clique_pairs cl) in E'. rewrite E in E'. cbn in E'. injection E' as <-. by apply H'. }
    split; [done|]. split; [done|]. split; [done|]. destruct (HP X Y H) as [H1 H2]. split; [by apply points_initial|]. rewrite points_initial.
    replace (Y ∩ X) with (X ∩ Y) by (clear; set_solver). split.
    + intros H3. apply HP in H3 as [H3 _]. by replace (X ∩ Y) with (Y ∩ X) by (clear; set_solver).
    + intros H3. destruct (decide ((Y, X) ∈ s_ct st)) as [|Hn]; [done|]. by apply H2 in Hn.
  - intros X Y HX HY HXY. apply (Inv_spans (d_nodes d) (d_arcs d) r cl tie Hr Hm Hov Hcl (clique_pairs cl) (by_size_descending _) Hl Hall (clique_pairs cl) [] st 1); try done.
    + by rewrite app_nil_r.
    + intros X' Y' H. by apply elem_of_nil in H.
    + by apply meet_pos.
Qed.

(** Every node is in a residual, for all graphs. *)
Theorem C116_residuals_cover tie ord cl d Rs : cliques_of (d_nodes d) (d_arcs d) cl → (∀ l, ord l ≡ₚ l) → residuals tie ord cl d = Ok Rs →
  ∀ v, (∃ R, R ∈ Rs ∧ v ∈ R) ↔ v ∈ d_nodes d.
Proof.
  intros [Hnd Hcl] Hord. unfold residuals. destruct (tree_general tie cl d Hnd) as (F & E' & _ & H & h & Hh). rewrite E'. cbn [res_bind]. intros [= <-] v.
  assert (∀ X Y, (X, Y) ∈ F → X ∈ cl ∧ Y ∈ cl) as H' by (intros X Y HXY; by apply H in HXY as (? & ? & _)). split.
  - intros (R & HR & Hv). apply elem_of_list_fmap in HR as (c & -> & Hc). apply elem_of_components in Hc as (U & HU & ->). apply (elem_of_residual F cl ord _ v Hord) in Hv as [(X & HX & HvX) _].
    apply elem_of_comp in HX as [HX _]. apply Hcl in HX as (_ & HXN & _). by apply HXN.
  - intros Hv. destruct (residual_cover F cl h H' Hh ord v Hord) as (c & Hc & Hvc).
    + destruct (extend (d_nodes d) (d_arcs d) {[v]}) as (C & HvC & HC); [set_solver|set_solver| |].
      * intros x y ->%elem_of_singleton ->%elem_of_singleton ?. done.
      * exists C. split; [by apply Hcl|]. set_solver.
    + exists (residual ord (contracted F cl) c). split; [|done]. by apply elem_of_list_fmap_1.
Qed.

(** The residuals are disjoint if no component has two parents in the contracted tree. *)
Theorem C116_residuals_disjoint tie ord cl d F Rs : views_agree d → acyclic (d_arcs d) → moral_arcs (d_arcs d) → cliques_of (d_nodes d) (d_arcs d) cl →
  (∀ l, ord l ≡ₚ l) → directed_clique_tree tie cl d = Ok F → residuals tie ord cl d = Ok Rs →
  (∀ a b c, (a, c) ∈ (contracted F cl).2 → (b, c) ∈ (contracted F cl).2 → a = b) →
  ∀ i j R R', Rs !! i = Some R → Rs !! j = Some R' → i ≠ j → R ## R'.
Proof.
  intros Hwf Hac Hm Hcl Hord E ER Huniq. destruct (tree_general tie cl d (proj1 Hcl)) as (F' & E' & _ & H & h & Hh). rewrite E in E'. injection E' as <-.
  destruct (C116_clique_tree tie cl d Hwf Hac Hm Hcl) as (F' & E' & _ & _ & Hspan). rewrite E in E'. injection E' as <-.
  unfold residuals in ER. rewrite E in ER. cbn [res_bind] in ER. injection ER as <-.
  assert (∀ X Y, (X, Y) ∈ F → X ∈ cl ∧ Y ∈ cl) as H' by (intros X Y HXY; by apply H in HXY as (? & ? & _)).
  intros i j R R' Hi Hj Hij v Hv Hv'. apply list_lookup_fmap_Some in Hi as (c & Ec & ->), Hj as (c' & Ec' & ->).
  assert (c = c') as <-.
  { apply (residual_disjoint F cl h H' Hh ord v c c' Hord Huniq); [|by eapply elem_of_list_lookup_2|by eapply elem_of_list_lookup_2|done|done].
    intros X Y HX HY HvX HvY. apply (conn_mono F (X ∩ Y)); [set_solver|]. apply Hspan; [done|done|set_solver]. }
  apply Hij. by apply (NoDup_lookup (contracted F cl).1 i j c (NoDup_components F cl)).
Qed.

(** ** Examples *)
(** A list of sets is the list of the maximal cliques. *)
Definition is_maximal (N : nset) (A : arcset) (C : nset) : bool :=
  bool_decide (C ≠ ∅) && bool_decide (set_Forall (λ x, set_Forall (λ y, x = y ∨ joined A x y) C) C) &&
  bool_decide (set_Forall (λ x, ¬ set_Forall (λ y, joined A x y) C) (N ∖ C)).
Fixpoint all_subsets (l : list node) : list nset :=
  match l with [] => [∅] | x :: l => let r := all_subsets l in r ++ (({[x]} ∪.) <$> r) end.
Definition check_cliques (N : nset) (A : arcset) (cl : list nset) : bool :=
  bool_decide (NoDup cl) && forallb (λ C, is_maximal N A C && bool_decide (C ⊆ N)) cl &&
  forallb (λ C, implb (is_maximal N A C) (bool_decide (C ∈ cl))) (all_subsets (elements N)).
Lemma all_subsets_all l (C : nset) : (∀ x, x ∈ C → x ∈ l) → C ∈ all_subsets l.
Proof.
  revert C. induction l as [|a l IH]; intros C H; cbn [all_subsets].
  - apply elem_of_list_singleton. set_solver.
  - apply elem_of_app. destruct (decide (a ∈ C)) as [Ha|Ha].
    + right. apply elem_of_list_fmap. exists (C ∖ {[a]}). split.
      * apply leibniz_equiv. intros x. destruct (decide (x = a)); set_solver.
      * apply IH. intros x [Hx Hn]%elem_of_difference. apply H in Hx. set_solver.
    + left. apply IH. intros x Hx. pose proof (H x Hx) as Hx'. apply elem_of_cons in Hx' as [->|?]; [done|done].
Qed.
Lemma is_maximal_spec N A C : is_maximal N A C = true → C ⊆ N → maximal_clique N A C.
Proof.
  unfold is_maximal. intros [[H1%bool_decide_eq_true H2%bool_decide_eq_true]%andb_true_iff H3%bool_decide_eq_true]%andb_true_iff HC.
  split; [done|]. split; [done|]. split.
  - intros x y Hx Hy Hne. destruct (H2 x Hx y Hy); [done|done].
  - intros C' HC' Hcl Hsub x Hx. destruct (decide (x ∈ C)) as [|Hn]; [done|]. exfalso. apply (H3 x); [set_solver|]. intros y Hy. apply Hcl; [done|by apply Hsub|by intros ->].
Qed.
Lemma maximal_is N A C : maximal_clique N A C → is_maximal N A C = true.
Proof.
  intros (H1 & H2 & H3 & H4). unfold is_maximal. apply andb_true_iff. split; [apply andb_true_iff; split|]; apply bool_decide_eq_true.
  - done.
  - intros x Hx y Hy. destruct (decide (x = y)); [by left|right]. by apply H3.
  - intros x [Hx Hn]%elem_of_difference Hall. apply Hn. apply (H4 ({[x]} ∪ C)); [set_solver| |set_solver|set_solver].
    intros a b Ha Hb Hab. rewrite elem_of_union, elem_of_singleton in Ha, Hb. destruct Ha as [->|Ha], Hb as [->|Hb]; [done|by apply Hall|apply joined_sym; by apply Hall|by apply H3].
Qed.
Lemma check_cliques_spec N A cl : check_cliques N A cl = true → cliques_of N A cl.
Proof.
  unfold check_cliques. intros [[H1%bool_decide_eq_true H2]%andb_true_iff H3]%andb_true_iff. rewrite forallb_forall in H2, H3. split; [done|]. intros C. split.
  - intros HC%elem_of_list_In. apply H2, andb_true_iff in HC as [H HC%bool_decide_eq_true]. by apply is_maximal_spec.
  - intros HC. specialize (H3 C). rewrite <-elem_of_list_In, (maximal_is _ _ _ HC) in H3. cbn in H3. apply (bool_decide_eq_true (C ∈ cl)), H3.
    apply all_subsets_all. intros x Hx. apply elem_of_elements. by apply HC.
Qed.
Definition check_moral (A : arcset) : bool :=
  bool_decide (set_Forall (λ a : node * node, set_Forall (λ b : node * node, a.2 = b.2 → a.1 ≠ b.1 → joined A a.1 b.1) A) A).
Lemma check_moral_spec A : check_moral A = true → moral_arcs A.
Proof. intros H%bool_decide_eq_true x y z H1 H2 Hne. by apply (H (x, z) H1 (y, z) H2). Qed.

Definition fs (l : list nat) : nset := list_to_set l.
Definition tri_dag : dag := dag_of (fs [0; 1; 2; 3; 4]) {[(0, 1); (1, 2); (1, 3); (1, 4); (3, 2); (3, 4)]}.
Definition tri_cliques : list nset := fs <$> [[1; 2; 3]; [1; 3; 4]; [0; 1]].
Example example_C116_tree :
  views_agree tri_dag ∧ acyclic (d_arcs tri_dag) ∧ moral_arcs (d_arcs tri_dag) ∧ cliques_of (d_nodes tri_dag) (d_arcs tri_dag) tri_cliques ∧
  directed_clique_tree (λ _ _, true) tri_cliques tri_dag =
    Ok [(fs [1; 2; 3], fs [1; 3; 4]); (fs [1; 3; 4], fs [1; 2; 3]); (fs [0; 1], fs [1; 2; 3])] ∧
  residuals (λ _ _, true) (λ l, l) tri_cliques tri_dag = Ok [fs [2; 3; 4]; fs [0; 1]].
Proof.
  split; [apply wf_views_agree, dag_of_wf|]. split; [apply acyclicb_spec; by vm_compute|]. split; [apply check_moral_spec; by vm_compute|].
  split; [apply check_cliques_spec; by vm_compute|]. split; by_vm.
Qed.
Example example_C116_one_parent : ∀ a b c,
  let F := [(fs [1; 2; 3], fs [1; 3; 4]); (fs [1; 3; 4], fs [1; 2; 3]); (fs [0; 1], fs [1; 2; 3])] in
  (a, c) ∈ (contracted F tri_cliques).2 → (b, c) ∈ (contracted F tri_cliques).2 → a = b.
Proof.
  intros a b c F. assert ((contracted F tri_cliques).2 = [([fs [0; 1]], fs <$> [[1; 2; 3]; [1; 3; 4]])]) as -> by by_vm.
  intros [= -> ->]%elem_of_list_singleton [= ->]%elem_of_list_singleton. done.
Qed.

(** The test for a source looks at the parent pointers of [UnionFind] and not at the roots.  A pointer that has not been updated hides
    a source, the component gets two parents, and the residuals overlap. *)
Definition stale_dag : dag := dag_of (fs (seq 0 9))
  {[(0, 1); (1, 2); (1, 3); (1, 4); (2, 4); (1, 5); (2, 5); (1, 6); (3, 6); (1, 7); (6, 7); (1, 8); (6, 8)]}.
Definition stale_cliques : list nset := fs <$> [[1; 2; 4]; [1; 6; 7]; [1; 6; 8]; [0; 1]; [1; 3; 6]; [1; 2; 5]].
Theorem C116_residuals_disjoint_refuted :
  ∃ tie ord cl d Rs, views_agree d ∧ acyclic (d_arcs d) ∧ moral_arcs (d_arcs d) ∧ cliques_of (d_nodes d) (d_arcs d) cl ∧ (∀ l, ord l ≡ₚ l) ∧
    residuals tie ord cl d = Ok Rs ∧ ∃ i j R R', Rs !! i = Some R ∧ Rs !! j = Some R' ∧ i ≠ j ∧ ¬ R ## R'.
Proof.
  exists (λ a _, bool_decide (a ≠ fs [1; 6; 7])), reverse, stale_cliques, stale_dag, [fs [2; 4; 5; 6; 7; 8]; fs [0; 1]; fs [1; 3; 6]].
  split; [apply wf_views_agree, dag_of_wf|]. split; [apply acyclicb_spec; by vm_compute|]. split; [apply check_moral_spec; by vm_compute|].
  split; [apply check_cliques_spec; by vm_compute|]. split; [apply reverse_Permutation|]. split; [by_vm|].
  exists 1, 2, (fs [0; 1]), (fs [1; 3; 6]). split; [done|]. split; [done|]. split; [done|]. intros H. apply (H 1); by_vm.
Qed.

(** With a collider between nodes that are not joined the tree may leave out a clique although it has common nodes with others. *)
Theorem C116_clique_tree_collider_refuted :
  ∃ tie cl d F X Y, views_agree d ∧ acyclic (d_arcs d) ∧ cliques_of (d_nodes d) (d_arcs d) cl ∧ directed_clique_tree tie cl d = Ok F ∧
    X ∈ cl ∧ Y ∈ cl ∧ X ∩ Y ≠ ∅ ∧ ¬ connected_over F (X ∩ Y) X Y.
Proof.
  exists (λ _ _, true), (fs <$> [[0; 2]; [2; 3]; [1; 3]]), (dag_of (fs [0; 1; 2; 3]) {[(0, 2); (2, 3); (1, 3)]}), [(fs [0; 2], fs [2; 3])], (fs [1; 3]), (fs [2; 3]).
  split; [apply wf_views_agree, dag_of_wf|]. split; [apply acyclicb_spec; by vm_compute|].
  split; [apply check_cliques_spec; by vm_compute|]. split; [by_vm|]. split; [by_vm|]. split; [by_vm|]. split; [by_vm|].
  intros H. apply rtc_inv in H as [H|(Z & ([H|H] & _ & _) & _)].
  - assert (fs [1; 3] ≠ fs [2; 3]) by by_vm. done.
  - apply elem_of_list_singleton in H. injection H as H _. assert (fs [1; 3] ≠ fs [0; 2]) by by_vm. done.
  - apply elem_of_list_singleton in H. injection H as _ H. assert (fs [1; 3] ≠ fs [2; 3]) by by_vm. done.
Qed.

Print Assumptions C116_forest.
Print Assumptions C116_contraction_acyclic.
Print Assumptions C116_clique_tree.
Print Assumptions C116_residuals_cover.
Print Assumptions C116_residuals_disjoint.
Print Assumptions C116_residuals_disjoint_refuted.
Print Assumptions C116_clique_tree_collider_refuted.
