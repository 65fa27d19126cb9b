(** C118: [optimal_fully_orienting_single_node_interventions] with [new=True]. *)
From Verif Require Import Py Spec SpecMec SpecIntervene SpecDct DagModel InterveneModel DctModel DctRegModel DctNewModel TopoProofs StateProofs ReachProofs QueryProofs CoreProofs
  MarkovProofs PropertiesDag InterveneProofs DctUf DctGraph DctTree DctProofs DctResid DctReg DctNew PropertiesDct PropertiesReg.

(** No exception is raised, for all graphs. *)
Theorem C118_returns tie ord os cl d : views_agree d → acyclic (d_arcs d) → NoDup cl → ∃ X, optimal_new tie ord os cl d = Ok X.
Proof.
  intros Hwf Hac Hnd. unfold optimal_new. destruct (tree_general tie cl d Hnd) as (F & -> & _). cbn [res_bind]. set (g := contracted F cl). generalize g.1 at 1. generalize (∅ : nset).
  intros acc cs. revert acc. induction cs as [|c cs IH]; intros acc; cbn [loopR]; [eexists; reflexivity|].
  assert (∀ o Z, ∃ i l, induced_subgraph d o Z = Ok i ∧ topological_sort i o = Ok l) as H.
  { intros o Z. destruct (induced_subgraph_spec d o Hac Z) as (i & Ei & Hi & Hi2 & _). destruct (proj1 (C05_topological_sort i o (proj1 (wf_views_agree i) Hi)) Hi2) as (l & El & _). by exists i, l. }
  assert (∀ o P, ∃ X, verification_helper d o c P = Ok X) as Hh.
  { intros o P. unfold verification_helper. destruct c as [|C [|C' c]].
    - destruct (H o (⋃ [])) as (i & l & -> & El). cbn [res_bind]. rewrite El. cbn [res_bind]. by eexists.
    - destruct (H o (C ∖ P)) as (i & l & -> & El). cbn [res_bind]. rewrite El. cbn [res_bind]. by eexists.
    - destruct (H o (⋃ (C :: C' :: c))) as (i & l & -> & El). cbn [res_bind]. rewrite El. cbn [res_bind]. by eexists. }
  destruct (Hh (os c) (parent_nodes ord g c)) as (X & ->). cbn [res_bind]. apply IH.
Qed.

(** As long as no edge goes both ways, the second [UnionFind] has only roots, so a clique with a parent gets no other one. *)
Definition all_roots (u : uf) : Prop := ∀ x y, uf_par u !! x = Some y → y = x.
Lemma roots_find u x u' r : all_roots u → uf_find u x = Ok (u', r) → r = x ∧ all_roots u' ∧ uf_par u' !! x = Some x.
Proof.
  intros Hu. unfold uf_find. destruct (uf_par u !! x) as [y|] eqn:E.
  - pose proof (Hu _ _ E) as ->. cbn [uf_walk]. rewrite E, decide_True by done. cbn [res_bind]. intros [= <- <-]. cbn. split; [done|].
    split; [|by rewrite lookup_insert]. intros a b. cbn. destruct (decide (a = x)) as [->|]; [rewrite lookup_insert; congruence|rewrite lookup_insert_ne by done; apply Hu].
  - intros [= <- <-]. split; [done|]. cbn. split; [|by rewrite lookup_insert].
    intros a b. cbn. destruct (decide (a = x)) as [->|]; [rewrite lookup_insert; congruence|rewrite lookup_insert_ne by done; apply Hu].
Qed.
Definition one_way (F : list cedge) : Prop := ∀ X Y, (X, Y) ∈ F → (Y, X) ∉ F.
Definition one_parent (F : list cedge) : Prop := ∀ X Y Z, (X, Z) ∈ F → (Y, Z) ∈ F → X = Y.
Lemma one_parent_step A tie e st st' : dct_step A tie e st = Ok st' →
  (one_way (s_ct st) → all_roots (s_bid st) ∧ one_parent (s_ct st)) → one_way (s_ct st') → all_roots (s_bid st') ∧ one_parent (s_ct st').
Proof.
  destruct e as [c1 c2]. unfold dct_step. destruct (uf_find (s_sub st) c1) as [p1|] eqn:E1; [|done]. cbn [res_bind].
  destruct (uf_find p1.1 c2) as [p2|] eqn:E2; [|done]. cbn [res_bind]. destruct (decide (p1.2 = p2.2)); [by intros [= <-]|]. cbv zeta.
  destruct (all_into A (c1 ∩ c2) c1 && all_into A (c1 ∩ c2) c2).
  - destruct (uf_find (s_bid st) c1) as [[u1 r1]|] eqn:E3; [|done]. cbn [res_bind fst snd]. destruct (uf_find u1 c2) as [[u2 r2]|] eqn:E4; [|done]. cbn [res_bind fst snd].
    destruct (has_source (s_ct st) u2 r1 && has_source (s_ct st) u2 r2).
    + intros [= <-] IH Ho. cbn in *. destruct (IH Ho) as [H1 H2]. split; [|done]. destruct (roots_find _ _ _ _ H1 E3) as (_ & H3 & _). by destruct (roots_find _ _ _ _ H3 E4) as (_ & H4 & _).
    + destruct (uf_union tie p2.1 c1 c2) as [sub|]; [|done]. cbn [res_bind]. destruct (uf_union tie u2 c1 c2) as [bid|]; [|done]. cbn [res_bind].
      intros [= <-] IH Ho. cbn in *. exfalso. apply (Ho c1 c2); apply elem_of_app; right; set_solver.
  - assert (∀ a b, res_bind (uf_find (s_bid st) b) (λ b2, if has_source (s_ct st) b2.1 b2.2 then Ok (Dct (s_ct st) p2.1 b2.1) else
      res_bind (uf_union tie p2.1 a b) (λ sub, Ok (Dct (s_ct st ++ [(a, b)]) sub b2.1))) = Ok st' →
      (one_way (s_ct st) → all_roots (s_bid st) ∧ one_parent (s_ct st)) → one_way (s_ct st') → all_roots (s_bid st') ∧ one_parent (s_ct st')) as Hgen; [|destruct (all_into A (c1 ∩ c2) c2); [apply (Hgen c1 c2)|]].
    { intros a b. destruct (uf_find (s_bid st) b) as [[u r]|] eqn:E3; [|done]. cbn [res_bind fst snd]. destruct (has_source (s_ct st) u r) eqn:Es.
      - intros [= <-] IH Ho. cbn in *. destruct (IH Ho) as [H1 H2]. split; [|done]. by destruct (roots_find _ _ _ _ H1 E3) as (_ & H3 & _).
      - destruct (uf_union tie p2.1 a b) as [sub|]; [|done]. cbn [res_bind]. intros [= <-] IH Ho. cbn in *.
        assert (one_way (s_ct st)) as Ho' by (intros X Y HX HY; apply (Ho X Y); apply elem_of_app; by left).
        destruct (IH Ho') as [H1 H2]. destruct (roots_find _ _ _ _ H1 E3) as (-> & H3 & H4). split; [done|].
        assert (∀ X, (X, b) ∉ s_ct st) as Hno.
        { intros X HX. apply not_true_iff_false in Es. apply Es. unfold has_source. apply existsb_exists. exists (b, b). split; [by apply elem_of_list_In, elem_of_map_to_list|].
          cbn. rewrite bool_decide_true by done. cbn. apply existsb_exists. exists (X, b). split; [by apply elem_of_list_In|]. apply bool_decide_eq_true. split; [done|]. by apply Ho'. }
        intros X Y Z. rewrite !elem_of_app, !elem_of_list_singleton. intros [HX|[= -> ->]] [HY|HY]; [by apply (H2 X Y Z)|injection HY as -> ->; by apply Hno in HX|by apply Hno in HY|congruence]. }
    apply (Hgen c2 c1).
Qed.
(** If no edge of the clique tree goes both ways, no clique has two parents in it. *)
Theorem C118_one_parent tie cl d F : directed_clique_tree tie cl d = Ok F → (∀ X Y, (X, Y) ∈ F → (Y, X) ∉ F) → ∀ X Y Z, (X, Z) ∈ F → (Y, Z) ∈ F → X = Y.
Proof.
  unfold directed_clique_tree. generalize (by_size (filter (λ e : cedge, e.1 ∩ e.2 ≠ ∅) (pairs cl))). intros es.
  assert (one_way (s_ct (Dct [] uf0 uf0)) → all_roots (s_bid (Dct [] uf0 uf0)) ∧ one_parent (s_ct (Dct [] uf0 uf0))) as H0.
  { intros _. split; [intros x y H; cbn in H; by rewrite lookup_empty in H|intros X Y Z H; by apply elem_of_nil in H]. }
  revert H0. generalize (Dct [] uf0 uf0). induction es as [|e es IH]; intros st H0; cbn [loopR].
  - intros [= <-] Ho. by apply H0.
  - destruct (dct_step (d_arcs d) tie e st) as [st'|] eqn:E; [|done]. apply IH. by apply (one_parent_step _ _ _ _ _ E).
Qed.

Lemma contracted_one_parent tie cl d F : cliques_of (d_nodes d) (d_arcs d) cl → directed_clique_tree tie cl d = Ok F → (∀ X Y, (X, Y) ∈ F → (Y, X) ∉ F) →
  ∀ a b c, (a, c) ∈ (contracted F cl).2 → (b, c) ∈ (contracted F cl).2 → a = b.
Proof.
  intros Hcl E Hone. pose proof (C118_one_parent tie cl d F E Hone) as Hun. destruct (tree_general tie cl d (proj1 Hcl)) as (F' & E' & _ & H & _). rewrite E in E'. injection E' as <-.
  assert (∀ X Y, (X, Y) ∈ F → X ∈ cl ∧ Y ∈ cl) as H' by (intros X Y HXY; by apply H in HXY as (? & ? & _)).
  intros a b c (_ & X & Z & HXZ & -> & ->)%elem_of_arcs (_ & Y & Z' & HYZ & -> & EZ)%elem_of_arcs. destruct (H' _ _ HXZ) as [HX HZ], (H' _ _ HYZ) as [HY HZ'].
  rewrite !(comp_single d F cl Hcl Hone) in EZ |- * by done. injection EZ as ->. by rewrite (Hun X Y Z').
Qed.
(** Hence in this case the residuals are disjoint and the residual essential graph is as it should be, for all orders and choices of [UnionFind]. *)
Corollary C118_residuals_disjoint tie ord cl d F Rs : views_agree d → acyclic (d_arcs d) → moral_arcs (d_arcs d) → cliques_of (d_nodes d) (d_arcs d) cl →
  (∀ l, ord l ≡ₚ l) → directed_clique_tree tie cl d = Ok F → (∀ X Y, (X, Y) ∈ F → (Y, X) ∉ F) → residuals tie ord cl d = Ok Rs →
  ∀ i j R R', Rs !! i = Some R → Rs !! j = Some R' → i ≠ j → R ## R'.
Proof. intros Hwf Hac Hm Hcl Hord E Hone ER. apply (C116_residuals_disjoint tie ord cl d F Rs); try done. by apply (contracted_one_parent tie cl d F). Qed.
Corollary C118_residual_arcs tie ord cl d F Rs N arcs edges : views_agree d → acyclic (d_arcs d) → moral_arcs (d_arcs d) → cliques_of (d_nodes d) (d_arcs d) cl →
  (∀ l, ord l ≡ₚ l) → directed_clique_tree tie cl d = Ok F → (∀ X Y, (X, Y) ∈ F → (Y, X) ∉ F) →
  residuals tie ord cl d = Ok Rs → residual_essential_graph tie ord cl d = Ok (N, arcs, edges) →
  ∀ x y, ((x, y) ∈ edges ↔ (x, y) ∈ d_arcs d ∧ ∃ R, R ∈ Rs ∧ x ∈ R ∧ y ∈ R) ∧
    ((x, y) ∈ arcs ↔ (x, y) ∈ d_arcs d ∧ ∃ i j R R', i ≠ j ∧ Rs !! i = Some R ∧ Rs !! j = Some R' ∧ x ∈ R ∧ y ∈ R').
Proof. intros Hwf Hac Hm Hcl Hord E Hone ER EG. apply (C117_residual_arcs tie ord cl d F Rs N arcs edges); try done. by apply (contracted_one_parent tie cl d F). Qed.

(** If no edge of the clique tree goes both ways, the result is a smallest verifying set. *)
Theorem C118_smallest tie ord os cl d F : views_agree d → acyclic (d_arcs d) → moral_arcs (d_arcs d) → cliques_of (d_nodes d) (d_arcs d) cl → (∀ l, ord l ≡ₚ l) →
  directed_clique_tree tie cl d = Ok F → (∀ X Y, (X, Y) ∈ F → (Y, X) ∉ F) →
  ∃ X, optimal_new tie ord os cl d = Ok X ∧ verifies (singles (elements X)) (d_arcs d) ∧ ∀ l, verifies (singles l) (d_arcs d) → size X ≤ length l.
Proof.
  intros Hwf Hac Hm Hcl Hord E Hone. destruct (tree_general tie cl d (proj1 Hcl)) as (F' & E' & _ & H & h & Hh). rewrite E in E'. injection E' as <-.
  destruct (C116_clique_tree tie cl d Hwf Hac Hm Hcl) as (F' & E' & Hforest & Hpt & Hspan). rewrite E in E'. injection E' as <-.
  assert (∀ X Y, (X, Y) ∈ F → X ∈ cl ∧ Y ∈ cl) as H' by (intros X Y HXY; by apply H in HXY as (? & ? & _)).
  assert (over (d_nodes d) (d_arcs d)) as Hov by (by apply wf_over, wf_views_agree).
  destruct (topo_rank _ _ Hac Hov) as [r Hr].
  assert (∀ v X Y, X ∈ cl → Y ∈ cl → v ∈ X → v ∈ Y → connected_over F {[v]} X Y) as Hconn.
  { intros v X Y HX HY HvX HvY. apply (conn_mono F (X ∩ Y)); [clear -HvX HvY; set_solver|]. apply Hspan; [done|done|clear -HvX HvY; set_solver]. }
  assert (∀ X Y, (X, Y) ∈ F → points_to (d_arcs d) X Y ∧ ((Y, X) ∈ F ↔ points_to (d_arcs d) Y X)) as Hpoint.
  { intros X Y HXY. by apply Hpt in HXY as (_ & _ & _ & ? & ?). }
  pose proof (contracted_one_parent tie cl d F Hcl E Hone) as Huniq.
  unfold optimal_new. rewrite E. cbn [res_bind].
  destruct (loop_new d F cl h ord r Hac Hov Hr Hcl H' Hh Hord Huniq Hforest Hconn Hpoint Hone os (contracted F cl).1 ∅) as (X & -> & _ & Hcover & Hmin); [done|apply NoDup_components|].
  exists X. split; [done|]. apply wf_views_agree in Hwf. split.
  - apply verifies_cover; [done..|]. rewrite list_to_set_elements_L. intros x y Hxy. apply elem_of_covered_edges in Hxy; [|done..].
    destruct (covered_residual d F cl h ord r Hac Hov Hr Hcl H' Hh Hord Huniq Hforest Hconn Hpoint Hone x y Hxy) as (V & HV & HVg & Hx & Hy). by apply (Hcover [V]).
  - intros l Hl. apply verifies_cover in Hl; [|done..]. transitivity (size (list_to_set l : nset)).
    + apply (Hmin _) with ∅; [|intros c _ z []%elem_of_empty|rewrite size_empty; lia]. intros x y Hxy. apply Hl. by apply elem_of_covered_edges.
    + clear. induction l as [|x l IH]; [rewrite list_to_set_nil, size_empty; lia|]. rewrite list_to_set_cons.
      assert (size ({[x]} ∪ list_to_set l : nset) ≤ 1 + size (list_to_set l : nset)) as H.
      { pose proof (size_singleton (C := nset) x) as H1. rewrite size_union_alt, H1. assert (list_to_set l ∖ {[x]} ⊆ (list_to_set l : nset)) as Hs by (clear; set_solver). apply subseteq_size in Hs. lia. }
      cbn [length]. lia.
Qed.

(** In particular for DAGs with an arc between any two nodes. *)
Corollary C118_complete tie ord os cl d : views_agree d → acyclic (d_arcs d) → clique (d_arcs d) (d_nodes d) → cliques_of (d_nodes d) (d_arcs d) cl → (∀ l, ord l ≡ₚ l) →
  ∃ X, optimal_new tie ord os cl d = Ok X ∧ verifies (singles (elements X)) (d_arcs d) ∧ ∀ l, verifies (singles l) (d_arcs d) → size X ≤ length l.
Proof.
  intros Hwf Hac Hc Hcl Hord. destruct (tree_general tie cl d (proj1 Hcl)) as (F & E & Hf & H & _).
  assert (∀ X, X ∈ cl → X = d_nodes d) as HN. { intros X HX. apply Hcl in HX as (_ & H1 & _ & H2). apply (anti_symm (⊆)); [done|]. by apply H2. }
  assert (∀ X Y, (X, Y) ∉ F) as HF. { intros X Y HXY. destruct (H X Y HXY) as (HX & HY & _). destruct (Hf X Y HXY) as [Hne _]. apply Hne. by rewrite (HN X HX), (HN Y HY). }
  apply (C118_smallest tie ord os cl d F); try done.
  assert (over (d_nodes d) (d_arcs d)) as Hov by (by apply wf_over, wf_views_agree). intros x y z Hx Hy Hne. apply Hc; [by apply (Hov x z)|by apply (Hov y z)|done].
Qed.

(** The example of the documentation, and one with three cliques. *)
Example example_C118_complete :
  let d := dag_of ∅ (list_to_set (pairs (seq 0 5))) in
  views_agree d ∧ acyclic (d_arcs d) ∧ cliques_of (d_nodes d) (d_arcs d) [fs (seq 0 5)] ∧
  optimal_new (λ _ _, true) (λ l, l) (λ _, oracle0) [fs (seq 0 5)] d = Ok (fs [1; 3]).
Proof. split; [apply wf_views_agree, dag_of_wf|]. split; [apply acyclicb_spec; by vm_compute|]. split; [apply check_cliques_spec; by vm_compute|]. by_vm. Qed.
Definition fan_dag : dag := dag_of ∅ (list_to_set (pairs [0; 1; 2; 3] ++ pairs [2; 3; 4; 5] ++ pairs [1; 6])).
Definition fan_cliques : list nset := fs <$> [[1; 6]; [0; 1; 2; 3]; [2; 3; 4; 5]].
Example example_C118 : views_agree fan_dag ∧ acyclic (d_arcs fan_dag) ∧ moral_arcs (d_arcs fan_dag) ∧ cliques_of (d_nodes fan_dag) (d_arcs fan_dag) fan_cliques ∧
  directed_clique_tree (λ _ _, true) fan_cliques fan_dag = Ok [(fs [0; 1; 2; 3], fs [2; 3; 4; 5]); (fs [0; 1; 2; 3], fs [1; 6])] ∧
  optimal_new (λ _ _, true) (λ l, l) (λ _, oracle0) fan_cliques fan_dag = Ok (fs [1; 3; 5]).
Proof.
  split; [apply wf_views_agree, dag_of_wf|]. split; [apply acyclicb_spec; by vm_compute|]. split; [apply check_moral_spec; by vm_compute|].
  split; [apply check_cliques_spec; by vm_compute|]. split; by_vm.
Qed.

(** With edges in both directions the result need not orient all arcs.  Here the arc from 0 to 4 is left, because the node 0 counts as a
    node of the parent and is not intervened on in the component of 4; another order of the cliques gives the verifying set 0, 1. *)
Definition side_dag : dag := dag_of ∅ {[(0, 1); (0, 2); (1, 2); (0, 3); (2, 3); (0, 4)]}.
Theorem C118_verifies_refuted : ∃ tie ord os cl d F X, views_agree d ∧ acyclic (d_arcs d) ∧ moral_arcs (d_arcs d) ∧ cliques_of (d_nodes d) (d_arcs d) cl ∧
  (∀ l, ord l ≡ₚ l) ∧ directed_clique_tree tie cl d = Ok F ∧ (∀ a b c, (a, c) ∈ (contracted F cl).2 → (b, c) ∈ (contracted F cl).2 → a = b) ∧
  optimal_new tie ord os cl d = Ok X ∧ ¬ verifies (singles (elements X)) (d_arcs d).
Proof.
  exists (λ _ _, true), (λ l, l), (λ _, oracle0), (fs <$> [[0; 2; 3]; [0; 1; 2]; [0; 4]]), side_dag, [(fs [0; 1; 2], fs [0; 2; 3]); (fs [0; 2; 3], fs [0; 4]); (fs [0; 4], fs [0; 2; 3])], (fs [1]).
  assert (wf side_dag) as Hwf by apply dag_of_wf. assert (acyclic (d_arcs side_dag)) as Hac by (apply acyclicb_spec; by vm_compute).
  split; [by apply wf_views_agree|]. split; [done|]. split; [apply check_moral_spec; by vm_compute|].
  split; [apply check_cliques_spec; by vm_compute|]. split; [done|]. split; [by_vm|]. split.
  - intros a b c. assert ((contracted [(fs [0; 1; 2], fs [0; 2; 3]); (fs [0; 2; 3], fs [0; 4]); (fs [0; 4], fs [0; 2; 3])] (fs <$> [[0; 2; 3]; [0; 1; 2]; [0; 4]])).2 = [([fs [0; 1; 2]], fs <$> [[0; 2; 3]; [0; 4]])]) as -> by by_vm.
    intros [= -> ->]%elem_of_list_singleton [= ->]%elem_of_list_singleton. done.
  - split; [by_vm|]. intros H. apply verifies_cover in H; [|done..]. rewrite list_to_set_elements_L in H.
    assert ((0, 4) ∈ compute_covered_edges side_dag) as H4 by by_vm. destruct (H 0 4 H4) as [H0|H0]; revert H0; [assert (0 ∉ fs [1]) by by_vm|assert (4 ∉ fs [1]) by by_vm]; done.
Qed.

(** Also if there is only one component: the nodes in several cliques are looked at as if they formed a path in the topological order. *)
Definition two_heads_dag : dag := dag_of ∅ (list_to_set (pairs [0; 1; 3; 4] ++ pairs [0; 1; 5; 6] ++ pairs [0; 2; 7; 8] ++ pairs [0; 2; 9; 10])).
Theorem C118_one_component_refuted : ∃ tie ord os cl d F X, views_agree d ∧ acyclic (d_arcs d) ∧ moral_arcs (d_arcs d) ∧ cliques_of (d_nodes d) (d_arcs d) cl ∧
  (∀ l, ord l ≡ₚ l) ∧ directed_clique_tree tie cl d = Ok F ∧ length (contracted F cl).1 = 1 ∧
  optimal_new tie ord os cl d = Ok X ∧ ¬ verifies (singles (elements X)) (d_arcs d).
Proof.
  set (cl := fs <$> [[0; 1; 3; 4]; [0; 1; 5; 6]; [0; 2; 7; 8]; [0; 2; 9; 10]]).
  exists (λ _ _, true), (λ l, l), (λ _, oracle0), cl, two_heads_dag,
    [(fs [0; 1; 3; 4], fs [0; 1; 5; 6]); (fs [0; 1; 5; 6], fs [0; 1; 3; 4]); (fs [0; 2; 7; 8], fs [0; 2; 9; 10]); (fs [0; 2; 9; 10], fs [0; 2; 7; 8]); (fs [0; 1; 3; 4], fs [0; 2; 7; 8]); (fs [0; 2; 7; 8], fs [0; 1; 3; 4])],
    (fs [2; 3; 5; 7; 9]).
  assert (wf two_heads_dag) as Hwf by apply dag_of_wf. assert (acyclic (d_arcs two_heads_dag)) as Hac by (apply acyclicb_spec; by vm_compute).
  split; [by apply wf_views_agree|]. split; [done|]. split; [apply check_moral_spec; by vm_compute|].
  split; [apply check_cliques_spec; by vm_compute|]. split; [done|]. split; [by_vm|]. split; [by_vm|].
  split; [by_vm|]. intros H. apply verifies_cover in H; [|done..]. rewrite list_to_set_elements_L in H.
  assert ((0, 1) ∈ compute_covered_edges two_heads_dag) as H4 by by_vm. destruct (H 0 1 H4) as [H0|H0]; revert H0; [assert (0 ∉ fs [2; 3; 5; 7; 9]) by by_vm|assert (1 ∉ fs [2; 3; 5; 7; 9]) by by_vm]; done.
Qed.

Print Assumptions C118_returns.
Print Assumptions C118_one_parent.
Print Assumptions C118_residuals_disjoint.
Print Assumptions C118_residual_arcs.
Print Assumptions C118_smallest.
Print Assumptions C118_complete.
Print Assumptions C118_verifies_refuted.
Print Assumptions C118_one_component_refuted.
