(** C117: the residual essential graph. *)
From Verif Require Import Py Spec DagModel DctModel DctRegModel SpecDct TopoProofs StateProofs ReachProofs QueryProofs CoreProofs MarkovProofs PropertiesDag
  DctUf DctGraph DctTree DctProofs DctResid DctReg PropertiesDct.

(** The result has the nodes of the graph, and every arc of the graph is either an arc or an edge of it. *)
Theorem C117_partition tie ord cl d : NoDup cl → ∃ arcs edges, residual_essential_graph tie ord cl d = Ok (d_nodes d, arcs, edges) ∧
  arcs ## edges ∧ arcs ∪ edges = d_arcs d.
Proof.
  intros Hnd. unfold residual_essential_graph. destruct (tree_general tie cl d Hnd) as (F & E' & _). rewrite E'. cbn [res_bind]. eexists _, _. split; [reflexivity|].
  generalize (reg_arcs ord (contracted F cl)). intros G. split; [set_solver|]. apply set_eq. intros e. destruct (decide (e ∈ G)); set_solver.
Qed.

(** If no component has two parents, the edges are the arcs of the graph within the residuals, and the arcs those from one residual
    to another. *)
Theorem C117_residual_arcs tie ord cl d F Rs N arcs edges : views_agree d → acyclic (d_arcs d) → moral_arcs (d_arcs d) → cliques_of (d_nodes d) (d_arcs d) cl →
  (∀ l, ord l ≡ₚ l) → directed_clique_tree tie cl d = Ok F → (∀ a b c, (a, c) ∈ (contracted F cl).2 → (b, c) ∈ (contracted F cl).2 → a = b) →
  residuals tie ord cl d = Ok Rs → residual_essential_graph tie ord cl d = Ok (N, arcs, edges) →
  ∀ x y, ((x, y) ∈ edges ↔ (x, y) ∈ d_arcs d ∧ ∃ R, R ∈ Rs ∧ x ∈ R ∧ y ∈ R) ∧
    ((x, y) ∈ arcs ↔ (x, y) ∈ d_arcs d ∧ ∃ i j R R', i ≠ j ∧ Rs !! i = Some R ∧ Rs !! j = Some R' ∧ x ∈ R ∧ y ∈ R').
Proof.
  intros Hwf Hac Hm Hcl Hord E Huniq ER EG. pose proof (C116_residuals_disjoint tie ord cl d F Rs Hwf Hac Hm Hcl Hord E ER Huniq) as Hdis.
  pose proof (C116_residuals_cover tie ord cl d Rs Hcl Hord ER) as Hcov.
  destruct (tree_general tie cl d (proj1 Hcl)) as (F' & E' & _ & H & h & Hh). rewrite E in E'. injection E' as <-.
  destruct (C116_clique_tree tie cl d Hwf Hac Hm Hcl) as (F' & E' & Hforest & Hpt & Hspan). rewrite E in E'. injection E' as <-.
  unfold residuals in ER. rewrite E in ER. cbn [res_bind] in ER. injection ER as <-.
  unfold residual_essential_graph in EG. rewrite E in EG. cbn [res_bind] in EG. injection EG as <- <- <-.
  assert (∀ X Y, (X, Y) ∈ F → X ∈ cl ∧ Y ∈ cl) as H' by (intros X Y HXY; by apply H in HXY as (? & ? & _)).
  assert (over (d_nodes d) (d_arcs d)) as Hov by (by apply wf_over, wf_views_agree).
  destruct (topo_rank _ _ Hac Hov) as [r Hr].
  assert (∀ x y, (x, y) ∈ d_arcs d → ∃ cx cy, cx ∈ (contracted F cl).1 ∧ cy ∈ (contracted F cl).1 ∧
    x ∈ residual ord (contracted F cl) cx ∧ y ∈ residual ord (contracted F cl) cy ∧ ((x, y) ∈ reg_arcs ord (contracted F cl) ↔ cx ≠ cy)) as Hmain.
  { intros x y Hxy. destruct (Hov x y Hxy) as [Hx Hy].
    destruct (proj2 (Hcov x) Hx) as (Rx & (cx & -> & Hcx)%elem_of_list_fmap & Hxc), (proj2 (Hcov y) Hy) as (Ry & (cy & -> & Hcy)%elem_of_list_fmap & Hyc).
    exists cx, cy. split_and!; try done.
    destruct (extend (d_nodes d) (d_arcs d) {[x; y]}) as (C & HC & HCm); [clear; set_solver|clear -Hx Hy; set_solver| |].
    { intros a b Ha Hb Hab. apply elem_of_union in Ha, Hb. destruct Ha as [Ha%elem_of_singleton|Ha%elem_of_singleton], Hb as [Hb%elem_of_singleton|Hb%elem_of_singleton]; subst; first [done|by left|by right]. }
    destruct (reg_spec (d_arcs d) F cl h ord H' Hh Hord Huniq Hforest) with (x := x) (y := y) (C := C) (cx := cx) (cy := cy) as [H1 H2]; try done.
    - intros v X Y HX HY HvX HvY. apply (conn_mono F (X ∩ Y)); [clear -HvX HvY; set_solver|]. apply Hspan; [done|done|clear -HvX HvY; set_solver].
    - intros X Y HXY. by apply Hpt in HXY as (_ & _ & _ & ? & _).
    - by apply Hcl.
    - clear -HC; set_solver.
    - clear -HC; set_solver.
    - split; [intros Hxy' Heq; by apply H1|]. intros Hne. destruct (H2 Hne) as [[? _]|[_ Hyx]]; [done|]. pose proof (Hr _ _ Hxy). pose proof (Hr _ _ Hyx). lia. }
  intros x y. rewrite elem_of_difference, elem_of_intersection. split.
  - split.
    + intros [Hxy Hn]. split; [done|]. destruct (Hmain x y Hxy) as (cx & cy & Hcx & Hcy & Hx & Hy & Hiff). destruct (decide (cx = cy)) as [<-|Hne]; [|by apply Hiff in Hne].
      exists (residual ord (contracted F cl) cx). split; [|done]. by apply elem_of_list_fmap_1.
    + intros [Hxy (R & (c & -> & Hc)%elem_of_list_fmap & Hx & Hy)]. split; [done|]. destruct (Hmain x y Hxy) as (cx & cy & Hcx & Hcy & Hx' & Hy' & Hiff). rewrite Hiff. intros Hne. apply Hne.
      transitivity c.
      * apply (residual_disjoint F cl h H' Hh ord x cx c Hord Huniq); [|done..]. intros X Y HX HY HvX HvY. apply (conn_mono F (X ∩ Y)); [clear -HvX HvY; set_solver|]. apply Hspan; [done|done|clear -HvX HvY; set_solver].
      * apply (residual_disjoint F cl h H' Hh ord y c cy Hord Huniq); [|done..]. intros X Y HX HY HvX HvY. apply (conn_mono F (X ∩ Y)); [clear -HvX HvY; set_solver|]. apply Hspan; [done|done|clear -HvX HvY; set_solver].
  - split.
    + intros [Hxy' Hxy]. split; [done|]. destruct (Hmain x y Hxy) as (cx & cy & Hcx & Hcy & Hx & Hy & Hiff). pose proof (proj1 Hiff Hxy') as Hne.
      apply elem_of_list_lookup in Hcx as [i Hi], Hcy as [j Hj]. exists i, j, (residual ord (contracted F cl) cx), (residual ord (contracted F cl) cy). split; [intros ->; congruence|].
      split; [apply list_lookup_fmap_Some; by exists cx|]. split; [apply list_lookup_fmap_Some; by exists cy|]. done.
    + intros [Hxy (i & j & R & R' & Hij & Hi & Hj & HxR & HyR)]. split; [|done]. destruct (Hmain x y Hxy) as (cx & cy & Hcx & Hcy & Hx & Hy & Hiff). apply Hiff. intros <-.
      apply elem_of_list_lookup in Hcx as [k Hk].
      assert ((residual ord (contracted F cl) <$> (contracted F cl).1) !! k = Some (residual ord (contracted F cl) cx)) as Hk' by (apply list_lookup_fmap_Some; by exists cx).
      destruct (decide (i = k)) as [->|Hik]; [|by apply (Hdis i k R _ Hi Hk' Hik x)]. destruct (decide (j = k)) as [->|Hjk]; [done|]. by apply (Hdis j k R' _ Hj Hk' Hjk y).
Qed.

(** The example in the documentation. *)
Example example_C117 : residual_essential_graph (λ _ _, true) (λ l, l) tri_cliques tri_dag = Ok (fs [0; 1; 2; 3; 4], {[(1, 2); (1, 3); (1, 4)]}, {[(0, 1); (3, 2); (3, 4)]}).
Proof. by_vm. Qed.

(** Where a component has two parents, an arc is directed although its two ends are in the same residual. *)
Theorem C117_residual_arcs_refuted : ∃ tie ord cl d Rs N arcs edges x y R, views_agree d ∧ acyclic (d_arcs d) ∧ moral_arcs (d_arcs d) ∧
  cliques_of (d_nodes d) (d_arcs d) cl ∧ (∀ l, ord l ≡ₚ l) ∧ residuals tie ord cl d = Ok Rs ∧ residual_essential_graph tie ord cl d = Ok (N, arcs, edges) ∧
  (x, y) ∈ arcs ∧ R ∈ Rs ∧ x ∈ R ∧ y ∈ R.
Proof.
  destruct (C117_partition (λ a _, bool_decide (a ≠ fs [1; 6; 7])) reverse stale_cliques stale_dag) as (arcs & edges & E & _); [by_vm|].
  exists (λ a _, bool_decide (a ≠ fs [1; 6; 7])), reverse, stale_cliques, stale_dag, [fs [2; 4; 5; 6; 7; 8]; fs [0; 1]; fs [1; 3; 6]], (d_nodes stale_dag), arcs, edges, 1, 6, (fs [1; 3; 6]).
  split; [apply wf_views_agree, dag_of_wf|]. split; [apply acyclicb_spec; by vm_compute|]. split; [apply check_moral_spec; by vm_compute|].
  split; [apply check_cliques_spec; by vm_compute|]. split; [apply reverse_Permutation|]. split; [by_vm|]. split; [exact E|]. split; [|split; [by_vm|split; by_vm]].
  assert (match residual_essential_graph (λ a _, bool_decide (a ≠ fs [1; 6; 7])) reverse stale_cliques stale_dag with Ok (_, X, _) => bool_decide ((1, 6) ∈ X) | _ => false end = true) as H by by_vm.
  rewrite E in H. by apply bool_decide_eq_true in H.
Qed.

Print Assumptions C117_partition.
Print Assumptions C117_residual_arcs.
Print Assumptions C117_residual_arcs_refuted.
