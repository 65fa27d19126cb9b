(** Final theorems about orders, reachability and elementary queries of [DAG]:
    C06, C07, C08, C34, C59. *)
From Verif Require Import Py Spec DagModel TopoProofs StateProofs ReachProofs OrderProofs QueryProofs PropertiesDag.

(** ** C06: [is_topological] and [permutation_score] *)

Theorem C06_is_topological d o order :
  views_agree d → listing (d_nodes d) order →
  ∃ b, is_topological d o order = Ok b ∧ (b = true ↔ ∀ i j, (i, j) ∈ d_arcs d → before order i j).
Proof.
  rewrite <-wf_views_agree. intros Hwf [Hnd Hl].
  destruct (all_arcs_before_spec order Hnd (oa o [9] (d_arcs d))) as (b & Hb & Hb').
  { intros [i j]. rewrite elem_of_oa, !Hl. apply (wf_over _ Hwf). }
  exists b. split; [done|]. rewrite Hb'. by setoid_rewrite elem_of_oa.
Qed.

(** The score is the number of arcs pointing backwards; it vanishes exactly for
    topological orders, and reversing the order complements it. *)
Theorem C06_permutation_score d o order :
  views_agree d → listing (d_nodes d) order →
  ∃ B : arcset, permutation_score d o order = Ok (size B) ∧
    ∀ i j, (i, j) ∈ B ↔ (i, j) ∈ d_arcs d ∧ before order j i.
Proof.
  rewrite <-wf_views_agree. intros Hwf [Hnd Hl].
  destruct (count_errors_spec order Hnd (oa o [9] (d_arcs d))) as (B & HB & HB').
  { apply NoDup_oa. }
  { intros [i j]. rewrite elem_of_oa, !Hl. apply (wf_over _ Hwf). }
  exists B. split; [done|]. intros i j. by rewrite HB', elem_of_oa.
Qed.

Theorem C06_score_laws d o o' order k k' b :
  views_agree d → acyclic (d_arcs d) → listing (d_nodes d) order →
  permutation_score d o order = Ok k → permutation_score d o' (reverse order) = Ok k' →
  is_topological d o order = Ok b →
  (k = 0 ↔ b = true) ∧ k + k' = size (d_arcs d).
Proof.
  intros Hv Hac Hl Hk Hk' Hb.
  assert (listing (d_nodes d) (reverse order)) as Hl'.
  { destruct Hl as [H1 H2]. split; [by rewrite reverse_Permutation|]. intros x. by rewrite elem_of_reverse. }
  destruct (C06_permutation_score d o order Hv Hl) as (B & HB & HB').
  destruct (C06_permutation_score d o' _ Hv Hl') as (B1 & HB1 & HB1').
  destruct (C06_is_topological d o order Hv Hl) as (b' & Hb' & Hb'').
  rewrite Hk in HB. rewrite Hk' in HB1. rewrite Hb in Hb'. injection HB as ->. injection HB1 as ->. injection Hb' as <-.
  pose proof Hv as Hwf%wf_views_agree. destruct Hl as [Hnd Hl].
  assert (∀ i j, (i, j) ∈ d_arcs d → before order i j ∨ before order j i) as Htot.
  { intros i j Hij. pose proof (wf_over _ Hwf _ _ Hij) as [? ?]. apply before_total; [by apply Hl..|].
    intros ->. apply (Hac j). by apply tc_once. }
  split.
  - rewrite Hb''. split.
    + intros HB0%size_empty_inv i j Hij. destruct (Htot i j Hij) as [?|Hji]; [done|].
      assert ((i, j) ∈ B) as HijB by (apply HB'; done). set_solver.
    + intros H. replace B with (∅ : arcset); [apply size_empty|]. apply set_eq. intros [i j]. split; [set_solver|].
      intros [H1 H2]%HB'. exfalso. apply (before_asym order Hnd j i H2). by apply H.
  - rewrite <-size_union.
    2:{ intros [i j] [_ H1]%HB' [_ H2]%HB1'. rewrite before_reverse in H2. by apply (before_asym order Hnd j i). }
    f_equal. apply set_eq. intros [i j]. rewrite elem_of_union, HB', HB1', before_reverse. split; [naive_solver|].
    intros Hij. destruct (Htot i j Hij); auto.
Qed.

Example C06_example :
  let d := dag_of {[4]} {[(1, 2); (2, 3); (1, 3)]} in
  views_agree d ∧ acyclic (d_arcs d) ∧ listing (d_nodes d) [2; 4; 1; 3] ∧
  permutation_score d oracle0 [2; 4; 1; 3] = Ok 1 ∧ permutation_score d oracle_rev [3; 1; 4; 2] = Ok 2 ∧
  is_topological d oracle0 [2; 4; 1; 3] = Ok false ∧ is_topological d oracle0 [4; 1; 2; 3] = Ok true.
Proof.
  cbn zeta. split; [apply wf_views_agree, dag_of_wf|]. split; [by_vm|]. split; [|repeat split; by_vm].
  split; [by_vm|]. intros x. replace (d_nodes _) with (list_to_set [2; 4; 1; 3] : nset) by by_vm.
  by rewrite elem_of_list_to_set.
Qed.

(** ** C07: ancestors and descendants are reachability, also on cyclic graphs *)

Theorem C07_ancestors_descendants d o v :
  views_agree d →
  ∃ A D, ancestors_of d o v = Ok A ∧ descendants_of d o v = Ok D ∧
    (∀ u, u ∈ A ↔ tc (edge (d_arcs d)) u v) ∧ (∀ u, u ∈ D ↔ tc (edge (d_arcs d)) v u) ∧
    ∀ u, ∃ b, is_ancestor_of d o u v = Ok b ∧ (b = true ↔ u ∈ A).
Proof.
  rewrite <-wf_views_agree. intros Hwf.
  destruct (ancestors_of_spec d o Hwf v) as (A & -> & HA). destruct (descendants_of_spec d o Hwf v) as (D & -> & HD).
  exists A, D. split; [done|]. split; [done|]. split; [done|]. split; [done|].
  intros u. destruct (is_ancestor_of_spec d o Hwf u v) as (b & -> & Hb). exists b. split; [done|]. by rewrite Hb, HA.
Qed.

(** A set argument gives the union; the empty set is accepted by [ancestors_of]
    only ([descendants_of] of the empty set raises [TypeError]). *)
Theorem C07_set_argument d o S :
  views_agree d →
  (∃ A, ancestors_of_set d o S = Ok A ∧ ∀ u, u ∈ A ↔ ∃ v, v ∈ S ∧ tc (edge (d_arcs d)) u v) ∧
  (S ≠ ∅ → ∃ D, descendants_of_set d o S = Ok D ∧ ∀ u, u ∈ D ↔ ∃ v, v ∈ S ∧ tc (edge (d_arcs d)) v u) ∧
  (S = ∅ → descendants_of_set d o S = Raise TypeError).
Proof.
  rewrite <-wf_views_agree. intros Hwf. split; [by apply ancestors_of_set_spec|].
  split; [by apply descendants_of_set_spec|]. intros ->. unfold descendants_of_set. by rewrite decide_True.
Qed.

(** A cyclic graph: 1->2->3->1, 3->4. *)
Example C07_example :
  let d := (add_arcs_from oracle0 {[(1, 2); (2, 3); (3, 1); (3, 4)]} false (dag_init {[9]})).1 in
  views_agree d ∧ ancestors_of d oracle_rev 2 = Ok {[1; 2; 3]} ∧ descendants_of d oracle0 4 = Ok ∅ ∧
  descendants_of_set d oracle0 {[4; 2]} = Ok {[1; 2; 3; 4]}.
Proof.
  cbn zeta. split; [|repeat split; by_vm].
  apply wf_views_agree. apply add_arcs_from_spec; [apply wf_init|by_vm].
Qed.

(** ** C08: the dictionaries agree with the per-node queries *)

Theorem C08_dicts d o o' v :
  views_agree d → acyclic (d_arcs d) → v ∈ d_nodes d →
  ∃ ma md, ancestor_dict d o = Ok ma ∧ descendant_dict d o = Ok md ∧
    ancestors_of d o' v = Ok (dget ma v) ∧ descendants_of d o' v = Ok (dget md v).
Proof.
  rewrite <-wf_views_agree. intros Hwf Hac Hv.
  destruct (ancestor_dict_spec d o Hwf Hac) as (ma & -> & Hma).
  destruct (descendant_dict_spec d o Hwf Hac) as (md & -> & Hmd).
  destruct (ancestors_of_spec d o' Hwf v) as (A & -> & HA). destruct (descendants_of_spec d o' Hwf v) as (D & -> & HD).
  exists ma, md. split; [done|]. split; [done|]. split; f_equal; apply set_eq; intros x.
  - by rewrite HA, Hma.
  - by rewrite HD, Hmd.
Qed.

Example C08_example :
  let d := dag_of {[5]} {[(1, 2); (2, 3); (4, 3)]} in
  views_agree d ∧ acyclic (d_arcs d) ∧ 3 ∈ d_nodes d ∧ ancestors_of d oracle0 3 = Ok {[1; 2; 4]}.
Proof. cbn zeta. split; [apply wf_views_agree, dag_of_wf|]. repeat split; by_vm. Qed.

(** ** C34: [nodes_between], [edges_between] *)

(** If some node lies strictly between [s] and [t], the result is as documented.
    Missing: the case without intermediate node (refuted below). *)
Theorem C34_nodes_between_partial d o s t :
  views_agree d → (∃ v, tc (edge (d_arcs d)) s v ∧ tc (edge (d_arcs d)) v t) →
  ∃ X, nodes_between d o s t = Ok X ∧
    ∀ x, x ∈ X ↔ x = s ∨ x = t ∨ (tc (edge (d_arcs d)) s x ∧ tc (edge (d_arcs d)) x t).
Proof.
  rewrite <-wf_views_agree. intros Hwf Hv. destruct (nodes_between_spec d o Hwf s t) as (X & HX & H & _).
  exists X. split; [done|]. by apply H.
Qed.

Example C34_example :
  let d := dag_of ∅ {[(1, 2); (2, 3); (1, 3)]} in
  views_agree d ∧ tc (edge (d_arcs d)) 1 2 ∧ tc (edge (d_arcs d)) 2 3 ∧
  nodes_between d oracle0 1 3 = Ok {[1; 2; 3]}.
Proof. cbn zeta. split; [apply wf_views_agree, dag_of_wf|]. repeat split; by_vm. Qed.

(** For a direct arc without intermediate nodes the result is empty. *)
Theorem C34_nodes_between_refuted :
  ∃ d o s t, views_agree d ∧ acyclic (d_arcs d) ∧ (s, t) ∈ d_arcs d ∧ nodes_between d o s t = Ok ∅.
Proof.
  exists (dag_of ∅ {[(1, 2)]}), oracle0, 1, 2. split; [apply wf_views_agree, dag_of_wf|]. repeat split; by_vm.
Qed.

(** [edges_between] looks at each pair in one direction only: with 1->2->3 it
    misses arcs whose endpoints are enumerated in the other order, and the result
    depends on the iteration order. *)
Theorem C34_edges_between_refuted :
  ∃ d s t, views_agree d ∧ acyclic (d_arcs d) ∧
    (∃ X, nodes_between d oracle0 s t = Ok X ∧ ∃ i j, i ∈ X ∧ j ∈ X ∧ (i, j) ∈ d_arcs d ∧
      ∃ F, edges_between d oracle0 s t = Ok F ∧ (i, j) ∉ F) ∧
    edges_between d oracle0 s t ≠ edges_between d oracle_rev s t.
Proof.
  exists (dag_of ∅ {[(1, 2); (2, 3)]}), 1, 3. split; [apply wf_views_agree, dag_of_wf|]. split; [by_vm|].
  split; [|by_vm]. exists {[1; 2; 3]}. split; [by_vm|].
  exists 2, 3. split; [by_vm|]. split; [by_vm|]. split; [by_vm|].
  exists {[(1, 2)]}. split; by_vm.
Qed.

(** ** C59: v-structure, source, sink and upstream queries *)

(** Every v-structure is reported exactly once, in one of its two orientations
    (which one depends on the iteration order). *)
Theorem C59_vstructures d o x z y :
  views_agree d →
  (vstruct (d_arcs d) x z y ↔
      ((x, z, y) ∈ vstructures d o ∧ (y, z, x) ∉ vstructures d o) ∨
      ((y, z, x) ∈ vstructures d o ∧ (x, z, y) ∉ vstructures d o)) ∧
  ((x, z) ∈ arcs_in_vstructures d ↔ ∃ w, vstruct (d_arcs d) x z w).
Proof.
  rewrite <-wf_views_agree. intros Hwf. split; [by apply vstructures_spec|by apply arcs_in_vstructures_spec].
Qed.

Theorem C59_sources_sinks_upstream d o s :
  views_agree d →
  (∀ v, v ∈ sources d ↔ v ∈ d_nodes d ∧ ∀ u, (u, v) ∉ d_arcs d) ∧
  (∀ v, v ∈ sinks d ↔ v ∈ d_nodes d ∧ ∀ u, (v, u) ∉ d_arcs d) ∧
  ∃ X, upstream_most d o s = Ok X ∧ ∀ v, v ∈ X ↔ v ∈ s ∧ ∀ u, u ∈ s → ¬ tc (edge (d_arcs d)) u v.
Proof.
  rewrite <-wf_views_agree. intros Hwf. split; [|split; [|by apply upstream_most_spec]].
  - intros v. unfold sources. rewrite elem_of_filter. setoid_rewrite <-(wf_par _ Hwf). set_solver.
  - intros v. unfold sinks. rewrite elem_of_filter. setoid_rewrite <-(wf_chi _ Hwf). set_solver.
Qed.

Example C59_example :
  let d := dag_of {[5]} {[(1, 3); (2, 3); (3, 4); (1, 4)]} in
  views_agree d ∧ vstructures d oracle0 ≠ vstructures d oracle_rev ∧
  sources d = {[1; 2; 5]} ∧ upstream_most d oracle0 {[3; 4; 2]} = Ok {[2]}.
Proof. cbn zeta. split; [apply wf_views_agree, dag_of_wf|]. repeat split; by_vm. Qed.

Print Assumptions C06_is_topological.
Print Assumptions C06_permutation_score.
Print Assumptions C06_score_laws.
Print Assumptions C07_ancestors_descendants.
Print Assumptions C07_set_argument.
Print Assumptions C08_dicts.
Print Assumptions C34_nodes_between_partial.
Print Assumptions C34_nodes_between_refuted.
Print Assumptions C34_edges_between_refuted.
Print Assumptions C59_vstructures.
Print Assumptions C59_sources_sinks_upstream.
