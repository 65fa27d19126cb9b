(** Final theorems about the state of a [DAG] object: C01-C05. *)
From Verif Require Import Py Spec DagModel TopoProofs StateProofs ReachProofs CoreProofs.

(** ** C01: the adjacency views agree with the arc set *)

(** What the English claim calls agreement of the views. *)
Definition views_agree (d : dag) : Prop :=
  (∀ i j, i ∈ parents d j ↔ (i, j) ∈ d_arcs d) ∧
  (∀ i j, j ∈ children d i ↔ (i, j) ∈ d_arcs d) ∧
  (∀ i j, j ∈ nbrs d i ↔ (i, j) ∈ d_arcs d ∨ (j, i) ∈ d_arcs d) ∧
  (∀ i j, (i, j) ∈ d_arcs d → i ∈ d_nodes d ∧ j ∈ d_nodes d).

Lemma wf_views_agree d : wf d ↔ views_agree d.
Proof.
  split.
  - intros [Ho Hp Hc Hn]. split; [apply Hp|]. split; [apply Hc|]. split; [apply Hn|apply Ho].
  - intros (Hp & Hc & Hn & Ho). split; assumption.
Qed.

(** For every constructor call and every later history of mutator calls, with
    every flag value, in which exceptions are caught and the object used further.
    Missing: calls that try to create a self loop or to add the reverse of an
    existing arc ([history_ok] excludes them; see the refutation). *)
Theorem C01_views_agree_partial o N E d h :
  dag_make o N E = Ok d → history_ok d h → views_agree (run h d).
Proof.
  intros Hmk Hh. destruct (dag_make_spec _ _ _ _ Hmk) as (Hwf & Hac & _).
  destruct (run_wf h d Hwf (acyclic_oriented _ Hac) Hh) as [H _]. by apply wf_views_agree.
Qed.

(** A history with additions, a rejected addition, a reversal and a node removal. *)
Definition example_history : list call :=
  [CAddArc oracle0 2 3 true; CAddArc oracle_rev 4 1 true; CAddArc oracle0 3 4 true;
   CAddArcsFrom oracle_rev {[(1, 5); (5, 3)]} true; CReverseArc oracle0 2 3 false true;
   CRemoveArc 7 8 false; CRemoveNode oracle0 1 false; CAddArc oracle0 3 2 false].

Example C01_example :
  dag_make oracle0 {[9]} {[(1, 2)]} = Ok (dag_of {[9]} {[(1, 2)]}) ∧
  history_ok (dag_of {[9]} {[(1, 2)]}) example_history ∧
  (3, 2) ∈ d_arcs (run example_history (dag_of {[9]} {[(1, 2)]})).
Proof.
  split; [apply dag_of_make; by_vm|]. split; by_vm.
Qed.

(** [DAG(arcs={(1,2)})], then a rejected [add_arc(2,1)]: 1 and 2 are no longer
    reported as neighbors although 1->2 is an arc. *)
Theorem C01_views_agree_refuted :
  ∃ o N E d h, dag_make o N E = Ok d ∧ Forall checked h ∧ ¬ views_agree (run h d).
Proof.
  exists oracle0, ∅, {[(1, 2)]}, (dag_of ∅ {[(1, 2)]}), [CAddArc oracle0 2 1 true].
  split; [apply dag_of_make; by_vm|]. split; [repeat constructor|].
  intros (_ & _ & H & _). assert (2 ∉ nbrs (run [CAddArc oracle0 2 1 true] (dag_of ∅ {[(1, 2)]})) 1) as H' by by_vm.
  apply H'. apply H. left. by_vm.
Qed.

(** ** C02: a rejected [add_arc] changes nothing *)

(** Missing: self loops and reverses of existing arcs (refuted below). *)
Theorem C02_add_arc_rollback_partial o i j d e d' :
  views_agree d → acyclic (d_arcs d) → i ≠ j → (j, i) ∉ d_arcs d →
  add_arc o i j true d = (d', Raise e) →
  (∃ w, e = CycleError w ∧ closes_cycle ({[(i, j)]} ∪ d_arcs d) w) ∧
  d_nodes d' = d_nodes d ∧ d_arcs d' = d_arcs d ∧
  ∀ n, parents d' n = parents d n ∧ children d' n = children d n ∧ nbrs d' n = nbrs d n.
Proof.
  rewrite <-wf_views_agree. intros Hwf Hac Hij Hji He.
  destruct (add_arc_spec o i j true d Hwf (acyclic_oriented _ Hac) Hij Hji) as (Hwf' & Hor' & HN & H).
  rewrite He in *. cbn in *. destruct H as [(? & _)|(w & _ & [= ->] & Hw & Hna & Ha)]; [done|].
  split; [by exists w|].
  assert (tc (edge (d_arcs d)) j i) as Hpath.
  { destruct (decide (tc (edge (d_arcs d)) j i)) as [|Hn]; [done|]. destruct Hna. intros x Hx.
    apply tc_add_arc in Hx as [Hx|[H1 H2]]; [by apply (Hac x)|].
    assert (rtc (edge (d_arcs d)) j i) as H3 by by etrans.
    apply rtc_tc in H3 as [->|H3]; done. }
  destruct (tc_over _ _ _ _ (wf_over _ Hwf) Hpath) as [Hj Hi].
  assert (d_nodes d' = d_nodes d) as HN' by (rewrite HN; clear -Hi Hj; set_solver).
  assert ((i, j) ∉ d_arcs d) as Hnot.
  { intros Hin. apply (Hac i). eapply tc_l; [exact Hin|done]. }
  assert (d_arcs d' = d_arcs d) as Ha' by (rewrite Ha; clear -Hnot; set_solver).
  split; [done|]. split; [done|]. destruct (same_view_wf d' d Hwf' Hwf HN' Ha') as [_ _ H1 H2 H3]. auto.
Qed.

(** 1->2->3 and 1->4; adding 3->1 is rejected. *)
Example C02_example :
  let d := dag_of ∅ {[(1, 2); (2, 3); (1, 4)]} in
  views_agree d ∧ acyclic (d_arcs d) ∧ 3 ≠ 1 ∧ (1, 3) ∉ d_arcs d ∧
  ∃ w, (add_arc oracle_rev 3 1 true d).2 = Raise (CycleError w).
Proof.
  cbn zeta. split.
  { apply wf_views_agree. apply dag_of_wf. }
  split; [by_vm|]. split; [done|]. split; [by_vm|].
  eexists. vm_compute. reflexivity.
Qed.

(** The reverse of an existing arc: rejected, but the neighbor sets have changed
    and removing the (still present) arc 1->2 now raises [KeyError]. *)
Theorem C02_add_arc_rollback_refuted :
  ∃ o d i j, views_agree d ∧ acyclic (d_arcs d) ∧ i ≠ j ∧
    (∃ w, (add_arc o i j true d).2 = Raise (CycleError w)) ∧
    nbrs (add_arc o i j true d).1 i ≠ nbrs d i ∧
    (j, i) ∈ d_arcs (add_arc o i j true d).1 ∧
    (remove_arc j i false (add_arc o i j true d).1).2 = Raise KeyError.
Proof.
  exists oracle0, (dag_of ∅ {[(1, 2)]}), 2, 1.
  split. { apply wf_views_agree. apply dag_of_wf. }
  split; [by_vm|]. split; [done|]. split; [eexists; vm_compute; reflexivity|]. split; [by_vm|]. split; by_vm.
Qed.

(** A self loop on a fresh node: the exception is a [KeyError], not a
    [CycleError], and the node stays in the graph. *)
Theorem C02_self_loop_refuted :
  ∃ o d i, views_agree d ∧ acyclic (d_arcs d) ∧
    (add_arc o i i true d).2 = Raise KeyError ∧ d_nodes (add_arc o i i true d).1 ≠ d_nodes d.
Proof.
  exists oracle0, (dag_init ∅), 1. split; [apply wf_views_agree, wf_init|].
  split; [by_vm|]. split; by_vm.
Qed.

(** ** C03: a rejected [add_arcs_from] is rolled back *)

(** Missing: arcs overlapping the present ones and arcs containing self loops or
    two-cycles (both refuted below).  The nodes of the rejected arcs stay. *)
Theorem C03_add_arcs_rollback_partial o arcs d e d' :
  views_agree d → oriented (arcs ∪ d_arcs d) → arcs ## d_arcs d →
  add_arcs_from o arcs true d = (d', Raise e) →
  (∃ w, e = CycleError w ∧ closes_cycle (arcs ∪ d_arcs d) w) ∧
  d_arcs d' = d_arcs d ∧ views_agree d' ∧
  d_nodes d' = d_nodes d ∪ set_map fst arcs ∪ set_map snd arcs.
Proof.
  rewrite <-!wf_views_agree. intros Hwf Hor Hdis He.
  destruct (add_arcs_from_spec o arcs true d Hwf Hor) as (Hwf' & Hor' & HN & H).
  rewrite He in *. cbn in *. destruct H as [(? & _)|(w & _ & [= ->] & Hw & Hna & Ha)]; [done|].
  split; [by exists w|]. split; [|done]. rewrite Ha. clear -Hdis. set_solver.
Qed.

Example C03_example :
  let d := dag_of ∅ {[(1, 2); (2, 3)]} in
  let arcs := {[(3, 4); (4, 1)]} : arcset in
  views_agree d ∧ oriented (arcs ∪ d_arcs d) ∧ arcs ## d_arcs d ∧
  ∃ w, (add_arcs_from oracle_rev arcs true d).2 = Raise (CycleError w).
Proof.
  cbn zeta. split.
  { apply wf_views_agree. apply dag_of_wf. }
  split; [by_vm|]. split; [by_vm|]. eexists. vm_compute. reflexivity.
Qed.

(** An arc that was already present is deleted by the rollback. *)
Theorem C03_overlap_refuted :
  ∃ o d arcs a, views_agree d ∧ acyclic (d_arcs d) ∧ oriented (arcs ∪ d_arcs d) ∧
    (∃ w, (add_arcs_from o arcs true d).2 = Raise (CycleError w)) ∧
    a ∈ d_arcs d ∧ a ∉ d_arcs (add_arcs_from o arcs true d).1.
Proof.
  exists oracle0, (dag_of ∅ {[(1, 2)]}), {[(1, 2); (2, 3); (3, 1)]}, (1, 2).
  split. { apply wf_views_agree. apply dag_of_wf. }
  split; [by_vm|]. split; [by_vm|]. split; [eexists; vm_compute; reflexivity|]. split; by_vm.
Qed.

(** Two two-cycles: the rollback itself raises [KeyError] and leaves a cyclic graph. *)
Theorem C03_two_cycle_refuted :
  ∃ o d arcs, views_agree d ∧ acyclic (d_arcs d) ∧ arcs ## d_arcs d ∧
    (add_arcs_from o arcs true d).2 = Raise KeyError ∧
    ¬ acyclic (d_arcs (add_arcs_from o arcs true d).1).
Proof.
  exists oracle0, (dag_init ∅), {[(1, 3); (3, 1); (2, 4); (4, 2)]}.
  split; [apply wf_views_agree, wf_init|]. split; [by_vm|]. split; [by_vm|]. split; by_vm.
Qed.

(** ** C04: checked mutation keeps the graph acyclic *)

(** Missing: histories with self loops or reverses of existing arcs (refuted
    below in full generality; see [C58_checked_simple_calls_acyclic]). *)
Theorem C04_checked_acyclic_partial o N E d h :
  dag_make o N E = Ok d → Forall checked h → history_ok d h → acyclic (d_arcs (run h d)).
Proof.
  intros Hmk Hck Hh. destruct (dag_make_spec _ _ _ _ Hmk) as (Hwf & Hac & _). by apply run_acyclic.
Qed.

Definition example_history2 : list call := take 7 example_history.
Example C04_example :
  dag_make oracle0 {[9]} {[(1, 2)]} = Ok (dag_of {[9]} {[(1, 2)]}) ∧
  Forall checked example_history2 ∧ history_ok (dag_of {[9]} {[(1, 2)]}) example_history2.
Proof. split; [apply dag_of_make; by_vm|]. split; [repeat constructor|by_vm]. Qed.

(** [DAG(arcs={(1,2)})]; [add_arc(2,1)] (CycleError); [remove_node(2)] (KeyError);
    [add_arc(2,1)] succeeds and the graph has a cycle. *)
Theorem C04_checked_acyclic_refuted :
  ∃ o N E d h, dag_make o N E = Ok d ∧ Forall checked h ∧ ¬ acyclic (d_arcs (run h d)).
Proof.
  exists oracle0, ∅, {[(1, 2)]}, (dag_of ∅ {[(1, 2)]}),
    [CAddArc oracle0 2 1 true; CRemoveNode oracle0 2 false; CAddArc oracle0 2 1 true].
  split; [apply dag_of_make; by_vm|]. split; [repeat constructor|].
  intros H. revert H. apply (bool_decide_eq_false_1 (acyclic _)). vm_compute. reflexivity.
Qed.

(** ** C57, C58: what holds with arbitrary arguments *)

(** Histories of [add_node], [add_nodes_from], [add_arc], [remove_arc],
    [remove_arcs_from] and [reverse_arc] with arbitrary arguments and flags. *)
Theorem C57_parents_children_agree o N E d h :
  dag_make o N E = Ok d → Forall simple_call h →
  (∀ i j, i ∈ parents (run h d) j ↔ (i, j) ∈ d_arcs (run h d)) ∧
  (∀ i j, j ∈ children (run h d) i ↔ (i, j) ∈ d_arcs (run h d)) ∧
  over (d_nodes (run h d)) (d_arcs (run h d)).
Proof.
  intros Hmk Hh. destruct (dag_make_spec _ _ _ _ Hmk) as (Hwf & Hac & _).
  destruct (run_core h d (wf_cwf _ Hwf) Hh) as [[Ho Hp Hc] _]. done.
Qed.

Theorem C58_checked_simple_calls_acyclic o N E d h :
  dag_make o N E = Ok d → Forall simple_call h → Forall checked h → acyclic (d_arcs (run h d)).
Proof.
  intros Hmk Hh Hck. destruct (dag_make_spec _ _ _ _ Hmk) as (Hwf & Hac & _).
  destruct (run_core h d (wf_cwf _ Hwf) Hh) as [_ H]. by apply H.
Qed.

Definition example_history3 : list call :=
  [CAddArc oracle0 2 1 true; CAddArc oracle0 3 3 true; CAddArc oracle0 2 3 true;
   CReverseArc oracle0 1 2 true true; CRemoveArc 2 3 false; CAddNodesFrom [7; 8]].
Example C57_C58_example :
  dag_make oracle0 {[9]} {[(1, 2)]} = Ok (dag_of {[9]} {[(1, 2)]}) ∧
  Forall simple_call example_history3 ∧ Forall checked example_history3 ∧
  d_arcs (run example_history3 (dag_of {[9]} {[(1, 2)]})) ≠ ∅.
Proof. split; [apply dag_of_make; by_vm|]. split; [repeat constructor|]. split; [repeat constructor|by_vm]. Qed.

(** ** C05: topological sort *)

(** [views_agree] is only needed for the children map and the arc endpoints. *)
Theorem C05_topological_sort d o :
  views_agree d →
  (acyclic (d_arcs d) → ∃ l, topological_sort d o = Ok l ∧ topo_order (d_nodes d) (d_arcs d) l) ∧
  (¬ acyclic (d_arcs d) → ∃ w, topological_sort d o = Raise (CycleError w) ∧ closes_cycle (d_arcs d) w).
Proof.
  rewrite <-wf_views_agree. intros Hwf. pose proof (topological_sort_spec d o Hwf) as H.
  destruct (topological_sort d o) as [l|e].
  - split; [by exists l|]. intros Hn. destruct Hn. eapply topo_order_acyclic; [apply Hwf|exact H].
  - destruct H as (w & -> & Hw). split; [|by exists w].
    intros Hac. by apply closes_cycle_not_acyclic in Hw.
Qed.

(** An acyclic and a cyclic graph (built with the check switched off). *)
Example C05_example :
  (let d := dag_of {[7]} {[(3, 1); (1, 2); (3, 2)]} in
   views_agree d ∧ acyclic (d_arcs d) ∧ topological_sort d oracle_rev = Ok [3; 1; 7; 2]) ∧
  (let d := (add_arcs_from oracle0 {[(3, 1); (1, 2); (2, 3)]} false (dag_init ∅)).1 in
   views_agree d ∧ ¬ acyclic (d_arcs d) ∧ ∃ w, topological_sort d oracle_rev = Raise (CycleError w)).
Proof.
  cbn zeta. split.
  - split. { apply wf_views_agree. apply dag_of_wf. }
    split; [by_vm|]. vm_compute. reflexivity.
  - split. { apply wf_views_agree. apply add_arcs_from_spec; [apply wf_init|by_vm]. }
    split; [by_vm|]. eexists. vm_compute. reflexivity.
Qed.

Print Assumptions C01_views_agree_partial.
Print Assumptions C01_views_agree_refuted.
Print Assumptions C02_add_arc_rollback_partial.
Print Assumptions C02_add_arc_rollback_refuted.
Print Assumptions C02_self_loop_refuted.
Print Assumptions C03_add_arcs_rollback_partial.
Print Assumptions C03_overlap_refuted.
Print Assumptions C03_two_cycle_refuted.
Print Assumptions C04_checked_acyclic_partial.
Print Assumptions C04_checked_acyclic_refuted.
Print Assumptions C57_parents_children_agree.
Print Assumptions C58_checked_simple_calls_acyclic.
Print Assumptions C05_topological_sort.
