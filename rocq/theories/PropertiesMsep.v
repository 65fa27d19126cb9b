(** Final theorems about m-separation queries of [AncestralGraph]: C38, C39. *)
From Verif Require Import Py Spec SpecDsep SpecMixed DagModel DsepModel UGraphModel AncestralModel MsepModel
  TopoProofs StateProofs ReachProofs OrderProofs UGraphProofs PdagProofs WalkProofs DsepProofs AncestralState AncestralProofs
  AncestralCopy MWalkProofs MsepProofs PropertiesAncestral.

(** Graph used in the examples: 1 -> 2 <-> 3 <-> 4, 3 -> 5 and 6 - 7 - 8 -> 4. *)
Definition ms_ag : ag := (ag_new ∅ [(1, 2); (3, 5); (8, 4)] [(2, 3); (3, 4)] [(6, 7); (7, 8)]).1.
Lemma ms_wf : ag_wf ms_ag. Proof. by apply new_gok_wf. Qed.

(** ** C38: [msep] decides m-separation *)

(** No assumption on [B]; [ag_wf] contains that no arrowhead meets an undirected
    edge; the graph need not be ancestral. *)
Theorem C38_msep_decides g o p A B C :
  ag_wf g → A ## C → ∃ b, msep g o p A B C = Ok b ∧ (b = true ↔ msepd (gmix g) A B C).
Proof.
  rewrite <-gok_ag_wf. intros Hg HAC. destruct (msep_spec g Hg o p A B C) as (b & H1 & H2); [set_solver|].
  exists b. split; [done|]. by replace (A ∖ C) with A in H2 by set_solver.
Qed.

(** The answer does not depend on the pop order, for arbitrary arguments. *)
Theorem C38_pop_order g o p o' p' A B C : ag_wf g → msep g o p A B C = msep g o' p' A B C.
Proof.
  rewrite <-gok_ag_wf. intros Hg. unfold msep.
  destruct (g_shaded_spec g Hg o C) as (sh & -> & Hsh). destruct (g_shaded_spec g Hg o' C) as (sh' & -> & Hsh').
  replace sh' with sh by (apply set_eq; intros x; by rewrite Hsh, Hsh'). cbn [res_bind].
  destruct (mball_run g Hg p (λ s, bool_decide (s.1 ∈ B)) sh A C Hsh) as (b & -> & Hb).
  destruct (mball_run g Hg p' (λ s, bool_decide (s.1 ∈ B)) sh A C Hsh) as (b' & -> & Hb').
  f_equal. apply eq_true_iff_eq. by rewrite Hb, Hb'.
Qed.

Theorem C38_symmetric g o p o' p' A B C :
  ag_wf g → A ## C → B ## C → msep g o p A B C = msep g o' p' B A C.
Proof.
  intros Hg HA HB. destruct (C38_msep_decides g o p A B C Hg HA) as (b & -> & Hb).
  destruct (C38_msep_decides g o' p' B A C Hg HB) as (b' & -> & Hb').
  f_equal. apply eq_true_iff_eq. rewrite Hb, Hb'. split; apply msepd_sym.
Qed.

Example C38_example :
  ag_wf ms_ag ∧ msep ms_ag oracle0 popper0 {[1]} {[4; 6]} ∅ = Ok true ∧
  msep ms_ag oracle_rev popper_last {[1]} {[4]} {[2]} = Ok true ∧
  msep ms_ag oracle0 popper0 {[1]} {[4]} {[2; 5]} = Ok false ∧ msep ms_ag oracle0 popper0 {[1]} {[6]} {[2; 5; 4]} = Ok false ∧
  msep ms_ag oracle0 popper0 {[4]} {[6]} ∅ = Ok false ∧ msep ms_ag oracle0 popper0 {[4]} {[6]} {[7]} = Ok true.
Proof. split; [apply ms_wf|]. split_and!; by_vm. Qed.

(** Without disjointness symmetry fails: 1 <-> 2 with 2 conditioned on. *)
Theorem C38_overlap_symmetric_refuted :
  ∃ g o p A B C, ag_wf g ∧ ancestral (gmix g) ∧ msep g o p A B C ≠ msep g o p B A C.
Proof.
  exists (ag_new ∅ [] [(1, 2)] []).1, oracle0, popper0, {[1]}, {[2]}, {[2]}.
  assert (ag_wf (ag_new ∅ [] [(1, 2)] []).1) as Hw by by apply new_gok_wf.
  split; [done|]. split; [apply ancestralb_spec; [by apply gok_ag_wf|by vm_compute]|]. by_vm.
Qed.

(** ** C39: [msep_from_given] *)

(** All node sets [A] and [C], overlapping or not. *)
Theorem C39_msep_from_given g o o' p A C :
  ag_wf g →
  ∃ X, msep_from_given g o A C = Ok X ∧
    ∀ v, v ∈ X ↔ v ∈ g_nodes g ∧ v ∉ A ∧ v ∉ C ∧ msep g o' p A {[v]} C = Ok true.
Proof.
  rewrite <-gok_ag_wf. intros Hg. destruct (msep_from_given_spec g Hg o A C) as (X & -> & HX).
  exists X. split; [done|]. intros v. rewrite HX. split.
  - intros (H1 & H2 & H3 & H4). split_and!; [done..|].
    destruct (msep_spec g Hg o' p A {[v]} C) as (b & -> & Hb); [set_solver|]. f_equal. by apply Hb.
  - intros (H1 & H2 & H3 & H4). split_and!; [done..|].
    destruct (msep_spec g Hg o' p A {[v]} C) as (b & Hb1 & Hb); [set_solver|]. apply Hb. congruence.
Qed.

Theorem C39_msep_from_given_graph g o A C :
  ag_wf g → A ## C →
  ∃ X, msep_from_given g o A C = Ok X ∧
    ∀ v, v ∈ X ↔ v ∈ g_nodes g ∧ v ∉ A ∧ v ∉ C ∧ msepd (gmix g) A {[v]} C.
Proof.
  rewrite <-gok_ag_wf. intros Hg HAC. destruct (msep_from_given_spec g Hg o A C) as (X & HX1 & HX).
  exists X. split; [done|]. intros v. rewrite HX. by replace (A ∖ C) with A by set_solver.
Qed.

Example C39_example :
  ag_wf ms_ag ∧ msep_from_given ms_ag oracle0 {[1]} {[2]} = Ok {[4; 6; 7; 8]} ∧
  msep_from_given ms_ag oracle0 {[1]} {[2; 5]} = Ok {[6; 7; 8]} ∧
  msep_from_given ms_ag oracle_rev {[6]} {[4]} = Ok {[1; 2]} ∧
  msep_from_given ms_ag oracle0 {[6; 7]} {[7; 4]} = Ok {[1; 2; 3; 5; 8]}.
Proof. split; [apply ms_wf|]. split_and!; by_vm. Qed.

Print Assumptions C38_msep_decides.
Print Assumptions C38_pop_order.
Print Assumptions C38_symmetric.
Print Assumptions C38_overlap_symmetric_refuted.
Print Assumptions C39_msep_from_given.
Print Assumptions C39_msep_from_given_graph.
