(** The faster comparison of ancestral graphs: C104. *)
From Verif Require Import Py Spec SpecDsep SpecMixed SpecMagMec SpecMagTriple DagModel UGraphModel CompareModel AncestralModel MagModel MagMecModel MagTripleModel AncestralState AncestralProofs AncestralCopy
  PropertiesAncestral TopoProofs StateProofs MWalkProofs MsepProofs InduceProofs MagProofs MaxProofs MagMecProofs MagMecCore MagMecMain MagEquivProofs MagTripleProofs MagTripleMain MsepModel DsepModel PropertiesMsep PropertiesMag PropertiesMagMec.

Definition flip0 : arc → bool := λ _, false.
Definition flip1 : arc → bool := λ _, true.
(** [0 <-> 1] with the path [3 <-> 2 <-> 0], [2 -> 1]. *)
Definition mt_ag : ag := (ag_new ∅ [(2, 1)] [(0, 1); (2, 0); (2, 3)] []).1.
Lemma mt_wf : ag_wf mt_ag ∧ ancestral (gmix mt_ag) ∧ maximal (g_nodes mt_ag) (gmix mt_ag).
Proof.
  assert (ag_wf mt_ag) by (by apply new_gok_wf).
  assert (ancestral (gmix mt_ag)) by (apply ancestralb_spec; [by apply gok_ag_wf|by vm_compute]).
  split_and!; [done|done|]. apply is_maximal_maximal; [done|done|by vm_compute].
Qed.

(** ** The triples are those that cannot be taken apart *)
Theorem C104_discriminating_triples g o flip :
  ag_wf g → ancestral (gmix g) → maximal (g_nodes g) (gmix g) →
  ∃ X, discriminating_triples g o flip = Ok X ∧ ∀ T, T ∈ X ↔ inseparable_triple (g_nodes g) (gmix g) T.
Proof. rewrite <-gok_ag_wf. apply triples_inseparable. Qed.

Example C104_discriminating_triples_example :
  ag_wf mt_ag ∧ ancestral (gmix mt_ag) ∧ maximal (g_nodes mt_ag) (gmix mt_ag) ∧
  match discriminating_triples mt_ag oracle0 flip0 with Ok X => bool_decide (X = {[ {[0; 1; 3]}; {[0; 2; 3]} ]}) | _ => false end = true ∧
  match discriminating_triples mt_ag oracle_rev flip1 with Ok X => bool_decide (X = {[ {[0; 1; 3]}; {[0; 2; 3]} ]}) | _ => false end = true ∧
  match discriminating_triples md_ag oracle0 flip0 with Ok X => bool_decide (X = {[ {[0; 1; 2]}; {[0; 2; 3]} ]}) | _ => false end = true ∧
  match discriminating_triples me_ag oracle0 flip0 with Ok X => bool_decide (X = {[ {[0; 1; 2]} ]}) | _ => false end = true.
Proof. destruct mt_wf as (H1 & H2 & H3). split_and!; [done..|by vm_compute|by vm_compute|by vm_compute|by vm_compute]. Qed.

(** ** [fast_markov_equivalent] decides Markov equivalence *)
Theorem C104_fast_markov_equivalent g h o o' flip flip' :
  ag_wf g → ag_wf h → ancestral (gmix g) → ancestral (gmix h) → g_nodes g = g_nodes h →
  maximal (g_nodes g) (gmix g) → maximal (g_nodes h) (gmix h) →
  ∃ b, fast_markov_equivalent g h o o' flip flip' = Ok b ∧ (b = true ↔ same_mseps (g_nodes g) (gmix g) (gmix h)).
Proof. rewrite <-!gok_ag_wf. intros Hg Hh Hag Hah. by apply fast_spec. Qed.
(** It returns what [markov_equivalent] returns. *)
Theorem C104_same_answer g h o o' flip flip' o1 o1' :
  ag_wf g → ag_wf h → ancestral (gmix g) → ancestral (gmix h) → g_nodes g = g_nodes h →
  maximal (g_nodes g) (gmix g) → maximal (g_nodes h) (gmix h) →
  fast_markov_equivalent g h o o' flip flip' = markov_equivalent g h o1 o1'.
Proof.
  intros Hg Hh Hag Hah EN Hmg Hmh.
  destruct (C104_fast_markov_equivalent g h o o' flip flip' Hg Hh Hag Hah EN Hmg Hmh) as (b & -> & Hb).
  destruct (C95_markov_equivalent g h o1 o1' Hg Hh Hag Hah EN Hmg Hmh) as (c & -> & Hc). f_equal. rewrite <-Hb in Hc. destruct b, c; intuition congruence.
Qed.

Example C104_fast_example :
  (∀ g, g ∈ [ma_ag; mb_ag; mc_ag; md_ag; me_ag] → ag_wf g ∧ ancestral (gmix g) ∧ maximal (g_nodes g) (gmix g) ∧ g_un g = ∅) ∧
  bool_decide (g_nodes ma_ag = g_nodes mb_ag ∧ g_nodes ma_ag = g_nodes mc_ag ∧ g_nodes md_ag = g_nodes me_ag) = true ∧
  fast_markov_equivalent ma_ag mb_ag oracle0 oracle_rev flip0 flip1 = Ok true ∧ fast_markov_equivalent ma_ag mc_ag oracle0 oracle_rev flip0 flip1 = Ok false ∧
  bool_decide (g_skeleton md_ag = g_skeleton me_ag ∧ g_vstructures md_ag oracle0 = g_vstructures me_ag oracle0) = true ∧
  fast_markov_equivalent md_ag me_ag oracle0 oracle0 flip0 flip0 = Ok false.
Proof. split; [apply example_wf|]. split_and!; by vm_compute. Qed.

(** Without maximality [True] may be returned for graphs that are not equivalent. *)
Theorem C104_nonmaximal_refuted :
  ∃ g h o o' flip flip', ag_wf g ∧ ag_wf h ∧ ancestral (gmix g) ∧ ancestral (gmix h) ∧ g_nodes g = g_nodes h ∧
    fast_markov_equivalent g h o o' flip flip' = Ok true ∧ ¬ same_mseps (g_nodes g) (gmix g) (gmix h).
Proof.
  destruct mf_wf as (W1 & A1 & W2 & A2). exists mf_ag, mg_ag, oracle0, oracle0, flip0, flip0. split_and!; [done..| |by vm_compute|].
  - by apply (bool_decide_unpack _); vm_compute.
  - intros Hs. destruct (C38_msep_decides mf_ag oracle0 popper0 {[0]} {[1]} {[2; 3]} W1) as (b & E & Hb); [clear; set_solver|].
    destruct (C38_msep_decides mg_ag oracle0 popper0 {[0]} {[1]} {[2; 3]} W2) as (b' & E' & Hb'); [clear; set_solver|].
    assert (b = true) as -> by (revert E; vm_compute; congruence). assert (b' = false) as -> by (revert E'; vm_compute; congruence).
    apply diff_true_false. symmetry. apply Hb'. apply Hs; [by apply (bool_decide_unpack _); vm_compute..|split_and!; clear; set_solver|]. by apply Hb.
Qed.
(** Isolated nodes are not compared. *)
Theorem C104_nodes_refuted :
  ∃ g h o o' flip flip', ag_wf g ∧ ag_wf h ∧ ancestral (gmix g) ∧ ancestral (gmix h) ∧ maximal (g_nodes g) (gmix g) ∧ maximal (g_nodes h) (gmix h) ∧
    fast_markov_equivalent g h o o' flip flip' = Ok true ∧ g_nodes g ≠ g_nodes h.
Proof.
  assert (ag_wf (ag_new {[7]} [(0, 1)] [] []).1) as W1 by (by apply new_gok_wf). assert (ag_wf (ag_new ∅ [(1, 0)] [] []).1) as W2 by (by apply new_gok_wf).
  assert (ancestral (gmix (ag_new {[7]} [(0, 1)] [] []).1)) as A1 by ((apply ancestralb_spec; [by apply gok_ag_wf|by vm_compute])).
  assert (ancestral (gmix (ag_new ∅ [(1, 0)] [] []).1)) as A2 by ((apply ancestralb_spec; [by apply gok_ag_wf|by vm_compute])).
  exists (ag_new {[7]} [(0, 1)] [] []).1, (ag_new ∅ [(1, 0)] [] []).1, oracle0, oracle0, flip0, flip0.
  split_and!; [done..|by apply is_maximal_maximal; [..|vm_compute]|by apply is_maximal_maximal; [..|vm_compute]|by vm_compute|].
  by apply (bool_decide_unpack _); vm_compute.
Qed.

Print Assumptions C104_discriminating_triples.
Print Assumptions C104_fast_markov_equivalent.
Print Assumptions C104_same_answer.
Print Assumptions C104_nonmaximal_refuted.
Print Assumptions C104_nodes_refuted.
