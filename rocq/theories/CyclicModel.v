(** Model of the ancestral graphs of graphical_models/classes/cyclic/cyclic_graph.py, which line numbers refer to.
    The file holds an older copy of the class of mags/ancestral_graph.py; the definitions of [AncestralModel],
    [MsepModel] and [MagMecModel] describe its methods except for those below.  Edges without direction are sorted
    tuples in this file. *)
From Verif Require Import Py DagModel UGraphModel PdagModel CompareModel InterveneModel AncestralModel MagModel MagMecModel.

(** [vstructures], lines 463-470. *)
Definition c_vstructures (g : ag) (o : oracle) : gset (node * node * node) :=
  list_to_set
    (n ← on o [151] (g_nodes g);
     '(p1, p2) ← combinations2 (on o [152; n] (g_parents g n ∪ g_spouses g n));
     if has_any_edge g p1 p2 then [] else [(p1 `min` p2, n, p2)]).

(** [_add_ancestors] and [ancestors_of], lines 418-422 and 444-446. *)
Definition c_ancestors_of (g : ag) (o : oracle) (n : node) (exclude : arcset) : res nset :=
  add_closure (λ n, filter (λ p, (p, n) ∉ exclude) (g_parents g n)) o (g_fuel g) n ∅.

(** The keys that line 478 visits before the [break] of line 480. *)
Fixpoint c_keys (g : ag) (l : list node) : list node :=
  match l with
  | [] => []
  | j :: l => if decide (g_parents g j = ∅) then [] else j :: c_keys g l
  end.
(** [discriminating_paths], lines 475-514; the body of the loop is as in ancestral_graph.py.  [colliders]
    has read the entry of each node. *)
Definition c_discriminating_paths (g : ag) (o : oracle) : res pdict :=
  let cs := g_colliders g in
  loopR (λ j acc,
    loopR (λ i acc, dp_loop g o cs j (dp_fuel g) (dp_init g o cs i j) acc)
      (on o [157; j] (g_nodes g ∖ g_parents g j ∖ g_children g j ∖ g_spouses g j ∖ {[j]})) acc)
    (c_keys g (on o [153] (g_nodes g ∪ dom (g_par g)))) ∅.

(** [markov_equivalent], lines 559-571. *)
Definition c_markov_equivalent (g h : ag) (o o' : oracle) : res bool :=
  res_bind (c_discriminating_paths g o) (λ a,
  res_bind (c_discriminating_paths h o') (λ b,
    Ok (bool_decide (g_skeleton g = g_skeleton h) && bool_decide (c_vstructures g o = c_vstructures h o') &&
        bool_decide (set_Forall (λ p : list node, a !! p = b !! p) (dom a ∩ dom b))))).

(** The conditions of [legitimate_mark_changes] on one edge, lines 624-644 and 652-674. *)
Definition c_mark_ok (g : ag) (o : oracle) (dp : pdict) (i j : node) (sp : nset) (exclude : arcset) : res bool :=
  if bool_decide (set_Forall (λ p, has_directed g p j = true) (g_parents g i)) &&
     bool_decide (set_Forall (λ s, has_any_edge g s j = true) sp) && no_disc_path dp i j
  then res_bind (c_ancestors_of g o j exclude) (λ anc, Ok (bool_decide (i ∉ anc)))
  else Ok false.
(** The edges that pass the conditions. *)
Definition c_changes (ok : arc → res bool) (l : list arc) : res arcset :=
  loopR (λ e (acc : arcset), res_bind (ok e) (λ b : bool, Ok (if b then {[e]} ∪ acc else acc))) l ∅.
(** [legitimate_mark_changes], lines 616-677.  Each iterator of line 650 is unpacked once. *)
Definition c_legitimate_mark_changes (g : ag) (o : oracle) : res (arcset * arcset) :=
  if decide (g_un g = ∅) then
    res_bind (c_discriminating_paths g o) (λ dp,
    res_bind (c_changes (λ e, c_mark_ok g o dp e.1 e.2 (g_spouses g e.1) {[e]}) (oa o [203] (g_dir g))) (λ X,
    res_bind (c_changes (λ e, c_mark_ok g o dp e.1 e.2 (g_spouses g e.1 ∖ {[e.2]}) ∅) (oa o [204] (g_bi g ∪ rev_arcs (g_bi g)))) (λ Y,
    Ok (X, Y))))
  else Raise ValueError.
