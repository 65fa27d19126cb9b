(** Model of the comparison of ancestral graphs up to Markov equivalence and of the enumeration of
    equivalence classes.  Line numbers refer to graphical_models/classes/mags/ancestral_graph.py. *)
From Verif Require Import Py DagModel UGraphModel PdagModel CompareModel InterveneModel AncestralModel MagModel.

(** [skeleton], lines 869-871. *)
Definition g_skeleton (g : ag) : arcset := as_edges (g_bi g ∪ g_un g ∪ g_dir g).
(** [vstructures], lines 974-980. *)
Definition g_vstructures (g : ag) (o : oracle) : gset (node * node * node) :=
  list_to_set
    (n ← on o [151] (g_nodes g);
     '(p1, p2) ← combinations2 (on o [152; n] (g_parents g n ∪ g_spouses g n));
     if has_any_edge g p1 p2 then [] else [(p1 `min` p2, n, p1 `max` p2)]).
(** [colliders], line 990. *)
Definition g_colliders (g : ag) : nset := filter (λ n, 2 ≤ size (g_parents g n ∪ g_spouses g n)) (g_nodes g).

(** ** [discriminating_paths], lines 1036-1077 *)

(** The dictionary that is returned: [true] for ['c'] and [false] for ['n']. *)
Notation pdict := (gmap (list node) bool).
(** Lines 1056-1069. *)
Definition dp_found (g : ag) (o : oracle) (j : node) (path : list node) (final : node) (acc : pdict) : pdict :=
  let acc' := foldl (λ acc k,
    if decide (k ∈ path) then acc
    else if decide (j ∈ g_spouses g k) then <[path ++ [k; j] := true]> acc
    else if decide (j ∈ g_children g k) then <[path ++ [k; j] := false]> acc
    else acc) acc (on o [154; final] (g_spouses g final)) in
  foldl (λ acc k,
    if decide (k ∈ path) then acc
    else if decide (j ∈ g_children g k) then <[path ++ [k; j] := false]> acc
    else acc) acc' (on o [155; final] (g_parents g final)).
(** Lines 1071-1076. *)
Definition dp_extend (g : ag) (o : oracle) (cs : nset) (j : node) (path : list node) (final : node) : list (list node) :=
  (λ k, path ++ [k]) <$> filter (λ k, k ∉ path ∧ k ∈ cs ∧ j ∈ g_children g k) (on o [154; final] (g_spouses g final)).
(** Lines 1052-1076; a path in the queue is never empty. *)
Fixpoint dp_loop (g : ag) (o : oracle) (cs : nset) (j : node) (fuel : nat) (queue : list (list node)) (acc : pdict) : res pdict :=
  match queue with
  | [] => Ok acc
  | path :: queue' =>
      match fuel with
      | 0 => Raise OutOfFuel
      | S fuel' =>
          match last path with
          | None => Raise IndexError
          | Some final => dp_loop g o cs j fuel' (queue' ++ dp_extend g o cs j path final) (dp_found g o j path final acc)
          end
      end
  end.
(** Lines 1047-1051. *)
Definition dp_init (g : ag) (o : oracle) (cs : nset) (i j : node) : list (list node) :=
  (λ k, [i; k]) <$> filter (λ k, k ∈ cs ∧ j ∈ g_children g k) (on o [156; i; j] (g_spouses g i ∪ g_children g i)).
Definition dp_fuel (g : ag) : nat := S (size (g_nodes g)) ^ S (size (g_nodes g)).
(** The keys of [_parents] are all nodes, because [colliders] has read the entry of each, and possibly nodes
    that were removed; no key is added during the iteration. *)
Definition discriminating_paths (g : ag) (o : oracle) : res pdict :=
  let cs := g_colliders g in
  loopR (λ j acc,
    if decide (g_parents g j = ∅) then Ok acc
    else loopR (λ i acc, dp_loop g o cs j (dp_fuel g) (dp_init g o cs i j) acc)
           (on o [157; j] (g_nodes g ∖ g_parents g j ∖ g_children g j ∖ g_spouses g j ∖ {[j]})) acc)
    (on o [153] (g_nodes g ∪ dom (g_par g))) ∅.

(** [markov_equivalent], lines 1562-1573. *)
Definition markov_equivalent (g h : ag) (o o' : oracle) : res bool :=
  res_bind (discriminating_paths g o) (λ a,
  res_bind (discriminating_paths h o') (λ b,
    Ok (bool_decide (g_skeleton g = g_skeleton h) && bool_decide (g_vstructures g o = g_vstructures h o') &&
        bool_decide (set_Forall (λ p : list node, a !! p = b !! p) (dom a ∩ dom b))))).

(** ** Mark changes *)

(** [_no_other_path], lines 1676-1681. *)
Definition no_other_path (g : ag) (i j : node) (anc : dmap) : bool :=
  bool_decide ((dget anc j ∖ {[i]}) ∩ g_children g i = ∅).
(** The condition of lines 1446-1449 and 1475-1478: no key of the dictionary ends with [i, j]. *)
Definition no_disc_path (dp : pdict) (i j : node) : bool :=
  bool_decide (set_Forall (λ p : list node, ¬ ([j; i] `prefix_of` reverse p)) (dom dp)).
(** [legitimate_mark_changes] with [strict=True], lines 1401-1402 and 1421-1486.  The unpacking of a
    frozenset into a tuple is given by [flip]. *)
Definition mark_ok (g : ag) (dp : pdict) (anc : dmap) (i j : node) : bool :=
  bool_decide (g_parents g i ∖ g_parents g j = ∅) &&
  bool_decide (g_spouses g i ∖ {[j]} ∖ g_spouses g j ∖ g_parents g j = ∅) &&
  no_other_path g i j anc && no_disc_path dp i j.
Definition both_ways (g : ag) (flip : arc → bool) : arcset :=
  let fwd : arcset := set_map (unpack flip) (g_bi g) in fwd ∪ rev_arcs fwd.
Definition legitimate_mark_changes (g : ag) (o : oracle) (flip : arc → bool) : res (arcset * arcset) :=
  if decide (g_un g = ∅) then
    res_bind (discriminating_paths g o) (λ dp,
    res_bind (g_ancestor_dict g o) (λ anc,
      Ok (filter (λ e : arc, bool_decide (g_parents g e.1 ∖ g_parents g e.2 = ∅) &&
                   bool_decide (g_spouses g e.1 ∖ g_spouses g e.2 ∖ g_parents g e.2 = ∅) &&
                   no_other_path g e.1 e.2 anc && no_disc_path dp e.1 e.2 = true) (g_dir g),
          filter (λ e : arc, mark_ok g dp anc e.1 e.2 = true) (both_ways g flip))))
  else Raise ValueError.
(** The same with [strict=False], lines 1401-1419.  [reversed] of a frozenset (line 1414) raises [TypeError]. *)
Definition legitimate_mark_changes_lax (g : ag) (o : oracle) : res (arcset * arcset) :=
  if decide (g_un g = ∅) then
    res_bind (g_ancestor_dict g o) (λ anc,
      if decide (g_bi g = ∅) then
        Ok (filter (λ e : arc, bool_decide (g_parents g e.1 ∖ g_parents g e.2 = ∅) &&
                     bool_decide (g_spouses g e.1 ∖ g_parents g e.2 ∖ g_spouses g e.2 = ∅) &&
                     no_other_path g e.1 e.2 anc = true) (g_dir g), ∅)
      else Raise TypeError)
  else Raise ValueError.

(** ** [get_all_mec], lines 1596-1623 *)

(** [new_mag = mag.copy()] and the two changes, lines 1610-1612 and 1618-1620. *)
Definition changed (o : oracle) (flip : arc → bool) (mag : ag) (change : M ag unit) : res ag :=
  res_bind (ag_copy mag o flip) (λ h, match change h with (h', Ok _) => Ok h' | (_, Raise e) => Raise e end).
Definition dir_to_bi (i j : node) : M ag unit := remove_directed i j false ;;; add_bidirected i j.
Definition bi_to_dir (o : oracle) (i j : node) : M ag unit := remove_bidirected i j false ;;; add_directed o i j.

(** The key of [visited], line 1603. *)
Definition mec_key (mag : ag) : arcset * arcset := (g_dir mag, g_bi mag).
(** Lines 1605-1621; the end of the Python list is the head of [queue]. *)
Definition mec_push (o : oracle) (flip : arc → bool) (mag : ag) (visited : gset (arcset * arcset)) (lmcs : arcset * arcset) (queue : list ag) : res (list ag) :=
  res_bind
    (loopR (λ e queue,
       if decide ((g_dir mag ∖ {[e]}, g_bi mag ∪ {[upair e.1 e.2]}) ∈ visited) then Ok queue
       else res_bind (changed o flip mag (dir_to_bi e.1 e.2)) (λ h, Ok (h :: queue)))
      (oa o [158] lmcs.1) queue) (λ queue,
  loopR (λ e queue,
     if decide ((g_dir mag ∪ {[e]}, g_bi mag ∖ {[upair e.1 e.2]}) ∈ visited) then Ok queue
     else res_bind (changed o flip mag (bi_to_dir o e.1 e.2)) (λ h, Ok (h :: queue)))
    (oa o [159] lmcs.2) queue).
(** Lines 1599-1623. *)
Fixpoint mec_loop (o : oracle) (flip : arc → bool) (fuel : nat) (visited : gset (arcset * arcset)) (queue mags : list ag) : res (list ag) :=
  match queue with
  | [] => Ok mags
  | mag :: queue' =>
      match fuel with
      | 0 => Raise OutOfFuel
      | S fuel' =>
          let o' := at_call o [160; fuel] in
          let visited' := {[mec_key mag]} ∪ visited in
          res_bind (legitimate_mark_changes mag o' flip) (λ lmcs,
          res_bind (mec_push o' flip mag visited' lmcs queue') (λ queue'',
          mec_loop o flip fuel' visited' queue'' (mags ++ [mag])))
      end
  end.
Definition mec_fuel (g : ag) : nat :=
  let e := size (g_dir g) + size (g_bi g) in S (3 ^ e * S (2 * e)).
Definition get_all_mec (g : ag) (o : oracle) (flip : arc → bool) : res (list ag) :=
  mec_loop o flip (mec_fuel g) ∅ [g] [].
