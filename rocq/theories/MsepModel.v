(** Model of the separation queries of [AncestralGraph].
    Line numbers refer to graphical_models/classes/mags/ancestral_graph.py. *)
From Verif Require Import Py DagModel DsepModel UGraphModel AncestralModel.

(** [shaded_nodes], lines 1710-1713; [_add_upstream], lines 1657-1661. *)
Definition g_shaded (g : ag) (o : oracle) (C : nset) : res nset :=
  loopR (λ c acc, add_closure (g_parents g) o (g_fuel g) c acc) (on o [90] C) C.

(** Moves of the ball, lines 1727-1744: [true] is the mark [_t] (tail), [false]
    is [_a] (arrowhead). *)
Definition mball_next (g : ag) (sh C : nset) (s : node * bool) : gset (node * bool) :=
  let '(v, tail) := s in
  if tail then
    if decide (v ∈ C) then ∅
    else with_dir true (g_parents g v) ∪ with_dir false (g_children g v) ∪
         with_dir false (g_spouses g v) ∪ with_dir true (g_neighbors g v)
  else
    (if decide (v ∈ sh) then with_dir true (g_parents g v) ∪ with_dir false (g_spouses g v) else ∅) ∪
    (if decide (v ∈ C) then ∅ else with_dir false (g_children g v) ∪ with_dir false (g_neighbors g v)).
Definition mball_fuel (g : ag) (A : nset) : nat :=
  let m := 2 * size (g_nodes g ∪ A) in S (m * (m + 1) + m).
(** [msep], lines 1684-1746. *)
Definition msep (g : ag) (o : oracle) (p : popper (node * bool)) (A B C : nset) : res bool :=
  res_bind (g_shaded g o C) (λ sh,
    worklist p (λ s, bool_decide (s.1 ∈ B)) (mball_next g sh C) (mball_fuel g A) (with_dir true A) ∅).

(** [_is_collider], lines 1663-1674.  [u] is [None] on the dummy link into a
    member of [A]; [self._children[None]] is empty. *)
Definition at_opt (f : node → nset) (u : option node) : nset := match u with Some u => f u | None => ∅ end.
Definition g_is_collider (g : ag) (u : option node) (v w : node) : bool :=
  let ch x := bool_decide (v ∈ x) in
  if ch (at_opt (g_children g) u) && ch (g_children g w) then true
  else if ch (at_opt (g_children g) u) && ch (g_spouses g w) then true
  else if ch (at_opt (g_spouses g) u) && ch (g_children g w) then true
  else ch (at_opt (g_spouses g) u) && ch (g_spouses g w).
(** One round of the loop of [msep_from_given], lines 1792-1805. *)
Definition mlegal_next (g : ag) (desc C : nset) (l : link) : gset link :=
  let '(u, v) := l in
  set_map (λ w, (Some v, w))
    (filter (λ w, u ≠ Some w ∧
        (if g_is_collider g u v w then bool_decide (v ∈ desc) else bool_decide (v ∉ C)) = true) (g_adjacent g v)).
Definition mround (g : ag) (desc C : nset) (labeled ilinks : gset link) : gset link :=
  set_fold (λ l acc, mlegal_next g desc C l ∪ acc) ∅ ilinks ∖ labeled.
Fixpoint mlink_loop (g : ag) (desc C : nset) (fuel : nat) (labeled ilinks : gset link) (reach : nset) : res nset :=
  match fuel with
  | 0 => Raise OutOfFuel
  | S fuel' =>
      let nxt := mround g desc C labeled ilinks in
      let reach' := reach ∪ set_map snd nxt in
      if decide (nxt = ∅) then Ok reach'
      else mlink_loop g desc C fuel' (labeled ∪ ilinks) nxt reach'
  end.
Definition mlink_fuel (g : ag) (A : nset) : nat :=
  let m := size (g_nodes g ∪ A) in 2 * (S m * m) + 3.
(** [msep_from_given], lines 1748-1814; lines 1778-1781 share one accumulator.  The
    entries that reads create in the [defaultdict]s are not modelled. *)
Definition msep_from_given (g : ag) (o : oracle) (A C : nset) : res nset :=
  res_bind (loopR (λ c acc, add_closure (g_parents g) o (g_fuel g) c ({[c]} ∪ acc)) (on o [91] C) ∅) (λ desc,
  res_bind (mlink_loop g desc C (mlink_fuel g A) ∅ (set_map (λ a, (None, a)) A) A) (λ r,
    Ok (g_nodes g ∖ A ∖ C ∖ r))).
