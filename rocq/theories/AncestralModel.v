(** Model of the class [AncestralGraph]: state, mutators, order and reachability.
    Line numbers refer to graphical_models/classes/mags/ancestral_graph.py. *)
From Verif Require Import Py DagModel UGraphModel.

(** Attributes, lines 79-88.  A bidirected or undirected edge [frozenset({i, j})]
    is [upair i j]. *)
Record ag := Ag {
  g_nodes : nset;
  g_dir : arcset;
  g_bi : arcset;
  g_un : arcset;
  g_nei : dmap;
  g_spo : dmap;
  g_par : dmap;
  g_chi : dmap;
  g_adj : dmap
}.
Definition ag_init (nodes : nset) : ag := Ag nodes ∅ ∅ ∅ ∅ ∅ ∅ ∅ ∅.
Definition g_neighbors (g : ag) (n : node) : nset := dget (g_nei g) n.
Definition g_spouses (g : ag) (n : node) : nset := dget (g_spo g) n.
Definition g_parents (g : ag) (n : node) : nset := dget (g_par g) n.
Definition g_children (g : ag) (n : node) : nset := dget (g_chi g) n.
Definition g_adjacent (g : ag) (n : node) : nset := dget (g_adj g) n.

(** [has_directed], [has_bidirected], [has_undirected], [has_any_edge], lines 894, 917, 940 and 963-964. *)
Definition has_directed (g : ag) (i j : node) : bool := bool_decide ((i, j) ∈ g_dir g).
Definition has_bidirected (g : ag) (i j : node) : bool := bool_decide (upair i j ∈ g_bi g).
Definition has_undirected (g : ag) (i j : node) : bool := bool_decide (upair i j ∈ g_un g).
Definition has_any_edge (g : ag) (i j : node) : bool :=
  has_directed g i j || has_directed g j i || has_bidirected g i j || has_undirected g i j.

(** [__eq__], lines 98-105 (both arguments are ancestral graphs). *)
Definition ag_eqb (g h : ag) : bool :=
  bool_decide (g_nodes g = g_nodes h) && bool_decide (g_dir g = g_dir h) &&
  bool_decide (g_bi g = g_bi h) && bool_decide (g_un g = g_un h).

(** ** Removal *)

(** [set.remove] on each attribute: [KeyError] if the element is absent. *)
Definition g_nodes_remove (n : node) : M ag unit :=
  λ g, if decide (n ∈ g_nodes g)
       then (Ag (g_nodes g ∖ {[n]}) (g_dir g) (g_bi g) (g_un g) (g_nei g) (g_spo g) (g_par g) (g_chi g) (g_adj g), Ok tt)
       else (g, Raise KeyError).
Definition dir_remove (i j : node) : M ag unit :=
  λ g, if decide ((i, j) ∈ g_dir g)
       then (Ag (g_nodes g) (g_dir g ∖ {[(i, j)]}) (g_bi g) (g_un g) (g_nei g) (g_spo g) (g_par g) (g_chi g) (g_adj g), Ok tt)
       else (g, Raise KeyError).
Definition bi_remove (i j : node) : M ag unit :=
  λ g, if decide (upair i j ∈ g_bi g)
       then (Ag (g_nodes g) (g_dir g) (g_bi g ∖ {[upair i j]}) (g_un g) (g_nei g) (g_spo g) (g_par g) (g_chi g) (g_adj g), Ok tt)
       else (g, Raise KeyError).
Definition un_remove (i j : node) : M ag unit :=
  λ g, if decide (upair i j ∈ g_un g)
       then (Ag (g_nodes g) (g_dir g) (g_bi g) (g_un g ∖ {[upair i j]}) (g_nei g) (g_spo g) (g_par g) (g_chi g) (g_adj g), Ok tt)
       else (g, Raise KeyError).
Definition nei_remove (k x : node) : M ag unit :=
  λ g, if decide (x ∈ g_neighbors g k)
       then (Ag (g_nodes g) (g_dir g) (g_bi g) (g_un g) (ddel (g_nei g) k x) (g_spo g) (g_par g) (g_chi g) (g_adj g), Ok tt)
       else (g, Raise KeyError).
Definition spo_remove (k x : node) : M ag unit :=
  λ g, if decide (x ∈ g_spouses g k)
       then (Ag (g_nodes g) (g_dir g) (g_bi g) (g_un g) (g_nei g) (ddel (g_spo g) k x) (g_par g) (g_chi g) (g_adj g), Ok tt)
       else (g, Raise KeyError).
Definition par_remove' (k x : node) : M ag unit :=
  λ g, if decide (x ∈ g_parents g k)
       then (Ag (g_nodes g) (g_dir g) (g_bi g) (g_un g) (g_nei g) (g_spo g) (ddel (g_par g) k x) (g_chi g) (g_adj g), Ok tt)
       else (g, Raise KeyError).
Definition chi_remove' (k x : node) : M ag unit :=
  λ g, if decide (x ∈ g_children g k)
       then (Ag (g_nodes g) (g_dir g) (g_bi g) (g_un g) (g_nei g) (g_spo g) (g_par g) (ddel (g_chi g) k x) (g_adj g), Ok tt)
       else (g, Raise KeyError).
Definition adj_remove (k x : node) : M ag unit :=
  λ g, if decide (x ∈ g_adjacent g k)
       then (Ag (g_nodes g) (g_dir g) (g_bi g) (g_un g) (g_nei g) (g_spo g) (g_par g) (g_chi g) (ddel (g_adj g) k x), Ok tt)
       else (g, Raise KeyError).

(** [remove_directed], lines 700-710. *)
Definition remove_directed (i j : node) (ignore_error : bool) : M ag unit :=
  guard_keyerror ignore_error
    (dir_remove i j ;;; chi_remove' i j ;;; par_remove' j i ;;; adj_remove i j ;;; adj_remove j i).
(** [remove_bidirected], lines 733-743. *)
Definition remove_bidirected (i j : node) (ignore_error : bool) : M ag unit :=
  guard_keyerror ignore_error
    (bi_remove i j ;;; spo_remove i j ;;; spo_remove j i ;;; adj_remove i j ;;; adj_remove j i).
(** [remove_undirected], lines 766-776. *)
Definition remove_undirected (i j : node) (ignore_error : bool) : M ag unit :=
  guard_keyerror ignore_error
    (un_remove i j ;;; nei_remove i j ;;; nei_remove j i ;;; adj_remove i j ;;; adj_remove j i).
(** [remove_edge], lines 799-808, and [remove_edges], lines 831-832. *)
Definition remove_edge (i j : node) (ignore_error : bool) : M ag unit :=
  λ g, if has_bidirected g i j then remove_bidirected i j false g
       else if has_directed g i j then remove_directed i j false g
       else if has_directed g j i then remove_directed j i false g
       else if has_undirected g i j then remove_undirected i j false g
       else if ignore_error then (g, Ok tt) else (g, Raise KeyError).
Definition remove_edges (l : list arc) (ignore_error : bool) : M ag unit :=
  mfor l (λ e, remove_edge e.1 e.2 ignore_error).

(** [del self._children[node]; ...], lines 668-672.  The first four entries exist
    because lines 651-666 read them; [self._adjacent[node]] is not read, so its
    deletion raises [KeyError] for a node without an entry. *)
Definition del_entries (n : node) : M ag unit :=
  λ g, let g' := Ag (g_nodes g) (g_dir g) (g_bi g) (g_un g) (delete n (g_nei g)) (delete n (g_spo g))
                   (delete n (g_par g)) (delete n (g_chi g)) (delete n (g_adj g)) in
       match g_adj g !! n with Some _ => (g', Ok tt) | None => (g', Raise KeyError) end.
(** [remove_node], lines 648-677.  A set changed while it is iterated over (only
    possible with loops) makes the iterator raise [RuntimeError]. *)
Definition g_remove_node (o : oracle) (n : node) (ignore_error : bool) : M ag unit :=
  guard_keyerror ignore_error
    (g_nodes_remove n ;;;
     (λ g, mfor (on o [80] (g_parents g n)) (λ p, chi_remove' p n ;;; adj_remove p n ;;; dir_remove p n) g) ;;;
     (λ g, mfor (on o [81] (g_children g n)) (λ c, par_remove' c n ;;; adj_remove c n ;;; dir_remove n c) g) ;;;
     (λ g, mfor (on o [82] (g_spouses g n)) (λ s, spo_remove s n ;;; adj_remove s n ;;; bi_remove s n ;;;
              (if decide (s = n) then mraise RuntimeError else mret tt)) g) ;;;
     (λ g, mfor (on o [83] (g_neighbors g n)) (λ s, nei_remove s n ;;; adj_remove s n ;;; un_remove s n ;;;
              (if decide (s = n) then mraise RuntimeError else mret tt)) g) ;;;
     del_entries n).

(** ** Insertion *)

(** [add_node], line 412, and [add_nodes_from], lines 439-440. *)
Definition g_add_node (n : node) : M ag unit :=
  λ g, (Ag ({[n]} ∪ g_nodes g) (g_dir g) (g_bi g) (g_un g) (g_nei g) (g_spo g) (g_par g) (g_chi g) (g_adj g), Ok tt).
Definition g_add_nodes_from (l : list node) : M ag unit := mfor l g_add_node.

(** Attribute updates of lines 555-562, 586-593 and 621-628. *)
Definition link_directed (i j : node) (g : ag) : ag :=
  Ag ({[j]} ∪ ({[i]} ∪ g_nodes g)) ({[(i, j)]} ∪ g_dir g) (g_bi g) (g_un g) (g_nei g) (g_spo g)
    (dadd (g_par g) j i) (dadd (g_chi g) i j) (dadd (dadd (g_adj g) i j) j i).
Definition link_bidirected (i j : node) (g : ag) : ag :=
  Ag ({[j]} ∪ ({[i]} ∪ g_nodes g)) (g_dir g) ({[upair i j]} ∪ g_bi g) (g_un g) (g_nei g)
    (dadd (dadd (g_spo g) j i) i j) (g_par g) (g_chi g) (dadd (dadd (g_adj g) i j) j i).
Definition link_undirected (i j : node) (g : ag) : ag :=
  Ag ({[j]} ∪ ({[i]} ∪ g_nodes g)) (g_dir g) (g_bi g) ({[upair i j]} ∪ g_un g)
    (dadd (dadd (g_nei g) j i) i j) (g_spo g) (g_par g) (g_chi g) (dadd (dadd (g_adj g) i j) j i).

(** [_add_directed], [_add_bidirected], [_add_undirected], lines 535-628, with
    [ignore_error=False]. *)
Definition add_directed_raw (i j : node) : M ag unit :=
  λ g, if has_directed g i j then (g, Ok tt)
       else if decide (g_neighbors g j ≠ ∅) then (g, Raise NeighborError)
       else if decide (i ∈ g_adjacent g j) then (g, Raise AdjacentError)
       else (link_directed i j g, Ok tt).
Definition add_bidirected_raw (i j : node) : M ag unit :=
  λ g, if has_bidirected g i j then (g, Ok tt)
       else if decide (g_neighbors g i ≠ ∅) then (g, Raise NeighborError)
       else if decide (g_neighbors g j ≠ ∅) then (g, Raise NeighborError)
       else if decide (i ∈ g_adjacent g j) then (g, Raise AdjacentError)
       else (link_bidirected i j g, Ok tt).
Definition add_undirected_raw (i j : node) : M ag unit :=
  λ g, if has_undirected g i j then (g, Ok tt)
       else if decide (g_parents g i ≠ ∅) then (g, Raise NeighborError)
       else if decide (g_spouses g i ≠ ∅) then (g, Raise NeighborError)
       else if decide (g_parents g j ≠ ∅) then (g, Raise NeighborError)
       else if decide (g_spouses g j ≠ ∅) then (g, Raise NeighborError)
       else if decide (i ∈ g_adjacent g j) then (g, Raise AdjacentError)
       else (link_undirected i j g, Ok tt).

(** ** Order *)

(** [_mark_children_visited], lines 445-460.  Dictionaries are represented as in
    [DagModel.mark_children_visited]; [CycleError] carries no path here. *)
Fixpoint g_mark (g : ag) (o : oracle) (fuel : nat) (n : node) (st : tstate) : res tstate :=
  match fuel with
  | 0 => Raise OutOfFuel
  | S fuel' =>
      let st1 := TState ({[n]} ∪ t_any st) ({[n]} ∪ t_cur st) (t_path st ++ [n]) (t_stack st) in
      res_bind
        (loopR
          (λ c st,
             if decide (c ∈ g_nodes g) then
               if decide (c ∈ t_any st) then
                 if decide (c ∈ t_cur st) then Raise (CycleError []) else Ok st
               else g_mark g o fuel' c st
             else Raise KeyError)
          (on o [1; n] (g_children g n)) st1) (λ st2,
      res_bind
        (loopR
          (λ s st,
             if decide (s ∈ g_nodes g) then
               if decide (s ∈ t_cur st) then Raise SpouseError else Ok st
             else Raise KeyError)
          (on o [84; n] (g_spouses g n)) st2) (λ st3,
      Ok (TState (t_any st3) (t_cur st3 ∖ {[n]}) (take (pred (length (t_path st3))) (t_path st3)) (t_stack st3 ++ [n]))))
  end.
(** [topological_sort], lines 1536-1543. *)
Definition g_topological_sort (g : ag) (o : oracle) : res (list node) :=
  res_bind
    (loopR
      (λ n st, if decide (n ∈ t_any st) then Ok st else g_mark g o (S (size (g_nodes g))) n st)
      (on o [0] (g_nodes g)) (TState ∅ ∅ [] []))
    (λ st, Ok (reverse (t_stack st))).
(** [_check_ancestral], lines 442-443. *)
Definition check_ancestral (o : oracle) : M ag unit :=
  λ g, match g_topological_sort g o with Ok _ => (g, Ok tt) | Raise e => (g, Raise e) end.

(** [add_directed], lines 462-486. *)
Definition add_directed (o : oracle) (i j : node) : M ag unit :=
  add_directed_raw i j ;;; on_cycle_error (check_ancestral o) (remove_directed i j false).
(** [add_bidirected], lines 488-512: the edge is added a second time where a check
    was presumably intended. *)
Definition add_bidirected (i j : node) : M ag unit :=
  add_bidirected_raw i j ;;; on_cycle_error (add_bidirected_raw i j) (remove_bidirected i j false).
(** [add_undirected], lines 514-533. *)
Definition add_undirected (i j : node) : M ag unit := add_undirected_raw i j.

(** Constructor, lines 72-95.  The three arguments are enumerated in some order
    and each edge is unpacked as a pair. *)
Definition ag_new (nodes : nset) (dir bi un : list arc) : ag * res unit :=
  (mfor dir (λ e, add_directed_raw e.1 e.2) ;;; mfor bi (λ e, add_bidirected_raw e.1 e.2) ;;;
   mfor un (λ e, add_undirected_raw e.1 e.2)) (ag_init nodes).
Definition ag_make (nodes : nset) (dir bi un : list arc) : res ag :=
  match ag_new nodes dir bi un with (g, Ok _) => Ok g | (_, Raise e) => Raise e end.

(** [copy], line 116, and [induced_subgraph], lines 139-143.  Each frozenset is
    unpacked in some order, chosen by [flip]; unpacking [frozenset({i})] is a
    [ValueError]. *)
Definition unpack (flip : arc → bool) (e : arc) : arc := if flip e then (e.2, e.1) else e.
Definition pairs_ok (X : arcset) : bool := bool_decide (set_Forall (λ e : arc, e.1 ≠ e.2) X).
Definition ag_copy (g : ag) (o : oracle) (flip : arc → bool) : res ag :=
  if pairs_ok (g_bi g) && pairs_ok (g_un g) then
    ag_make (g_nodes g) (oa o [87] (g_dir g)) (unpack flip <$> oa o [88] (g_bi g)) (unpack flip <$> oa o [89] (g_un g))
  else Raise ValueError.
Definition g_induced_subgraph (g : ag) (o : oracle) (flip : arc → bool) (X : nset) : res ag :=
  let sub (E : arcset) : arcset := filter (λ e : arc, e.1 ∈ X ∧ e.2 ∈ X) E in
  if pairs_ok (g_bi g) && pairs_ok (g_un g) then
    ag_make X (oa o [87] (sub (g_dir g))) (unpack flip <$> oa o [88] (sub (g_bi g))) (unpack flip <$> oa o [89] (sub (g_un g)))
  else Raise ValueError.

(** Histories of calls of the public mutators; the caller catches exceptions. *)
Inductive gcall :=
  | GAddNode (n : node)
  | GAddNodes (l : list node)
  | GAddDirected (o : oracle) (i j : node)
  | GAddBidirected (i j : node)
  | GAddUndirected (i j : node)
  | GRemoveNode (o : oracle) (n : node) (ignore_error : bool)
  | GRemoveDirected (i j : node) (ignore_error : bool)
  | GRemoveBidirected (i j : node) (ignore_error : bool)
  | GRemoveUndirected (i j : node) (ignore_error : bool)
  | GRemoveEdge (i j : node) (ignore_error : bool)
  | GRemoveEdges (l : list arc) (ignore_error : bool).
Definition gexec (c : gcall) : M ag unit :=
  match c with
  | GAddNode n => g_add_node n
  | GAddNodes l => g_add_nodes_from l
  | GAddDirected o i j => add_directed o i j
  | GAddBidirected i j => add_bidirected i j
  | GAddUndirected i j => add_undirected i j
  | GRemoveNode o n ign => g_remove_node o n ign
  | GRemoveDirected i j ign => remove_directed i j ign
  | GRemoveBidirected i j ign => remove_bidirected i j ign
  | GRemoveUndirected i j ign => remove_undirected i j ign
  | GRemoveEdge i j ign => remove_edge i j ign
  | GRemoveEdges l ign => remove_edges l ign
  end.
Definition grun (h : list gcall) (g : ag) : ag := foldl (λ g c, (gexec c g).1) g h.

(** ** Reachability *)

(** [ancestors_of(node)] and [descendants_of(node)], lines 245-255, 280-286 and
    369-375, with the default [exclude_arcs]; with a set argument the union over
    its members ([set.union()] of no argument is a [TypeError]). *)
Definition g_fuel (g : ag) : nat := S (size (g_nodes g)).
Definition g_ancestors_of (g : ag) (o : oracle) (n : node) : res nset := add_closure (g_parents g) o (g_fuel g) n ∅.
Definition g_descendants_of (g : ag) (o : oracle) (n : node) : res nset := add_closure (g_children g) o (g_fuel g) n ∅.
Definition g_union_of (f : node → res nset) (o : oracle) (X : nset) : res nset :=
  if decide (X = ∅) then Raise TypeError
  else loopR (λ n acc, res_bind (f n) (λ a, Ok (acc ∪ a))) (on o [6] X) ∅.
Definition g_ancestors_of_set (g : ag) (o : oracle) (X : nset) : res nset := g_union_of (g_ancestors_of g o) o X.
Definition g_descendants_of_set (g : ag) (o : oracle) (X : nset) : res nset := g_union_of (g_descendants_of g o) o X.

(** [ancestor_dict], lines 303-315, and [descendant_dict], lines 333-346. *)
Definition g_ancestor_dict (g : ag) (o : oracle) : res dmap :=
  res_bind (g_topological_sort g o) (λ top,
    let m := foldl (λ m n,
               let m1 := dadd m n n in
               foldl (λ m c, <[c := dget m c ∪ dget m n]> m) m1 (on o [7; n] (g_children g n)))
             (∅ : dmap) top in
    Ok (foldl (λ m n, ddel m n n) m (on o [8] (g_nodes g)))).
Definition g_descendant_dict (g : ag) (o : oracle) : res dmap :=
  res_bind (g_topological_sort g o) (λ top,
    let m := foldl (λ m n,
               let m1 := dadd m n n in
               foldl (λ m c, <[c := dget m c ∪ dget m n]> m) m1 (on o [7; n] (g_parents g n)))
             (∅ : dmap) (reverse top) in
    Ok (foldl (λ m n, ddel m n n) m (on o [8] (g_nodes g)))).
