(** A model of the class [DAG] with a heap, so that sharing of the mutable sets
    and dictionaries between objects is visible.  Line numbers refer to
    graphical_models/classes/dags/dag.py unless stated otherwise.

    Sets, dictionaries and lists live at locations; a [defaultdict(set)] maps
    keys to the locations of sets, and reading a missing key creates it. *)
From Verif Require Import Py DagModel.

Notation loc := nat.
Inductive obj :=
  | ONodes (s : nset)
  | OArcs (a : arcset)
  | ODict (m : gmap node loc)
  | OList (l : list node).
Notation heap := (gmap loc obj).

(** The attributes [_nodes], [_arcs], [_neighbors], [_parents], [_children]. *)
Inductive kind := KNbr | KPar | KChi.
Record dobj := DObj { a_nodes : loc; a_arcs : loc; a_nbr : loc; a_par : loc; a_chi : loc }.
Definition attr (d : dobj) (k : kind) : loc := match k with KNbr => a_nbr d | KPar => a_par d | KChi => a_chi d end.

Definition hnodes (h : heap) (l : loc) : nset := match h !! l with Some (ONodes s) => s | _ => ∅ end.
Definition harcs (h : heap) (l : loc) : arcset := match h !! l with Some (OArcs s) => s | _ => ∅ end.
Definition hdict (h : heap) (l : loc) : gmap node loc := match h !! l with Some (ODict m) => m | _ => ∅ end.

(** The attribute values as seen by a reader, i.e. an object of [DagModel.v]. *)
Definition vdict (h : heap) (l : loc) : dmap := hnodes h <$> hdict h l.
Definition view (h : heap) (d : dobj) : dag :=
  Dag (hnodes h (a_nodes d)) (harcs h (a_arcs d)) (vdict h (a_nbr d)) (vdict h (a_par d)) (vdict h (a_chi d)).

(** A new mutable object. *)
Definition alloc (h : heap) (x : obj) : heap * loc := let l := fresh (dom h) in (<[l := x]> h, l).

(** The state of a method call on an object: the heap and the attributes. *)
Definition hst : Type := heap * dobj.

(** [self._nodes.add(n)], [self._nodes.remove(n)], and the same for [_arcs]. *)
Definition hp_nodes_add (n : node) : M hst unit := λ '(h, d),
  ((<[a_nodes d := ONodes ({[n]} ∪ hnodes h (a_nodes d))]> h, d), Ok tt).
Definition hp_nodes_remove (n : node) : M hst unit := λ '(h, d),
  if decide (n ∈ hnodes h (a_nodes d))
  then ((<[a_nodes d := ONodes (hnodes h (a_nodes d) ∖ {[n]})]> h, d), Ok tt) else ((h, d), Raise KeyError).
Definition hp_arcs_add (a : arc) : M hst unit := λ '(h, d),
  ((<[a_arcs d := OArcs ({[a]} ∪ harcs h (a_arcs d))]> h, d), Ok tt).
Definition hp_arcs_remove (a : arc) : M hst unit := λ '(h, d),
  if decide (a ∈ harcs h (a_arcs d))
  then ((<[a_arcs d := OArcs (harcs h (a_arcs d) ∖ {[a]})]> h, d), Ok tt) else ((h, d), Raise KeyError).
(** [self._arcs = {…}], line 771: the attribute is bound to a new set. *)
Definition hp_arcs_keep (P : arc → Prop) `{!∀ a, Decision (P a)} : M hst unit := λ '(h, d),
  let '(h', l) := alloc h (OArcs (filter P (harcs h (a_arcs d)))) in
  ((h', DObj (a_nodes d) l (a_nbr d) (a_par d) (a_chi d)), Ok tt).

(** [D[n]] for a [defaultdict(set)] [D] at location [ld]. *)
Definition getitem (h : heap) (ld : loc) (n : node) : heap * loc :=
  match hdict h ld !! n with
  | Some l => (h, l)
  | None => let '(h', l) := alloc h (ONodes ∅) in (<[ld := ODict (<[n := l]> (hdict h' ld))]> h', l)
  end.
(** [D[n].add(x)], [D[n].remove(x)], [D.pop(n, None)], [D[n] = set(s)] for an
    attribute [D], and reading [D[n]]. *)
Definition hp_add (k : kind) (n x : node) : M hst unit := λ '(h, d),
  let '(h', l) := getitem h (attr d k) n in ((<[l := ONodes ({[x]} ∪ hnodes h' l)]> h', d), Ok tt).
Definition hp_remove (k : kind) (n x : node) : M hst unit := λ '(h, d),
  let '(h', l) := getitem h (attr d k) n in
  if decide (x ∈ hnodes h' l) then ((<[l := ONodes (hnodes h' l ∖ {[x]})]> h', d), Ok tt) else ((h', d), Raise KeyError).
Definition hp_pop (k : kind) (n : node) : M hst unit := λ '(h, d),
  ((<[attr d k := ODict (delete n (hdict h (attr d k)))]> h, d), Ok tt).
Definition hp_setitem (k : kind) (n : node) (s : nset) : M hst unit := λ '(h, d),
  let '(h', l) := alloc h (ONodes s) in ((<[attr d k := ODict (<[n := l]> (hdict h' (attr d k)))]> h', d), Ok tt).
Definition hp_read (k : kind) (n : node) : M hst nset := λ '(h, d),
  let '(h', l) := getitem h (attr d k) n in ((h', d), Ok (hnodes h' l)).

(** [_check_acyclic]: a reader; that it creates empty entries is not modelled. *)
Definition hp_check (o : oracle) : M hst unit := λ '(h, d),
  match topological_sort (view h d) o with Ok _ => ((h, d), Ok tt) | Raise e => ((h, d), Raise e) end.

(** The mutators, line by line as in [DagModel.v]. *)
Definition h_add_node (n : node) : M hst unit := hp_nodes_add n.
(** Lines 804-812. *)
Definition h_insert_arc (i j : node) : M hst unit :=
  hp_nodes_add i ;;; hp_nodes_add j ;;; hp_arcs_add (i, j) ;;;
  hp_add KNbr i j ;;; hp_add KNbr j i ;;; hp_add KChi i j ;;; hp_add KPar j i.
(** Lines 886-898. *)
Definition h_remove_arc (i j : node) (ignore_error : bool) : M hst unit :=
  guard_keyerror ignore_error
    (hp_arcs_remove (i, j) ;;; hp_remove KPar j i ;;; hp_remove KChi i j ;;; hp_remove KNbr j i ;;; hp_remove KNbr i j).
(** Lines 779-819. *)
Definition h_add_arc (o : oracle) (i j : node) (check : bool) : M hst unit :=
  h_insert_arc i j ;;; if check then on_cycle_error (hp_check o) (h_remove_arc i j false) else mret tt.
(** Lines 821-865. *)
Definition h_add_arcs_from (o : oracle) (arcs : arcset) (check : bool) : M hst unit :=
  let l := oa o [2] arcs in
  if decide (arcs = ∅) then mret tt
  else mfor l (λ a, h_insert_arc a.1 a.2) ;;;
       if check then on_cycle_error (hp_check o) (mfor l (λ a, h_remove_arc a.1 a.2 false)) else mret tt.
(** Lines 741-777. *)
Definition h_remove_node (o : oracle) (n : node) (ignore_error : bool) : M hst unit :=
  guard_keyerror ignore_error
    (hp_nodes_remove n ;;;
     mbind' (hp_read KPar n) (λ ps, mfor (on o [3] ps) (λ p, hp_remove KChi p n ;;; hp_remove KNbr p n)) ;;;
     mbind' (hp_read KChi n) (λ cs, mfor (on o [4] cs) (λ c, hp_remove KPar c n ;;; hp_remove KNbr c n)) ;;;
     hp_pop KNbr n ;;; hp_pop KPar n ;;; hp_pop KChi n ;;;
     hp_arcs_keep (λ a, a.1 ≠ n ∧ a.2 ≠ n)).

Definition hexec (c : call) : M hst unit :=
  match c with
  | CAddNode n => h_add_node n
  | CAddNodesFrom l => mfor l h_add_node
  | CAddArc o i j chk => h_add_arc o i j chk
  | CAddArcsFrom o arcs chk => h_add_arcs_from o arcs chk
  | CRemoveArc i j ign => h_remove_arc i j ign
  | CRemoveArcsFrom arcs ign => mfor arcs (λ a, h_remove_arc a.1 a.2 ign)
  | CReverseArc o i j ign chk => h_remove_arc i j ign ;;; h_add_arc o j i chk
  | CRemoveNode o n ign => h_remove_node o n ign
  end.

(** The attributes of a new object, lines 53-57: five new containers. *)
Definition h_new (nodes : nset) (arcs : arcset) (h : heap) : heap * dobj :=
  let '(h1, l1) := alloc h (ONodes nodes) in
  let '(h2, l2) := alloc h1 (OArcs arcs) in
  let '(h3, l3) := alloc h2 (ODict ∅) in
  let '(h4, l4) := alloc h3 (ODict ∅) in
  let '(h5, l5) := alloc h4 (ODict ∅) in
  (h5, DObj l1 l2 l3 l4 l5).
(** [copy], lines 40-51 and 80-85: [set(…)] of every container. *)
Definition h_copy (h : heap) (d : dobj) : heap * dobj :=
  ((mfor (map_to_list (vdict h (a_nbr d))) (λ p, hp_setitem KNbr p.1 p.2) ;;;
   mfor (map_to_list (vdict h (a_par d))) (λ p, hp_setitem KPar p.1 p.2) ;;;
   mfor (map_to_list (vdict h (a_chi d))) (λ p, hp_setitem KChi p.1 p.2))
    (h_new (hnodes h (a_nodes d)) (harcs h (a_arcs d)) h)).1.

(** The properties [nodes], [arcs], lines 140-149: copies. *)
Definition h_nodes (h : heap) (d : dobj) : heap * loc := alloc h (ONodes (hnodes h (a_nodes d))).
Definition h_arcs (h : heap) (d : dobj) : heap * loc := alloc h (OArcs (harcs h (a_arcs d))).
(** [core_utils.defdict2dict], core_utils.py:55-61: a dictionary with a copy of
    every value and an empty set for the remaining keys. *)
Fixpoint copy_items (h : heap) (l : list (node * nset)) (m : gmap node loc) : heap * gmap node loc :=
  match l with
  | [] => (h, m)
  | (n, s) :: l' => let '(h', x) := alloc h (ONodes s) in copy_items h' l' (<[n := x]> m)
  end.
Definition h_defdict2dict (h : heap) (ld : loc) (keys : nset) : heap * loc :=
  let '(h1, m1) := copy_items h (map_to_list (vdict h ld)) ∅ in
  let '(h2, m2) := copy_items h1 ((λ n, (n, ∅)) <$> elements (keys ∖ dom (hdict h ld))) m1 in
  alloc h2 (ODict m2).
(** The properties [neighbors], [parents], [children], lines 155-165. *)
Definition h_dict_view (k : kind) (h : heap) (d : dobj) : heap * loc := h_defdict2dict h (attr d k) (hnodes h (a_nodes d)).
(** [parents_of], [children_of], [neighbors_of] of one node, lines 218, 245, 272. *)
Definition h_of (k : kind) (n : node) (h : heap) (d : dobj) : heap * loc :=
  let '(h', l) := getitem h (attr d k) n in alloc h' (ONodes (hnodes h' l)).

(** ** Other classes: what is shared *)

(** The attributes [_nodes], [_edges], [_neighbors] of an [UndirectedGraph]
    (classes/undirected/undirected_graph.py:16-18). *)
Record uobj := UObj { u_nodes : loc; u_edges : loc; u_nbr : loc }.
(** The property [neighbors], undirected_graph.py:132-133: the values are the
    sets of the graph. *)
Fixpoint u_collect (h : heap) (ld : loc) (l : list node) (m : gmap node loc) : heap * gmap node loc :=
  match l with
  | [] => (h, m)
  | n :: l' => let '(h', x) := getitem h ld n in u_collect h' ld l' (<[n := x]> m)
  end.
Definition u_neighbors (o : oracle) (h : heap) (g : uobj) : heap * loc :=
  let '(h', m) := u_collect h (u_nbr g) (on o [148] (hnodes h (u_nodes g))) ∅ in alloc h' (ODict m).
(** [neighbors_of], undirected_graph.py:164-176, and the properties [edges] and [nodes]. *)
Definition u_neighbors_of (n : node) (h : heap) (g : uobj) : heap * loc :=
  let '(h', l) := getitem h (u_nbr g) n in alloc h' (ONodes (hnodes h' l)).
Definition u_edges_view (h : heap) (g : uobj) : heap * loc := alloc h (OArcs (harcs h (u_edges g))).
Definition u_nodes_view (h : heap) (g : uobj) : heap * loc := alloc h (ONodes (hnodes h (u_nodes g))).

(** The attributes [_nodes] and [_node_list] of a [GaussDAG]
    (classes/dags/gaussdag.py:45, 53 and dag.py:53). *)
Record gobj := GObj { g_nodes : loc; g_list : loc }.
(** The elements of the container at [l], a list or a set. *)
Definition hlist (h : heap) (l : loc) : list node := match h !! l with Some (OList xs) => xs | Some (ONodes s) => elements s | _ => [] end.
(** [GaussDAG(nodes, …)], gaussdag.py:44-45 and 55: [_node_list] is the argument
    itself, [_nodes] a new set. *)
Definition g_new (h : heap) (nodes : loc) : heap * gobj :=
  let '(h', l) := alloc h (ONodes (list_to_set (hlist h nodes))) in (h', GObj l nodes).
(** [copy], gaussdag.py:71-72: the argument [nodes] is [self._nodes]. *)
Definition g_copy (h : heap) (g : gobj) : heap * gobj := g_new h (g_nodes g).
(** [to_dag().nodes], gaussdag.py:61-69, and the property [nodes], 327-329. *)
Definition g_to_dag_nodes (h : heap) (g : gobj) : nset := list_to_set (hlist h (g_list g)).
Definition g_nodes_prop (h : heap) (g : gobj) : list node := hlist h (g_nodes g).
(** [add_node], gaussdag.py:459: a set has no method [append] (an
    [AttributeError], here [TypeError]). *)
Definition g_append (n : node) (h : heap) (g : gobj) : heap * res unit :=
  match h !! g_list g with
  | Some (OList xs) => (<[g_list g := OList (xs ++ [n])]> h, Ok tt)
  | _ => (h, Raise TypeError)
  end.
(** [remove_node], gaussdag.py:476 and 478: [ix] is [self._node2ix[node]]; the base
    class removes the node from [_nodes] (dag.py:760).  The re-indexing of the
    weight matrix in between (line 477) is assumed to succeed. *)
Definition g_remove (n : node) (ix : nat) (h : heap) (g : gobj) : heap * res unit :=
  match h !! g_list g with
  | Some (OList xs) =>
      if decide (ix < length xs) then
        let h1 := <[g_list g := OList (delete ix xs)]> h in
        if decide (n ∈ hnodes h1 (g_nodes g)) then (<[g_nodes g := ONodes (hnodes h1 (g_nodes g) ∖ {[n]})]> h1, Ok tt)
        else (h1, Raise KeyError)
      else (h, Raise IndexError)
  | _ => (h, Raise TypeError)
  end.
