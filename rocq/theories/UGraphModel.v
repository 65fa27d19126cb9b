(** Model of [UndirectedGraph]
    (graphical_models/classes/undirected/undirected_graph.py) and of
    [DAG.moral_graph].  Line numbers refer to undirected_graph.py unless stated
    otherwise. *)
From Coq Require Export ZArith.
From Verif Require Import Py DagModel.

(** [frozenset({i, j})] as the ordered pair of its members; [frozenset({i})] is
    [(i, i)]. *)
Definition upair (i j : node) : arc := (min i j, max i j).

(** Attributes, lines 16-19. *)
Record ug := Ug {
  u_nodes : nset;
  u_edges : arcset;
  u_nbr : dmap;
  u_deg : gmap nat Z
}.
Definition unbrs (g : ug) (n : node) : nset := dget (u_nbr g) n.
Definition zget (m : gmap nat Z) (k : node) : Z := default 0%Z (m !! k).
Definition zadd (m : gmap nat Z) (k : node) (z : Z) : gmap nat Z := <[k := (zget m k + z)%Z]> m.
Definition udeg (g : ug) (n : node) : Z := zget (u_deg g) n.

(** Attribute updates shared by the constructor (lines 23-26) and [add_edge]
    (lines 199-202). *)
Definition ulink (i j : node) (g : ug) : ug :=
  Ug (u_nodes g) (u_edges g) (dadd (dadd (u_nbr g) i j) j i) (zadd (zadd (u_deg g) i 1) j 1).

(** [__init__], lines 15-26.  [edges] is enumerated by [oa]; the loop over the
    stored frozensets unpacks each of them in some order, which [flip] chooses. *)
Definition ug_make (o : oracle) (flip : arc → bool) (nodes : nset) (edges : arcset) : ug :=
  let es : arcset := set_map (λ e, upair e.1 e.2) (filter (λ e : arc, e.1 ≠ e.2) edges) in
  foldl (λ g e, let i := if flip e then e.2 else e.1 in
                let j := if flip e then e.1 else e.2 in
                let g1 := Ug ({[j]} ∪ ({[i]} ∪ u_nodes g)) (u_edges g) (u_nbr g) (u_deg g) in
                ulink i j g1)
    (Ug nodes es ∅ ∅) (oa o [30] es).

(** [add_edge], lines 197-202. *)
Definition u_add_edge (i j : node) : M ug unit :=
  λ g, if decide (upair i j ∈ u_edges g) then (g, Ok tt)
       else (ulink i j (Ug (u_nodes g) ({[upair i j]} ∪ u_edges g) (u_nbr g) (u_deg g)), Ok tt).
Definition u_add_edges_from (l : list arc) : M ug unit := mfor l (λ e, u_add_edge e.1 e.2).

Definition u_edges_remove (i j : node) : M ug unit :=
  λ g, if decide (upair i j ∈ u_edges g)
       then (Ug (u_nodes g) (u_edges g ∖ {[upair i j]}) (u_nbr g) (u_deg g), Ok tt) else (g, Raise KeyError).
Definition u_nbr_remove (k x : node) : M ug unit :=
  λ g, if decide (x ∈ unbrs g k)
       then (Ug (u_nodes g) (u_edges g) (ddel (u_nbr g) k x) (u_deg g), Ok tt) else (g, Raise KeyError).
Definition u_deg_decr (k : node) : M ug unit :=
  λ g, (Ug (u_nodes g) (u_edges g) (u_nbr g) (zadd (u_deg g) k (-1)), Ok tt).

(** [delete_edge], lines 264-268. *)
Definition u_delete_edge (i j : node) : M ug unit :=
  u_edges_remove i j ;;; u_nbr_remove i j ;;; u_nbr_remove j i ;;; u_deg_decr i ;;; u_deg_decr j.
Definition u_delete_edges_from (l : list arc) : M ug unit := mfor l (λ e, u_delete_edge e.1 e.2).

(** [delete_node], lines 283-289.  Removing from the set being iterated over
    (a self-loop) makes the iterator raise [RuntimeError] at its next step. *)
Definition u_delete_node (o : oracle) (n : node) : M ug unit :=
  λ g, if decide (n ∈ u_nodes g) then
         (mfor (on o [31] (unbrs g n)) (λ j,
            u_nbr_remove j n ;;; u_deg_decr j ;;; u_edges_remove n j ;;;
            (if decide (j = n) then mraise RuntimeError else mret tt)) ;;;
          (λ g', (Ug (u_nodes g') (u_edges g') (delete n (u_nbr g')) (delete n (u_deg g')), Ok tt)))
         (Ug (u_nodes g ∖ {[n]}) (u_edges g) (u_nbr g) (u_deg g))
       else (g, Raise KeyError).

(** Histories of calls; the caller catches exceptions. *)
Inductive ucall :=
  | UAddEdge (i j : node)
  | UAddEdges (l : list arc)
  | UDelEdge (i j : node)
  | UDelEdges (l : list arc)
  | UDelNode (o : oracle) (n : node).
Definition uexec (c : ucall) : M ug unit :=
  match c with
  | UAddEdge i j => u_add_edge i j
  | UAddEdges l => u_add_edges_from l
  | UDelEdge i j => u_delete_edge i j
  | UDelEdges l => u_delete_edges_from l
  | UDelNode o n => u_delete_node o n
  end.
Definition urun (h : list ucall) (g : ug) : ug := foldl (λ g c, (uexec c g).1) g h.

(** [moral_graph], dag.py:2125-2129 ([UndirectedGraph] is imported from the
    package [causaldag], of which this repository is the renamed successor; it is
    taken to be the class above). *)
Definition moral_graph (d : dag) (o : oracle) (flip : arc → bool) : ug :=
  ug_make o flip (d_nodes d)
    (d_arcs d ∪ set_map (λ t : node * node * node, (t.1.1, t.2)) (vstructures d o)).
