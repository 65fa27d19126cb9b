(** Model of the mutating methods of [PDAG] that [PdagModel] and [EnumModel] leave
    out, and of [interventional_cpdag], [assign_parents], [vstructs], the degrees,
    [rename_nodes] and the constructor with [new=True].  Line numbers refer to
    graphical_models/classes/dags/pdag.py unless stated otherwise. *)
From Verif Require Import Py DagModel UGraphModel PdagModel EnumModel.

(** [except KeyError as e: if ignore_error: pass else: raise e]; whatever was done
    before the exception stays. *)
Definition p_ignoring {S} (ignore_error : bool) (m : M S unit) : M S unit :=
  mcatch m (λ e, if ignore_error && bool_decide (e = KeyError) then mret tt else mraise e).

(** [self._edges.remove(frozenset({i, j}))] and [self._arcs.remove((i, j))]. *)
Definition pe_remove (i j : node) : M pdag unit :=
  λ g, if decide (upair i j ∈ p_edges g)
       then (Pdag (p_nodes g) (p_arcs g) (p_edges g ∖ {[upair i j]}) (p_par g) (p_chi g) (p_nbr g) (p_unb g) (p_known g), Ok tt)
       else (g, Raise KeyError).
Definition pa_remove (i j : node) : M pdag unit :=
  λ g, if decide ((i, j) ∈ p_arcs g)
       then (Pdag (p_nodes g) (p_arcs g ∖ {[(i, j)]}) (p_edges g) (p_par g) (p_chi g) (p_nbr g) (p_unb g) (p_known g), Ok tt)
       else (g, Raise KeyError).

(** [remove_edge], lines 437-448. *)
Definition p_remove_edge (i j : node) (ignore_error : bool) : M pdag unit :=
  p_ignoring ignore_error
    (pe_remove i j ;;; pn_remove i j ;;; pn_remove j i ;;; pu_remove i j ;;; pu_remove j i).
(** [remove_edges_from], lines 450-452; [edges] is what the iterable yields. *)
Definition p_remove_edges_from (edges : list arc) : M pdag unit :=
  mfor edges (λ e, p_remove_edge e.1 e.2 false).

(** [remove_arc], lines 454-465. *)
Definition p_remove_arc (i j : node) (ignore_error : bool) : M pdag unit :=
  p_ignoring ignore_error
    (pa_remove i j ;;; pc_remove i j ;;; pp_remove j i ;;; pn_remove i j ;;; pn_remove j i).
(** [remove_arcs_from], lines 467-469. *)
Definition p_remove_arcs_from (arcs : list arc) : M pdag unit :=
  mfor arcs (λ a, p_remove_arc a.1 a.2 false).
(** [remove_all_arcs], lines 495-496: a copy of the set is enumerated. *)
Definition p_remove_all_arcs (o : oracle) : M pdag unit :=
  λ g, p_remove_arcs_from (oa o [161] (p_arcs g)) g.
(** [remove_nodes_from], lines 491-493. *)
Definition p_remove_nodes_from (o : oracle) (nodes : list node) : M pdag unit :=
  mfor nodes (p_remove_node o).

(** [replace_edge_with_arc], lines 498-505. *)
Definition p_orient (a : arc) (ignore_error : bool) : M pdag unit :=
  p_ignoring ignore_error (replace_edge_with_arc a).

(** A call of one of the mutating methods. *)
Inductive pcmd :=
  | PAddArc (i j : node)
  | PAddEdge (i j : node)
  | PRemoveEdge (i j : node) (ignore_error : bool)
  | PRemoveEdges (edges : list arc)
  | PRemoveArc (i j : node) (ignore_error : bool)
  | PRemoveArcs (arcs : list arc)
  | PRemoveAllArcs (o : oracle)
  | PRemoveNode (o : oracle) (n : node)
  | PRemoveNodes (o : oracle) (nodes : list node)
  | POrient (a : arc) (ignore_error : bool)
  | PUnorient (a : arc)
  | PComplete (o : oracle).
Definition run_pcmd (c : pcmd) : M pdag unit :=
  match c with
  | PAddArc i j => λ g, (p_add_arc i j g, Ok tt)
  | PAddEdge i j => λ g, (p_add_edge i j g, Ok tt)
  | PRemoveEdge i j ie => p_remove_edge i j ie
  | PRemoveEdges es => p_remove_edges_from es
  | PRemoveArc i j ie => p_remove_arc i j ie
  | PRemoveArcs l => p_remove_arcs_from l
  | PRemoveAllArcs o => p_remove_all_arcs o
  | PRemoveNode o n => p_remove_node o n
  | PRemoveNodes o l => p_remove_nodes_from o l
  | POrient a ie => p_orient a ie
  | PUnorient a => replace_arc_with_edge a
  | PComplete o => to_complete_pdag o
  end.
(** A history of calls; exceptions are caught by the caller, who goes on. *)
Definition run_pcmds (l : list pcmd) (g : pdag) : pdag := foldl (λ g c, (run_pcmd c g).1) g l.

(** [_add_arcs_from] and [_add_edges_from], lines 400-424, on the list of what is
    in the set; a pair of [edges] stands for a tuple or a frozenset. *)
Definition p_add_arcs_from (arcs : list arc) (g : pdag) : pdag :=
  if decide (arcs = []) then g else
  foldl (λ g a, Pdag (p_nodes g) (p_arcs g) (p_edges g) (dadd (p_par g) a.2 a.1) (dadd (p_chi g) a.1 a.2)
                  (dadd (dadd (p_nbr g) a.1 a.2) a.2 a.1) (p_unb g) (p_known g))
    (Pdag (list_to_set arcs.*2 ∪ (list_to_set arcs.*1 ∪ p_nodes g)) (list_to_set arcs ∪ p_arcs g) (p_edges g)
       (p_par g) (p_chi g) (p_nbr g) (p_unb g) (p_known g)) arcs.
Definition p_add_edges_from (edges : list arc) (g : pdag) : pdag :=
  if decide (edges = []) then g else
  foldl (λ g e, Pdag (p_nodes g) (p_arcs g) (p_edges g) (p_par g) (p_chi g)
                  (dadd (dadd (p_nbr g) e.1 e.2) e.2 e.1) (dadd (dadd (p_unb g) e.1 e.2) e.2 e.1) (p_known g))
    (Pdag (list_to_set edges.*2 ∪ (list_to_set edges.*1 ∪ p_nodes g)) (p_arcs g)
       (list_to_set ((λ e : arc, upair e.1 e.2) <$> edges) ∪ p_edges g)
       (p_par g) (p_chi g) (p_nbr g) (p_unb g) (p_known g)) edges.
(** [__init__] with [new=True], lines 34-49. *)
Definition pdag_make_new (o : oracle) (nodes : nset) (arcs edges known : arcset) : pdag :=
  p_add_edges_from (oa o [41] edges) (p_add_arcs_from (oa o [40] arcs) (Pdag nodes ∅ ∅ ∅ ∅ ∅ ∅ known)).

(** [DAG.incident_arcs], dag.py:492-497. *)
Definition incident_arcs (d : dag) (n : node) : arcset :=
  set_map (λ c, (n, c)) (children d n) ∪ set_map (λ p, (p, n)) (parents d n).
(** [interventional_cpdag], lines 380-386. *)
Definition p_interventional_cpdag (g : pdag) (o : oracle) (d : dag) (nodes : list node) : res pdag :=
  let cut := foldl (λ acc n, incident_arcs d n ∪ acc) ∅ nodes in
  let cute : arcset := set_map (λ a : arc, upair a.1 a.2) cut in
  returned (to_complete_pdag o (pdag_make o (p_nodes g) (p_arcs g ∪ cut) (p_edges g ∖ cute) ∅)).

(** [assign_parents], lines 525-531; [parents] is a set. *)
Definition assign_parents (o : oracle) (n : node) (parents : nset) : M pdag unit :=
  mfor (on o [162] parents) (λ p, replace_edge_with_arc (p, n)) ;;;
  (λ g, mfor (on o [163] (p_unbrs g n ∖ parents)) (λ c, replace_edge_with_arc (n, c)) g) ;;;
  to_complete_pdag o.

(** [vstructs], lines 332-340. *)
Definition p_vstructs (g : pdag) (o : oracle) : arcset :=
  foldl (λ acc n,
    foldl (λ acc (pp : node * node),
      if decide (pp.1 ∉ p_parents g pp.2 ∧ pp.2 ∉ p_parents g pp.1) then {[(pp.2, n)]} ∪ ({[(pp.1, n)]} ∪ acc) else acc)
      acc (combinations2 (on o [165; n] (p_parents g n))))
    ∅ (on o [164] (p_nodes g)).

(** [indegree_of], [outdegree_of], [undirected_degree_of], [total_degree_of], lines 294-304. *)
Definition p_indegree (g : pdag) (n : node) : nat := size (p_parents g n).
Definition p_outdegree (g : pdag) (n : node) : nat := size (p_children g n).
Definition p_undirected_degree (g : pdag) (n : node) : nat := size (p_unbrs g n).
Definition p_total_degree (g : pdag) (n : node) : nat := size (p_neighbors g n).

(** [rename_nodes], lines 209-214; a label missing from [name_map] is a [KeyError].
    [known_arcs] is not passed on. *)
Definition p_rename_nodes (g : pdag) (o : oracle) (name_map : gmap nat nat) : res pdag :=
  let ren n := default 0 (name_map !! n) in
  if decide (set_Forall (λ n, is_Some (name_map !! n)) (p_nodes g)
             ∧ set_Forall (λ a, is_Some (name_map !! a.1) ∧ is_Some (name_map !! a.2)) (p_arcs g)
             ∧ set_Forall (λ a, is_Some (name_map !! a.1) ∧ is_Some (name_map !! a.2)) (p_edges g))
  then Ok (pdag_make o (set_map ren (p_nodes g)) (set_map (λ a, (ren a.1, ren a.2)) (p_arcs g))
             (set_map (λ a, (ren a.1, ren a.2)) (p_edges g)) ∅)
  else Raise KeyError.
