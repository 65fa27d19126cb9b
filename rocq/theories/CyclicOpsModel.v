(** Model of the remaining methods of the class in graphical_models/classes/cyclic/cyclic_graph.py, which line numbers
    refer to.  An edge without direction is the sorted tuple [upair i j]. *)
From Verif Require Import Py DagModel UGraphModel PdagModel CompareModel DsepModel AncestralModel MsepModel MagModel MagMatModel MagMecModel.

(** Constructor, lines 64-81, with [_add_directed], [_add_bidirected] and [_add_undirected], lines 200-293. *)
Definition c_new (nodes : nset) (dir bi un : list arc) : ag * res unit := ag_new nodes dir bi un.
Definition c_make (nodes : nset) (dir bi un : list arc) : res ag :=
  match c_new nodes dir bi un with (g, Ok _) => Ok g | (_, Raise e) => Raise e end.
(** [__eq__], lines 83-91. *)
Definition c_eq (g h : ag) : bool := ag_eqb g h.
(** [copy], lines 93-97.  The tuples are unpacked as they are. *)
Definition c_copy (g : ag) (o : oracle) : res ag :=
  c_make (g_nodes g) (oa o [87] (g_dir g)) (oa o [88] (g_bi g)) (oa o [89] (g_un g)).

(** The public mutators: [add_node], [add_nodes_from], lines 106-149; [add_directed], [add_bidirected], [add_undirected],
    lines 181-198; [remove_node], [remove_directed], [remove_bidirected], [remove_undirected], lines 295-363. *)
Inductive ccall :=
  | CAddNode (n : node)
  | CAddNodes (l : list node)
  | CAddDirected (o : oracle) (i j : node)
  | CAddBidirected (i j : node)
  | CAddUndirected (i j : node)
  | CRemoveNode (o : oracle) (n : node) (ignore_error : bool)
  | CRemoveDirected (i j : node) (ignore_error : bool)
  | CRemoveBidirected (i j : node) (ignore_error : bool)
  | CRemoveUndirected (i j : node) (ignore_error : bool).
Definition cexec (c : ccall) : M ag unit :=
  match c with
  | CAddNode n => g_add_node n
  | CAddNodes l => g_add_nodes_from l
  | CAddDirected o i j => add_directed o i j
  | CAddBidirected i j => add_bidirected i j
  | CAddUndirected i j => add_undirected i j
  | CRemoveNode o n ign => g_remove_node o n ign
  | CRemoveDirected i j ign => remove_directed i j ign
  | CRemoveBidirected i j ign => remove_bidirected i j ign
  | CRemoveUndirected i j ign => remove_undirected i j ign
  end.
(** A history of calls; the caller catches exceptions. *)
Definition crun (h : list ccall) (g : ag) : ag := foldl (λ g c, (cexec c g).1) g h.

(** [topological_sort] with [_mark_children_visited], lines 154-179. *)
Definition c_topological_sort (g : ag) (o : oracle) : res (list node) := g_topological_sort g o.
(** [msep], lines 679-726, and [msep_from_given], lines 728-772, with [_add_upstream] and [_is_collider], lines 580-597. *)
Definition c_msep (g : ag) (o : oracle) (p : popper (node * bool)) (A B C : nset) : res bool := msep g o p A B C.
Definition c_msep_from_given (g : ag) (o : oracle) (A C : nset) : res nset := msep_from_given g o A C.
(** [to_maximal], lines 517-521: the algorithm that [AncestralGraph.to_maximal] has kept as [new=False]. *)
Definition c_to_maximal (o : oracle) (p : popper (node * bool)) : M ag unit := to_maximal_old o p.
(** [to_amat], lines 527-538, and [from_amat], lines 540-556, a method that does not use its object. *)
Definition c_to_amat (g : ag) (o : oracle) : res amat := ag_to_amat g o.
Definition c_from_amat (A : amat) (o : oracle) : res ag := ag_from_amat A o.
(** [shd_skeleton], lines 573-574 and mags/ancestral_graph.py:1644, and [as_hashed], lines 576-577 and
    mags/ancestral_graph.py:1654. *)
Definition c_shd_skeleton (g h : ag) : nat := size (sym_diff (g_skeleton g) (g_skeleton h)).
Definition c_as_hashed (g : ag) : arcset * arcset * arcset := (g_dir g, g_bi g, g_un g).
