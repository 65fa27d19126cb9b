(** Model of the counting properties and of the conversions of [DAG] (dags/dag.py), [PDAG] (dags/pdag.py) and
    [UndirectedGraph] (undirected/undirected_graph.py) that are not in the other models.  A networkx
    graph is whether it is directed, its nodes and its edges; an undirected edge is [upair i j].  A [DataFrame] is a
    matrix with the labels of its rows and columns.  [ZeroDivisionError], [NotImplementedError] and [NetworkXError] are
    [RuntimeError]. *)
From Coq Require Import QArith.Qcanon.
From Verif Require Import Py Spec DagModel UGraphModel PdagModel CompareModel QMatModel.
#[local] Open Scope nat_scope.

(** ** networkx *)
Record nxgraph := Nx { nx_directed : bool; nx_nodes : nset; nx_edges : arcset }.
Definition nx_add_nodes_from (l : list node) (G : nxgraph) : nxgraph :=
  Nx (nx_directed G) (list_to_set l ∪ nx_nodes G) (nx_edges G).
(** [add_edges_from] on tuples: the end points become nodes. *)
Definition nx_add_edge (e : arc) (G : nxgraph) : nxgraph :=
  Nx (nx_directed G) ({[e.1]} ∪ ({[e.2]} ∪ nx_nodes G)) ({[if nx_directed G then e else upair e.1 e.2]} ∪ nx_edges G).
(** [add_edges_from] on frozensets: one with a single member is refused. *)
Definition nx_add_frozensets (l : list arc) (G : nxgraph) : res nxgraph :=
  loopR (λ (e : arc) G, if decide (e.1 = e.2) then Raise RuntimeError else Ok (nx_add_edge e G)) l G.

(** ** [DAG] *)
(** [nnodes], [num_arcs], dag.py:143-145 and 151-153. *)
Definition nnodes (d : dag) : nat := size (d_nodes d).
Definition num_arcs (d : dag) : nat := size (d_arcs d).
(** [in_degrees], [out_degrees], dag.py:171-177. *)
Definition in_degrees (d : dag) (o : oracle) : gmap node nat :=
  list_to_map ((λ n, (n, size (parents d n))) <$> on o [193] (d_nodes d)).
Definition out_degrees (d : dag) (o : oracle) : gmap node nat :=
  list_to_map ((λ n, (n, size (children d n))) <$> on o [193] (d_nodes d)).
(** [max_in_degree], [max_out_degree], dag.py:179-185: [max] of nothing is a [ValueError]. *)
Definition py_max (l : list nat) : res nat :=
  match l with [] => Raise ValueError | x :: l => Ok (foldl max x l) end.
Definition max_in_degree (d : dag) (o : oracle) : res nat := py_max ((λ n, size (parents d n)) <$> on o [193] (d_nodes d)).
Definition max_out_degree (d : dag) (o : oracle) : res nat := py_max ((λ n, size (children d n)) <$> on o [193] (d_nodes d)).
(** [sparsity], dag.py:187-190. *)
Definition sparsity (d : dag) : res Qc :=
  let p := size (d_nodes d) in
  if decide (p = 0 ∨ p = 1) then Raise RuntimeError
  else Ok (qz (Z.of_nat (size (d_arcs d))) / qz (Z.of_nat p) / (qz (Z.of_nat p) - 1) * (1 + 1))%Qc.
(** [incoming_arcs], [outgoing_arcs], dag.py:524-527 and 554-557. *)
Definition incoming_arcs (d : dag) (o : oracle) (n : node) : arcset :=
  foldl (λ acc p, {[(p, n)]} ∪ acc) ∅ (on o [194; n] (parents d n)).
Definition outgoing_arcs (d : dag) (o : oracle) (n : node) : arcset :=
  foldl (λ acc c, {[(n, c)]} ∪ acc) ∅ (on o [195; n] (children d n)).
(** [outdegree_of], [indegree_of], dag.py:586 and 615. *)
Definition outdegree_of (d : dag) (n : node) : nat := size (children d n).
Definition indegree_of (d : dag) (n : node) : nat := size (parents d n).
(** [has_arc], dag.py:986. *)
Definition d_has_arc (d : dag) (i j : node) : bool := bool_decide ((i, j) ∈ d_arcs d).

(** [to_nx], [from_nx], dag.py:1773-1776 and 1752-1754. *)
Definition to_nx (d : dag) (o : oracle) : nxgraph :=
  foldl (λ G e, nx_add_edge e G) (nx_add_nodes_from (on o [196] (d_nodes d)) (Nx true ∅ ∅)) (oa o [197] (d_arcs d)).
Definition from_nx (G : nxgraph) (o : oracle) : res dag :=
  if nx_directed G then dag_make o (nx_nodes G) (nx_edges G) else Raise ValueError.

(** [to_dataframe], dag.py:1844-1854: [DataFrame] checks that the labels fit the matrix. *)
Record dataframe := Df { df_at : amat; df_index : list node; df_columns : list node }.
Definition df_make (A : amat) (index columns : list node) : res dataframe :=
  if decide (length index = a_rows A ∧ length columns = a_cols A) then Ok (Df A index columns) else Raise ValueError.
Definition to_dataframe (d : dag) (o : oracle) (node_list : option (list node)) : res dataframe :=
  res_bind (to_amat d o node_list) (λ r, df_make r.1 r.2 r.2).
(** [from_dataframe], dag.py:1808-1812: [np.ndenumerate] runs row by row; every [add_arc] checks for cycles. *)
Definition df_entries (D : dataframe) : list (nat * nat) :=
  i ← seq 0 (a_rows (df_at D)); j ← seq 0 (a_cols (df_at D)); [(i, j)].
Definition from_dataframe (D : dataframe) (o : oracle) : res dag :=
  let d0 := dag_init (list_to_set (df_index D) ∪ list_to_set (df_columns D)) in
  returned (mfor (df_entries D) (λ ij, λ d,
    if decide (default 0%Z (a_at (df_at D) !! ij) = 0%Z) then (d, Ok tt)
    else match df_index D !! ij.1, df_columns D !! ij.2 with
         | Some x, Some y => add_arc o x y true d
         | _, _ => (d, Raise IndexError)
         end) d0).

(** ** [PDAG] *)
(** [nnodes], [num_arcs], [num_edges], [num_adjacencies], pdag.py:221-235. *)
Definition p_nnodes (g : pdag) : nat := size (p_nodes g).
Definition p_num_arcs (g : pdag) : nat := size (p_arcs g).
Definition p_num_edges (g : pdag) : nat := size (p_edges g).
Definition p_num_adjacencies (g : pdag) : nat := p_num_arcs g + p_num_edges g.
(** [to_nx], [from_nx], pdag.py:106-111 and 101-103: the nodes are not added. *)
Definition p_to_nx (g : pdag) (o : oracle) : res nxgraph :=
  if decide (p_arcs g = ∅) then nx_add_frozensets (oa o [198] (p_edges g)) (Nx false ∅ ∅) else Raise RuntimeError.
Definition p_from_nx (G : nxgraph) (o : oracle) : pdag := pdag_make o (nx_nodes G) ∅ (nx_edges G) ∅.

(** ** [UndirectedGraph] *)
(** [num_nodes], [num_edges], [degrees], [has_edge], undirected_graph.py:119-129 and 162. *)
Definition u_num_nodes (g : ug) : nat := size (u_nodes g).
Definition u_num_edges (g : ug) : nat := size (u_edges g).
Definition u_degrees (g : ug) (o : oracle) : gmap node Z :=
  list_to_map ((λ n, (n, udeg g n)) <$> on o [199] (u_nodes g)).
Definition u_has_edge (g : ug) (i j : node) : bool := bool_decide (upair i j ∈ u_edges g).
(** [__eq__], undirected_graph.py:28-29. *)
Definition u_eqb (g h : ug) : bool := bool_decide (u_nodes g = u_nodes h) && bool_decide (u_edges g = u_edges h).
(** [to_nx], [from_nx], undirected_graph.py:35-38 and 111. *)
Definition u_to_nx (g : ug) (o : oracle) : res nxgraph :=
  nx_add_frozensets (oa o [200] (u_edges g)) (nx_add_nodes_from (on o [199] (u_nodes g)) (Nx false ∅ ∅)).
Definition u_from_nx (G : nxgraph) (o : oracle) (flip : arc → bool) : ug := ug_make o flip (nx_nodes G) (nx_edges G).
(** [copy], undirected_graph.py:117: a frozenset with a single member cannot be unpacked into a pair. *)
Definition u_copy (g : ug) (o : oracle) (flip : arc → bool) : res ug :=
  if decide (set_Forall (λ e : arc, e.1 ≠ e.2) (u_edges g)) then Ok (ug_make o flip (u_nodes g) (u_edges g)) else Raise ValueError.
(** [rename_nodes], undirected_graph.py:44-47.  Missing names are reported before a loop: the loop is only
    met in the second comprehension. *)
Definition u_rename_nodes (g : ug) (o : oracle) (flip : arc → bool) (name_map : gmap nat nat) : res ug :=
  if decide (set_Forall (λ n, is_Some (name_map !! n)) (u_nodes g)) then
    res_bind (loopR (λ (e : arc) (acc : arcset),
      if decide (e.1 = e.2) then Raise ValueError else
      match name_map !! e.1, name_map !! e.2 with
      | Some x, Some y => Ok ({[if flip e then (y, x) else (x, y)]} ∪ acc)
      | _, _ => Raise KeyError
      end) (oa o [201] (u_edges g)) ∅) (λ E,
    Ok (ug_make o flip (set_map (λ n, default 0 (name_map !! n)) (u_nodes g)) E))
  else Raise KeyError.
(** [to_amat], undirected_graph.py:66-84. *)
Definition u_to_amat (g : ug) (o : oracle) (flip : arc → bool) (node_list : option (list node)) (sparse : bool) : res amat :=
  let l := match node_list with Some (x :: l) => x :: l | _ => sorted_nodes (u_nodes g) end in
  let m := node2ix l in
  if sparse then Raise RuntimeError else
  loopR (λ (e : arc) A,
    if decide (e.1 = e.2) then Raise ValueError else
    let i := if flip e then e.2 else e.1 in
    let j := if flip e then e.1 else e.2 in
    put m j i (put m i j (Ok A))) (oa o [202] (u_edges g)) (a_zeros (size (u_nodes g))).
(** [from_amat], undirected_graph.py:103-104. *)
Definition u_from_amat (A : amat) (o : oracle) (flip : arc → bool) : ug :=
  ug_make o flip (list_to_set (seq 0 (a_rows A)))
    (list_to_set (filter (λ ij : nat * nat, default 0%Z (a_at A !! ij) ≠ 0%Z)
      (i ← seq 0 (a_rows A); j ← seq 0 (a_cols A); [(i, j)]))).
