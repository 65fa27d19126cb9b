(** Model of [to_csv], [to_df] and [to_sparse] of [PDAG].  Line numbers refer to graphical_models/classes/dags/pdag.py.  A csv file is the
    list of its rows. *)
From Coq Require Import QArith.Qcanon.
From Verif Require Import Py Spec DagModel UGraphModel PdagModel CompareModel QMatModel ConvModel.

(** [to_csv], lines 112-119: a row per arc, then two rows per edge. *)
Definition p_to_csv (g : pdag) (o : oracle) : list arc :=
  oa o [212] (p_arcs g) ++ (e ← oa o [213] (p_edges g); [e; (e.2, e.1)]).
(** [to_df], lines 121-139.  Its loops over arcs and edges, lines 126-136, are those of [to_amat], lines 169-178; [DataFrame] then checks
    the labels. *)
Definition p_to_df (g : pdag) (o : oracle) (node_list : option (list node)) (axis : nat) : res dataframe :=
  res_bind (p_to_amat g o node_list axis) (λ r, df_make r.1 r.2 r.2).
(** [to_sparse], lines 141-160: a sparse matrix is the matrix of its entries; an index out of range is an [IndexError] too. *)
Definition p_to_sparse (g : pdag) (o : oracle) (node_list : option (list node)) (axis : nat) : res (amat * list node) :=
  p_to_amat g o node_list axis.
