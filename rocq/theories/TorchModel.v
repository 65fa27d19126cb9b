(** Model of discrete Bayesian networks with tables of torch.  Line numbers refer to
    graphical_models/classes/dags/discrete_dag_torch.py.  As in [DiscreteModel], floats are exact rationals and a table of
    logarithms is kept as the table of the numbers. *)
From Coq Require Import QArith.Qcanon.
From Verif Require Import Py Spec DagModel QMatModel DiscreteModel.
#[local] Open Scope Qc_scope.

(** [__init__], lines 72-100, has the same statements as that of [DiscreteDAG]; the device is not modelled.
    [to_torch], discrete_dag.py:724-742: the nodes are passed as a set, the tables are copied. *)
Definition to_torch (o : oracle) (D : ddag) : res ddag :=
  ddag_make o (on o [205%nat] (d_nodes (dd_dag D))) (d_arcs (dd_dag D)) (dd_cond D) (dd_par D) (dd_alph D).

(** [no_warn_log], lines 27-31, followed by the exponential: nothing is set to [-inf] here.  The logarithm of a negative
    number is [nan], which is represented by an arbitrary number. *)
Definition exp_log (nan x : Qc) : Qc := if decide (x < 0) then nan else x.
(** [get_marginals], lines 105-144, with [add_variable], lines 52-69, [repeat_dimensions], lines 34-49, and [marginalize],
    lines 23-24: the statements are those of discrete_dag.py but for the logarithm. *)
Definition torch_get_marginals (nan : Qc) : oracle → ddag → list node → res tensor := get_marginals_by (exp_log nan).

(** [einops.einsum(t1, ..., tk, "l1, ..., lk -> out")]: the names that are not in [out] are summed.  Axes of size 1, which
    torch would stretch, must agree as well, and the limit on the number of different names is not modelled. *)
Fixpoint name_size (l : list (tensor * list node)) (v : node) : nat :=
  match l with
  | [] => 0
  | (t, ns) :: l => if decide (v ∈ ns) then default 0%nat (t_shape t !! pos ns v) else name_size l v
  end.
Fixpoint new_names (seen : list node) (l : list (tensor * list node)) : list node :=
  match l with
  | [] => []
  | (_, ns) :: l => filter (λ v, v ∉ seen) ns ++ new_names (seen ++ ns) l
  end.
Definition einsum (l : list (tensor * list node)) (out : list node) : res tensor :=
  let size := name_size l in
  if decide (Forall (λ p : tensor * list node, t_shape p.1 = size <$> p.2) l ∧ NoDup out ∧ out ⊆ concat (snd <$> l)) then
    Ok (Tensor (size <$> out) (λ ix,
      sum_names size (new_names out l)
        (λ env, foldr (λ p acc, t_at p.1 (lookup_all env p.2) * acc) 1 l) (list_to_map (zip out ix))))
  else Raise RuntimeError.

(** [get_marginals_torch], lines 147-163.  Without tensors [einsum] raises a [ValueError]. *)
Fixpoint factors (D : ddag) (t : list node) : option (list (tensor * list node)) :=
  match t with
  | [] => Some []
  | v :: t =>
    match dd_par D !! v, dd_cond D !! v, factors D t with
    | Some ps, Some c, Some l => Some ((c, ps ++ [v]) :: l)
    | _, _, _ => None
    end
  end.
Definition get_marginals_torch (o : oracle) (D : ddag) (S : list node) : res tensor :=
  res_bind (ancestral_subgraph (dd_dag D) o (list_to_set S)) (λ g,
  res_bind (topological_sort g o) (λ t,
    match factors D t with
    | None => Raise KeyError
    | Some l => if decide (t = []) then Raise ValueError else einsum l S
    end)).
