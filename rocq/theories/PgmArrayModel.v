(** Model of [DiscreteDAG.get_conditional_pgmpy] without [cond_values].  Line numbers refer to
    graphical_models/classes/dags/discrete_dag.py.  The inference of [pgmpy] is an argument, as in [EifModel.v]. *)
From Coq Require Import QArith.Qcanon.
From Verif Require Import Py Spec DagModel QMatModel DiscreteModel DiscreteSampleModel EifModel PgmModel ClfModel.
#[local] Open Scope Qc_scope.

(** [t.reshape(sh)] of numpy. *)
Definition reshape (t : tensor) (sh : list nat) : tensor := Tensor sh (λ ix, t_at t (unravel (t_shape t) (ravel sh ix))).
(** [add_repeated_nodes_conditional], lines 72-105. *)
Definition add_repeated_conditional (D : ddag) (base : tensor) (marg cond : list node) : res tensor :=
  let only := filter (λ v, v ∉ cond) marg in
  let all := only ++ cond in
  let dup := filter (λ v, v ∈ cond) marg in
  let right := ((λ v, if decide (v ∈ only) then ax_d v else ax_r v) <$> marg) ++ (ax_d <$> cond) in
  let sizes (a : axis) := if decide (a.1 = 1%nat ∧ a.2 ∈ dup) then dd_dims D !! a.2 else None in
  res_bind (einops_repeat base (ax_d <$> all) right sizes) (λ t,
    match dup with
    | [v] =>
      let n := default 0%nat (dd_dims D !! v) in
      let eye := Tensor [n; n] (λ ix, if decide (ix !! 0%nat = ix !! 1%nat) then 1 else 0) in
      res_bind (einops_repeat eye [ax_d v; ax_r v] right
          (λ a, if decide (a.1 = 0%nat ∧ a.2 ∈ all ∧ a.2 ≠ v) then dd_dims D !! a.2 else None)) (λ ones,
        if decide (t_shape t = t_shape ones) then Ok (Tensor (t_shape t) (λ ix, t_at t ix * t_at ones ix)) else Raise ValueError)
    | _ => Raise RuntimeError
    end).
(** A value as the name of a state: the states of the tables are numbered. *)
Definition state (q : Qc) : option Z :=
  if decide (QArith_base.Qden (this q) = 1%positive) then Some (QArith_base.Qnum (this q)) else None.
(** The loop body, lines 575-581, for the values [vals] of the conditioning nodes.  An unknown state is a [KeyError]; arrays of
    another shape are not stretched. *)
Definition array_step (query : pgm_query) (only cond : list node) (dims : list nat) (x : list Qc) (ts : list tensor) : res (list tensor) :=
  match mapM state x with
  | None => Raise KeyError
  | Some zs =>
    res_bind (query only (zip cond zs)) (λ t, if decide (t_shape t = dims) then Ok (ts ++ [t]) else Raise ValueError)
  end.
(** [get_conditional_pgmpy], lines 597-630, and [_get_conditional_pgmpy_values] with [as_dict=False], lines 543-595. *)
Definition array_pgmpy (query : pgm_query) (D : ddag) (marg cond : list node) : res tensor :=
  let only := filter (λ v, v ∉ cond) marg in
  if decide (Forall (λ v, is_Some (dd_alph D !! v)) (only ++ cond)) then
    let xs := py_product ((λ v, default [] (dd_alph D !! v)) <$> cond) in
    let dims := shape_of (dd_alph D) only in
    let cdims := shape_of (dd_alph D) cond in
    res_bind (loopR (array_step query only cond dims) xs []) (λ ts,
      let flat := Tensor (dims ++ [volume cdims]) (λ ix,
        match ts !! default 0%nat (last ix) with Some t => t_at t (take (length dims) ix) | None => 0 end) in
      let base := reshape flat (dims ++ cdims) in
      if decide (length marg = length only) then Ok base else add_repeated_conditional D base marg cond)
  else Raise KeyError.
