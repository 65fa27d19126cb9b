(** Model of [DiscreteDAG.get_efficient_influence_function].  Line numbers refer to
    graphical_models/classes/dags/discrete_dag.py.  Floats are exact rationals.  The inference of [pgmpy] (the conversion
    [to_pgm] and the query of a [VariableElimination] or a [BeliefPropagation]) is an argument: [query vars evidence] is
    the array of values of the factor that is returned.  The method ["importance_reweighting"] is not modelled. *)
From Coq Require Import QArith.Qcanon.
From Verif Require Import Py Spec DagModel QMatModel DiscreteModel DiscreteSampleModel EnumModel.
From Verif Require Import DiscreteFitModel.
#[local] Open Scope Qc_scope.

Notation pgm_query := (list node → list (node * Z) → res tensor).

(** [add_repeated_nodes_marginal], lines 35-69, with [cond_vals] the values of [cond_nodes]. *)
Definition add_repeated_marginal (D : ddag) (t : tensor) (marg cond : list node) (zs : list Z) : res tensor :=
  let only := filter (λ v, v ∉ cond) marg in
  let dup := filter (λ v, v ∈ cond) marg in
  let right := (λ v, if decide (v ∈ only) then ax_d v else ax_r v) <$> marg in
  if decide (Forall (λ v, is_Some (dd_dims D !! v)) dup) then
    res_bind (einops_repeat t (ax_d <$> only) right (λ a, if decide (a.1 = 1%nat ∧ a.2 ∈ dup) then dd_dims D !! a.2 else None)) (λ t,
      match dup with
      | [] => Raise IndexError
      | [v] =>
        match zs !! pos cond v with
        | None => Raise IndexError
        | Some z =>
          let ones := Tensor [default 0%nat (dd_dims D !! v)] (λ ix, if decide (Z.of_nat (default 0%nat (ix !! 0%nat)) = z) then 1 else 0) in
          res_bind (einops_repeat ones [ax_r v] right (λ a, if decide (a.1 = 0%nat ∧ a.2 ∈ marg ∧ a.2 ≠ v) then dd_dims D !! a.2 else None)) (λ ones,
            if decide (t_shape t = t_shape ones) then Ok (Tensor (t_shape t) (λ ix, t_at t ix * t_at ones ix)) else Raise ValueError)
        end
      | _ => Raise RuntimeError
      end)
  else Raise KeyError.
(** The loop body of [_get_conditional_pgmpy_values] with [as_dict=True], lines 575-587. *)
Definition conditional_pgmpy (query : pgm_query) (D : ddag) (marg cond : list node) (zs : list Z) : res tensor :=
  let only := filter (λ v, v ∉ cond) marg in
  res_bind (query only (zip cond zs)) (λ t,
    if decide (length marg = length only) then Ok t else add_repeated_marginal D t marg cond zs).
(** [get_conditional_pgmpy] with [cond_values], lines 597-630: a dictionary. *)
Definition conditionals_pgmpy (query : pgm_query) (D : ddag) (marg cond : list node) (values : list (list Z)) : res (gmap (list Z) tensor) :=
  loopR (λ zs m, res_bind (conditional_pgmpy query D marg cond zs) (λ t, Ok (<[zs := t]> m))) values ∅.

(** [(values * prob).sum()], lines 929-937 and 959, for an array with the two axes of [values]. *)
Definition expval (alc alt : list Qc) (z : Z) (t : tensor) : res Qc :=
  if decide (t_shape t = [length alc; length alt]) then
    Ok (qsum (length alc) (λ i, qsum (length alt) (λ j,
      (if decide (alc !! i = Some (qz z)) then 1 else 0) * default 0 (alt !! j) * t_at t [i; j])))
  else Raise ValueError.
(** A value of [conds2means]. *)
Inductive cond_mean := Const (q : Qc) | Table (m : gmap (list Z) Qc).
(** The loop body of [get_efficient_influence_function_conditionals_partial], lines 934-961, for the tuple [key].  [rows] are
    the rows of [sampled_values], an array with [w] columns ([None] cannot be subscripted).  [ord] gives the iteration order of the set of tuples. *)
Definition eif_mean (o : oracle) (ord : list (list Z) → list (list Z)) (query : pgm_query) (D : ddag) (t c : node) (alc alt : list Qc) (z : Z)
    (w : nat) (rows : option (list row)) (key : list node) : res cond_mean :=
  if decide (key = []) then
    res_bind (get_marginals o D [c; t]) (λ p, res_bind (expval alc alt z p) (λ q, Ok (Const q)))
  else
    match rows with
    | None => Raise TypeError
    | Some rows =>
      if decide (Forall (λ v, (v < w)%nat) key) then
        res_bind (conditionals_pgmpy query D [c; t] key (ord (remove_dups ((λ r, cell r <$> key) <$> rows)))) (λ probs,
        res_bind (loopR (λ p m, res_bind (expval alc alt z p.2) (λ q, Ok (<[p.1 := q]> m))) (map_to_list probs) ∅) (λ m, Ok (Table m)))
      else Raise IndexError
    end.
(** [get_efficient_influence_function_conditionals_partial], lines 916-963: the tuples with their counts and their means. *)
Definition eif_term : Type := list node * Z * cond_mean.
Definition eif_conditionals (o : oracle) (ord : list (list Z) → list (list Z)) (query : pgm_query) (D : ddag) (t c : node) (z : Z)
    (ignored : nset) (w : nat) (rows : option (list row)) : res (list eif_term) :=
  match dd_alph D !! t, dd_alph D !! c with
  | Some alt, Some alc =>
    loopR (λ kv ts, res_bind (eif_mean o ord query D t c alc alt z w rows kv.1) (λ m, Ok (ts ++ [(kv.1, kv.2, m)])))
      (map_to_list (standard_imset (dd_dag D) o ignored)) []
  | _, _ => Raise KeyError
  end.
(** A column of [eif_terms], lines 1020-1030, for samples with [w] columns. *)
Definition eif_column (w : nat) (samples : list row) (tm : eif_term) : res (list Qc) :=
  let '(key, count, m) := tm in
  match m with
  | Const q => Ok ((λ _, q * qz count) <$> samples)
  | Table m =>
    if decide (Forall (λ v, (v < w)%nat) key) then
      loopR (λ r col, match m !! (cell r <$> key) with Some q => Ok (col ++ [q * qz count]) | None => Raise KeyError end) samples []
    else Raise IndexError
  end.
(** The function [efficient_influence_function], lines 1019-1032. *)
Definition eif_eval (p : Qc) (ts : list eif_term) (w : nat) (samples : list row) : res (list Qc) :=
  res_bind (loopR (λ tm acc, res_bind (eif_column w samples tm) (λ col, Ok (zip_with Qcplus acc col))) ts ((λ _, 0) <$> samples)) (λ acc,
    Ok ((λ x, x / p) <$> acc)).
(** [get_efficient_influence_function], lines 1036-1070, with [get_efficient_influence_function_partial], lines 998-1034.  With
    [partial=False], [get_efficient_influence_function_full], lines 965-980, calls a method that does not exist: an
    [AttributeError] is a [TypeError]. *)
Definition get_eif (o : oracle) (ord : list (list Z) → list (list Z)) (query : pgm_query) (D : ddag) (t c : node) (z : Z)
    (propensity : option Qc) (ignored : nset) (w : nat) (rows : option (list row)) (partial : bool) : res (nat → list row → res (list Qc)) :=
  res_bind (match propensity with
    | Some p => Ok p
    | None =>
      res_bind (get_marginal o D c) (λ m,
        match np_index (default 0%nat (t_shape m !! 0%nat)) z with Some k => Ok (t_at m [k]) | None => Raise IndexError end)
    end) (λ p,
    if partial then res_bind (eif_conditionals o ord query D t c z ignored w rows) (λ ts, Ok (eif_eval p ts))
    else Raise TypeError).
