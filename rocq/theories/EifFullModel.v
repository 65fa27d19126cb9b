(** Model of [DiscreteDAG.get_efficient_influence_function_conditionals].  Line numbers refer to
    graphical_models/classes/dags/discrete_dag.py.  The inference of [pgmpy] is an argument, as in [EifModel.v]. *)
From Coq Require Import QArith.Qcanon.
From Verif Require Import Py Spec DagModel QMatModel DiscreteModel DiscreteSampleModel EnumModel EifModel PgmModel ClfModel PgmArrayModel.
#[local] Open Scope Qc_scope.

(** [(values2 * probs).sum((0, 1))], lines 909-910: [values2] is [values] with an axis of length 1 for each of the [k] nodes of the
    condition.  Axes of another length are not stretched. *)
Definition sum_out (alc alt : list Qc) (z : Z) (k : nat) (probs : tensor) : res tensor :=
  match t_shape probs with
  | n :: m :: sh =>
    if decide (n = length alc ∧ m = length alt ∧ length sh = k) then
      Ok (Tensor sh (λ ix, qsum (length alc) (λ i, qsum (length alt) (λ j,
        (if decide (alc !! i = Some (qz z)) then 1 else 0) * default 0 (alt !! j) * t_at probs (i :: j :: ix)))))
    else Raise ValueError
  | _ => Raise ValueError
  end.
(** The loop body, lines 902-911, for the tuple [key]; a number is an array without axes. *)
Definition full_mean (o : oracle) (query : pgm_query) (D : ddag) (t c : node) (alc alt : list Qc) (z : Z) (key : list node) : res tensor :=
  if decide (key = []) then
    res_bind (get_marginals o D [c; t]) (λ p, res_bind (expval alc alt z p) (λ q, Ok (Tensor [] (λ _, q))))
  else res_bind (array_pgmpy query D [c; t] key) (sum_out alc alt z (length key)).
(** [get_efficient_influence_function_conditionals], lines 886-914. *)
Definition full_conditionals (o : oracle) (query : pgm_query) (D : ddag) (t c : node) (z : Z) (ignored : nset) :
    res (gmap (list node) Z * gmap (list node) tensor) :=
  let counts := standard_imset (dd_dag D) o ignored in
  match dd_alph D !! t, dd_alph D !! c with
  | Some alt, Some alc =>
    res_bind (loopR (λ kv ms, res_bind (full_mean o query D t c alc alt z kv.1) (λ m, Ok (<[kv.1 := m]> ms))) (map_to_list counts) ∅) (λ ms,
      Ok (counts, ms))
  | _, _ => Raise KeyError
  end.
