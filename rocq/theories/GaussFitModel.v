(** Model of fitting the parameters of a [GaussDAG] to samples.  Line numbers refer to
    graphical_models/classes/dags/gaussdag.py unless another file is named.  Samples are an array [X] with [n] rows
    and [p] columns; arithmetic is exact.  [lstsq k A b] is the first result of [np.linalg.lstsq] for a [k] by [k] matrix. *)
From Coq Require Import QArith.Qcanon.
From Verif Require Import Py Spec DagModel QMatModel GaussModel GaussLinModel.
#[local] Open Scope Qc_scope.

(** [get_extended_cov], core_utils.py:14-19. *)
Definition ext_samples (p : nat) (X : mat) : mat := λ r a, if decide (a < p)%nat then X r a else 1.
Definition get_extended_cov (n p : nat) (X : mat) : mat := mmul n (mT (ext_samples p X)) (ext_samples p X).
(** [get_extended_cov2], core_utils.py:22-33, for [len(mean) = p]. *)
Definition get_extended_cov2 (p : nat) (cov : mat) (mean : vec) (n : nat) : mat := λ i j,
  if decide (i < p)%nat then
    if decide (j < p)%nat then cov i j * (qz (Z.of_nat n) - 1) + mean i * mean j * qz (Z.of_nat n) else mean i * qz (Z.of_nat n)
  else if decide (j < p)%nat then mean j * qz (Z.of_nat n) else qz (Z.of_nat n).
(** [linear_regression_mle], core_utils.py:36-48; [p] is [extended_cov.shape[0] - 1]. *)
Definition linear_regression_mle (lstsq : nat → mat → vec → vec) (p : nat) (C : mat) (inputs : list nat) (out : nat) : res (list Qc * Qc * Qc) :=
  let ii := inputs ++ [p] in
  if decide (in_range (S p) (out :: ii)) then
    let k := length ii in
    let A := mix_ ii ii C in
    let coefs := lstsq k A (λ i, mix_ ii [out] C i 0%nat) in
    let bias := coefs (pred k) in
    let variance := C out out - qsum k (λ i, coefs i * qsum k (λ j, A i j * coefs j)) in
    Ok (coefs <$> seq 0 (pred k), bias, variance)
  else Raise IndexError.
(** [amat[parents, node] = coefs], line 130. *)
Fixpoint put_column (l : list (nat * Qc)) (v : nat) (A : mat) : mat :=
  match l with [] => A | (u, x) :: l => put_column l v (mupd A u v x) end.
(** The loop body of [fit_mle], lines 127-132. *)
Definition fit_step (o : oracle) (lstsq : nat → mat → vec → vec) (d : dag) (p : nat) (C : mat) (v : node) (s : mat * list Qc * list Qc) : res (mat * list Qc * list Qc) :=
  let '(amat, biases, variances) := s in
  let ps := on o [170; v]%nat (parents d v) in
  res_bind (linear_regression_mle lstsq p C ps v) (λ '(coefs, bias, variance),
    if decide (in_range p (v :: ps)) then Ok (put_column (zip ps coefs) v amat, <[v := bias]> biases, <[v := variance]> variances)
    else Raise IndexError).
(** [fit_mle], lines 118-138. *)
Definition fit_mle (o : oracle) (lstsq : nat → mat → vec → vec) (d : dag) (n p : nat) (X : mat) : res gauss :=
  res_bind (loopR (fit_step o lstsq d p (get_extended_cov n p X)) (on o [169]%nat (d_nodes d)) (mzero, replicate p 0, replicate p 0))
    (λ '(amat, biases, variances), gauss_from_amat o p amat None (Some biases) (Some variances)).
