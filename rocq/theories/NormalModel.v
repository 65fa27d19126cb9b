(** Model of [fast_logpdf], [log_probability], [logpdf] without interventions, [means] and [covariance] of [GaussDAG] over a real closed field
    [F], in which square roots exist.  Line numbers refer to graphical_models/classes/dags/gaussdag.py.  The nodes are 0, ..., n-1 in this
    order, [W] is [_weight_mat], [var] is [_variances] and [b] is [_biases].  A sample is one row [x].  [ln] and [log2pi] stand for [np.log]
    and [np.log(2 * np.pi)], and [eigh] for [np.linalg.eigh]. *)
From mathcomp Require Import all_ssreflect all_algebra.
Set Implicit Arguments.
Unset Strict Implicit.
Unset Printing Implicit Defensive.
Import GRing.Theory Num.Theory.
#[local] Open Scope ring_scope.

(** [_ensure_covariance], lines 575-584.  If all variances are 1 the code leaves out the diagonal matrix, which is the identity. *)
Definition n_cov (F : rcfType) (n : nat) (W : 'M[F]_n) (var : 'rV[F]_n) : 'M[F]_n :=
  if [forall i, var 0 i == 1] then (invmx (1%:M - W))^T *m invmx (1%:M - W)
  else (invmx (1%:M - W))^T *m diag_mx var *m invmx (1%:M - W).

(** [means], lines 286-294.  The parents of a node are the nodes with an arc to it, and the arcs are those with a weight other than 0
    (lines 225-246). *)
Definition n_means (F : rcfType) (n : nat) (W : 'M[F]_n) (b : 'rV[F]_n) : 'rV[F]_n :=
  foldl (fun (m : 'rV[F]_n) (i : 'I_n) => \row_k if k == i then \sum_(j | W j i != 0) W j i * m 0 j + b 0 i else m 0 k) 0 (enum 'I_n).

(** [fast_logpdf], lines 755-768; [nodes] is a list of [m] nodes. *)
Definition fast_logpdf (F : rcfType) (ln : F -> F) (log2pi : F) (eigh : forall m, 'M[F]_m -> 'rV[F]_m * 'M[F]_m) (n : nat)
    (W : 'M[F]_n) (var b : 'rV[F]_n) (m : nat) (nodes : 'I_m -> 'I_n) (x : 'rV[F]_n) : F :=
  if m == 0%N then 0 else
  let cov : 'M[F]_m := \matrix_(i, j) n_cov W var (nodes i) (nodes j) in
  let mean : 'rV[F]_m := \row_i n_means W b 0 (nodes i) in
  let vals := (eigh m cov).1 in
  let vecs := (eigh m cov).2 in
  let logdet := \sum_j ln (vals 0 j) in
  let U : 'M[F]_m := \matrix_(i, j) (vecs i j * Num.sqrt (1 / vals 0 j)) in
  let dev := (\row_i x 0 (nodes i)) - mean in
  let maha := \sum_j ((dev *m U) 0 j) ^+ 2 in
  - (1 / 2%:R) * (m%:R * log2pi + maha + logdet).

(** [log_probability], lines 770-771. *)
Definition log_probability (F : rcfType) (ln : F -> F) (log2pi : F) (eigh : forall m, 'M[F]_m -> 'rV[F]_m * 'M[F]_m) (n : nat)
    (W : 'M[F]_n) (var b : 'rV[F]_n) (x : 'rV[F]_n) : F :=
  fast_logpdf ln log2pi eigh W var b (fun i : 'I_n => i) x.

(** [scipy.stats.norm.logpdf(y, scale=s ** .5)] for the variance [s]. *)
Definition norm_logpdf (F : rcfType) (ln : F -> F) (log2pi : F) (y s : F) : F := - (1 / 2%:R) * (log2pi + y ^+ 2 / s + ln s).

(** [logpdf] without interventions, lines 780-798, for the topological order [order]. *)
Definition n_logpdf (F : rcfType) (ln : F -> F) (log2pi : F) (n : nat) (W : 'M[F]_n) (var : 'rV[F]_n) (order : seq 'I_n) (x : 'rV[F]_n) : F :=
  foldl (fun acc i => acc + norm_logpdf ln log2pi (x 0 i - \sum_(j | W j i != 0) x 0 j * W j i) (var 0 i)) 0 order.
