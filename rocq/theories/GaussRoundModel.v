(** Model of [GaussDAG.normalize_weights] and [GaussDAG.round_weights].  Line numbers refer to
    graphical_models/classes/dags/gaussdag.py.  Floats are exact rationals. *)
From Coq Require Import QArith.Qcanon.
From Verif Require Import Py Spec DagModel QMatModel GaussModel.
#[local] Open Scope Qc_scope.

(** [np.rint]: the nearest integer, of two the even one. *)
Definition rint (y : Qc) : Z :=
  let n := QArith_base.Qnum (this y) in
  let d := Z.pos (QArith_base.Qden (this y)) in
  let q := ((2 * n + d) / (2 * d))%Z in
  if decide ((2 * n + d) mod (2 * d) = 0 ∧ Z.odd q = true)%Z then (q - 1)%Z else q.
(** [np.around(x, decimals=k)], for [k] at least 0. *)
Definition around (k : nat) (x : Qc) : Qc := qz (rint (x * qz (10 ^ Z.of_nat k))) / qz (10 ^ Z.of_nat k).
(** [round_weights], lines 221-223. *)
Definition round_weights (o : oracle) (k : nat) (g : gauss) : res gauss :=
  gauss_from_amat o (g_dim g) (λ i j, around k (g_w g i j)) None None None.
(** [normalize_weights], lines 203-219.  The name [B] in line 217 is not defined; a [NameError] is a [TypeError].  The standard
    deviations of line 213 are only used there; computing them fails if the covariance cannot be computed. *)
Definition normalize_weights (o : oracle) (inv : nat → mat → mat) : M gauss gauss := λ g,
  match read_covariance inv g with
  | (g', Raise e) => (g', Raise e)
  | (g', Ok _) =>
    (g', res_bind (loopR (λ e W, if decide (g_w g' e.1 e.2 ≠ 0) then Raise TypeError else Ok W)
        (combinations2 (seq 0 (size (d_nodes (g_dag g'))))) mzero) (λ W,
      gauss_from_amat o (g_dim g') W None None None))
  end.
