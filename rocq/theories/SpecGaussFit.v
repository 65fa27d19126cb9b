(** Vocabulary for fitting linear Gaussian models: an array [X] holds [n] samples of [p] variables. *)
From Coq Require Import QArith.Qcanon Reals.
From Verif Require Import Py Spec QMatModel.
#[local] Open Scope Qc_scope.

(** What is left of variable [v] in sample [r] after subtracting its bias and the weighted values of the other variables. *)
Definition leftover (p : nat) (X W : mat) (b : nat → Qc) (r v : nat) : Qc := X r v - b v - qsum p (λ u, X r u * W u v).
(** The sum of the squares. *)
Definition rss (n p : nat) (X W : mat) (b : nat → Qc) (v : nat) : Qc := qsum n (λ r, leftover p X W b r v * leftover p X W b r v).
(** All weights are on arcs. *)
Definition weights_on (E : arcset) (W : mat) : Prop := ∀ u v, W u v ≠ 0 → (u, v) ∈ E.
(** [x] minimises the sum of the squares of [A x - b]. *)
Definition least_squares (lstsq : nat → mat → (nat → Qc) → nat → Qc) : Prop := ∀ (k : nat) (A : mat) (b y : nat → Qc),
  let miss x := qsum k (λ i, (qsum k (λ j, A i j * x j) - b i) * (qsum k (λ j, A i j * x j) - b i)) in
  miss (lstsq k A b) <= miss y.

(** The logarithm of the density of the samples when variable [v] is normally distributed around the value
    predicted from its parents, with variance [s v]. *)
Definition real (x : Qc) : R := Q2R (this x).
Definition rsum (n : nat) (f : nat → R) : R := foldr Rplus 0%R (f <$> seq 0 n).
Definition log_normal (mean_distance variance : R) : R := (- / 2 * ln (2 * PI * variance) - mean_distance * mean_distance / (2 * variance))%R.
Definition log_density (n p : nat) (X W : mat) (b s : nat → Qc) : R :=
  rsum p (λ v, rsum n (λ r, log_normal (real (leftover p X W b r v)) (real (s v)))).
