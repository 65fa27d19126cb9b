(** Specification vocabulary: linear combinations of random variables with a given
    covariance matrix.  Nothing here refers to the model of the library. *)
From Coq Require Import QArith.Qcanon.
From Verif Require Import Py Spec QMatModel.
#[local] Open Scope Qc_scope.

(** The combination [sum_i (u i) X_i] of [X_0, ..., X_(n-1)] is given by [u]; [eunit x] is [X_x] itself. *)
Definition eunit (x : nat) : nat → Qc := λ i, if decide (i = x) then 1 else 0.
(** The covariance of two combinations when the [X_i] have the covariance matrix [S]. *)
Definition lcov (n : nat) (S : mat) (u v : nat → Qc) : Qc := qsum n (λ i, qsum n (λ j, u i * S i j * v j)).

(** Symmetric, and no combination but the zero one has variance zero or less. *)
Definition posdef (n : nat) (S : mat) : Prop :=
  (∀ i j, (i < n)%nat → (j < n)%nat → S i j = S j i) ∧
  ∀ u, (∃ i, (i < n)%nat ∧ u i ≠ 0) → 0 < lcov n S u u.

(** [r] is the residual of the linear regression of [X_x] on the [X_z] with [z] in [W]: it is
    [X_x] minus a combination of these, and uncorrelated with each. *)
Definition residual (n : nat) (S : mat) (W : nset) (x : nat) (r : nat → Qc) : Prop :=
  (∀ i, (i < n)%nat → i ∉ W → r i = eunit x i) ∧
  (∀ z, (z < n)%nat → z ∈ W → lcov n S r (eunit z) = 0).

(** [X_x] and [X_y] are uncorrelated given the [X_z] with [z] in [W]. *)
Definition uncorrelated (n : nat) (S : mat) (W : nset) (x y : nat) : Prop :=
  ∃ r s, residual n S W x r ∧ residual n S W y s ∧ lcov n S r s = 0.

(** [P] is [U diag(e) U.T], where [U] has ones on the diagonal, its other non-zero entries [U i j] are for [i]
    before [j] in the order, and [e] is positive.  Then [P] is the inverse covariance matrix of the variables that satisfy
    [X_j = sum_i (- U i j) X_i + noise] with noise variances [1 / e j]. *)
Definition factors (n : nat) (ord : list node) (P U : mat) (e : nat → Qc) : Prop :=
  (∀ i, (i < n)%nat → U i i = 1 ∧ 0 < e i) ∧
  (∀ i j, (i < n)%nat → (j < n)%nat → i ≠ j → U i j ≠ 0 → before ord i j) ∧
  ∀ i j, (i < n)%nat → (j < n)%nat → P i j = qsum n (λ m, U i m * e m * U j m).

(** No entry of [U diag(e) ** (1/2)] other than zero is 1e-8 or less in absolute value. *)
Definition above_tol (n : nat) (U : mat) (e : nat → Qc) : Prop :=
  ∀ i j, (i < n)%nat → (j < n)%nat → U i j ≠ 0 → / qz 10000000000000000 < U i j * U i j * e j.

(** Separation in an undirected graph: every path from [x] to [y] meets [W]. *)
Definition useparated (adj : node → node → Prop) (W : nset) (x y : node) : Prop :=
  ¬ rtc (λ a b, adj a b ∧ b ∉ W) x y.
