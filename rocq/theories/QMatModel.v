(** Square matrices over the rationals, as functions of two indices.  Only the
    entries with both indices below the dimension matter.  They stand for the numpy
    float arrays of gaussdag.py; arithmetic is exact. *)
From Coq Require Import QArith.Qcanon.
From Verif Require Import Py.
#[local] Open Scope Qc_scope.

(** An integer as a number. *)
Definition qz (z : Z) : Qc := Q2Qc (QArith_base.inject_Z z).

Definition mat := nat → nat → Qc.

(** The sum of [f k] for [k < n]. *)
Fixpoint qsum (n : nat) (f : nat → Qc) : Qc :=
  match n with O => 0 | S n => qsum n f + f n end.
(** [A @ B]. *)
Definition mmul (n : nat) (A B : mat) : mat := λ i j, qsum n (λ k, A i k * B k j).
(** [np.eye], [np.diag], [.T], [-], [+], [np.zeros]. *)
Definition mid : mat := λ i j, if decide (i = j) then 1 else 0.
Definition mdiag (v : nat → Qc) : mat := λ i j, if decide (i = j) then v i else 0.
Definition mT (A : mat) : mat := λ i j, A j i.
Definition msub (A B : mat) : mat := λ i j, A i j - B i j.
Definition madd (A B : mat) : mat := λ i j, A i j + B i j.
Definition mzero : mat := λ _ _, 0.
(** Assignment to one entry. *)
Definition mupd (A : mat) (a b : nat) (w : Qc) : mat :=
  λ i j, if decide (i = a ∧ j = b) then w else A i j.

(** Equality of the [n] by [n] parts. *)
Definition meq (n : nat) (A B : mat) : Prop := ∀ i j, (i < n)%nat → (j < n)%nat → A i j = B i j.
Definition is_inverse (n : nat) (A V : mat) : Prop := meq n (mmul n A V) mid ∧ meq n (mmul n V A) mid.
