(** Vocabulary for random parameters. *)
From Coq Require Import QArith.Qcanon.
From Verif Require Import Py Spec DagModel QMatModel DiscreteModel SpecDiscrete.
#[local] Open Scope Qc_scope.

(** The nodes are the numbers below [n]. *)
Definition numbered (n : nat) (N : nset) : Prop := ∀ v, v ∈ N ↔ (v < n)%nat.
(** The absolute value of [x] is in the interval from [low] to [high]. *)
Definition abs_between (low high x : Qc) : Prop := (low <= x ∧ x <= high) ∨ (low <= - x ∧ - x <= high).
(** [x] and [y] are at least [dist] apart. *)
Definition apart (dist x y : Qc) : Prop := dist <= x - y ∨ dist <= y - x.
(** What [np.random.dirichlet] returns: a distribution of [K] values. *)
Definition distribution (K : nat) (l : list Qc) : Prop := length l = K ∧ (∀ x, x ∈ l → 0 <= x) ∧ foldr Qcplus 0 l = 1.
(** What [random.sample] returns: [n] different elements. *)
Definition sampler (samp : nat → list arc → nat → list arc) : Prop :=
  ∀ k l n, NoDup l → (n <= length l)%nat → NoDup (samp k l n) ∧ length (samp k l n) = n ∧ ∀ e, e ∈ samp k l n → e ∈ l.
(** The product of the parameters of the parents that are on; [f] is the parameter of the parent at each place of [ps]. *)
Fixpoint on_product (f : nat → Qc) (ps : list node) (a : assignment) : Qc :=
  match ps with
  | [] => 1
  | p :: ps => (if decide (a !!! p = 1%nat) then f 0%nat else 1) * on_product (λ k, f (S k)) ps a
  end.
