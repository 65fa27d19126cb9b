(** Vocabulary for directed models of a covariance matrix; see also [SpecLin]. *)
From Coq Require Import QArith.Qcanon.
From Verif Require Import Py Spec SpecDsep QMatModel SpecLin.
#[local] Open Scope Qc_scope.

(** Every separation of two variables in the graph [E] holds for variables with covariance matrix [S]. *)
Definition markov_for (n : nat) (S : mat) (E : arcset) : Prop :=
  ∀ a b (W : nset), (a < n)%nat → (b < n)%nat → a ≠ b → a ∉ W → b ∉ W → (∀ w, w ∈ W → (w < n)%nat) →
    dsepd E {[a]} {[b]} W → uncorrelated n S W a b.
(** The same, and it fails for every graph with fewer arcs. *)
Definition minimal_for (n : nat) (S : mat) (E : arcset) : Prop :=
  markov_for n S E ∧ ∀ E', E' ⊂ E → ¬ markov_for n S E'.

(** No partial correlation other than zero is 1e-8 or less in absolute value. *)
Definition no_small_correlation (n : nat) (S : mat) : Prop :=
  ∀ a b (W : nset) r s, (a < n)%nat → (b < n)%nat → a ≠ b → a ∉ W → b ∉ W → residual n S W a r → residual n S W b s → lcov n S r s ≠ 0 →
    / qz 10000000000000000 * (lcov n S r r * lcov n S s s) < lcov n S r s * lcov n S r s.
