(** Specification vocabulary for consistent extensions; see also [Spec]. *)
From Verif Require Import Py Spec.

(** [E] is a consistent extension of the partially directed graph with arcs [A]
    and undirected edges [U]: a DAG with the same adjacencies, containing the
    arcs, whose unshielded colliders are those of [A]. *)
Definition extends (A : arcset) (U : node → node → Prop) (E : arcset) : Prop :=
  acyclic E ∧ A ⊆ E ∧ (∀ x y, adjacent E x y ↔ adjacent A x y ∨ U x y) ∧
  (∀ x z y, vstruct E x z y ↔ (x, z) ∈ A ∧ (y, z) ∈ A ∧ x ≠ y ∧ ¬ adjacent E x y).

(** Every child of a member, in either graph, is a member; parents agree. *)
Definition common_sinks (N : nset) (E1 E2 : arcset) (X : nset) : Prop :=
  X ⊆ N ∧ ∀ n, n ∈ X →
    (∀ c, (n, c) ∈ E1 → c ∈ X) ∧ (∀ c, (n, c) ∈ E2 → c ∈ X) ∧ (∀ p, (p, n) ∈ E1 ↔ (p, n) ∈ E2).

(** The parent set of [n] as a finite set. *)
Definition pa_set (E : arcset) (n : node) : nset := set_map fst (filter (λ a : arc, a.2 = n) E).
(** The standard imset: how many nodes have family [S], minus how many have parents [S]. *)
Definition imset_value (N : nset) (E : arcset) (S : nset) : Z :=
  Z.of_nat (size (filter (λ n, pa_set E n ∪ {[n]} = S) N)) - Z.of_nat (size (filter (λ n, pa_set E n = S) N)).
