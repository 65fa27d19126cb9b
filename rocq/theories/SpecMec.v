(** Specification vocabulary for equivalence classes; see also [Spec]. *)
From Verif Require Import Py Spec SpecDsep.

(** Same adjacencies and same unshielded colliders. *)
Definition equivalent (E1 E2 : arcset) : Prop := same_skeleton E1 E2 ∧ same_vstructs E1 E2.

(** Exactly one of [i] and [j] is a target. *)
Definition cut (I : nset) (i j : node) : Prop := (i ∈ I ∧ j ∉ I) ∨ (i ∉ I ∧ j ∈ I).
(** Equivalent, and every arc cut by an intervention has the same orientation. *)
Definition i_equivalent (Is : list nset) (E1 E2 : arcset) : Prop :=
  equivalent E1 E2 ∧ ∀ I i j, I ∈ Is → cut I i j → (i, j) ∈ E1 ↔ (i, j) ∈ E2.

(** [x -> y] is covered: [x] and [y] have the same other parents. *)
Definition covered (E : arcset) (x y : node) : Prop :=
  (x, y) ∈ E ∧ ∀ z, (z, x) ∈ E ↔ (z, y) ∈ E ∧ z ≠ x.
(** The same graph with [x -> y] turned around. *)
Definition flip_arc (E : arcset) (x y : node) : arcset := {[(y, x)]} ∪ E ∖ {[(x, y)]}.

(** The same separation statements over [N]. *)
Definition same_seps (N : nset) (E1 E2 : arcset) : Prop :=
  ∀ A B C, A ⊆ N → B ⊆ N → C ⊆ N → disjoint3 A B C → dsepd E1 A B C ↔ dsepd E2 A B C.
