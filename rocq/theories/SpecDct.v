(** Vocabulary for clique trees. *)
From Verif Require Import Py Spec.

(** [x] and [y] are joined by an arc. *)
Definition joined (A : arcset) (x y : node) : Prop := (x, y) ∈ A ∨ (y, x) ∈ A.
(** Any two parents of a node are joined. *)
Definition moral_arcs (A : arcset) : Prop := ∀ x y z, (x, z) ∈ A → (y, z) ∈ A → x ≠ y → joined A x y.
(** Sets of nodes that are joined pairwise, and the largest ones. *)
Definition clique (A : arcset) (C : nset) : Prop := ∀ x y, x ∈ C → y ∈ C → x ≠ y → joined A x y.
Definition maximal_clique (N : nset) (A : arcset) (C : nset) : Prop :=
  C ≠ ∅ ∧ C ⊆ N ∧ clique A C ∧ ∀ C' : nset, C' ⊆ N → clique A C' → C ⊆ C' → C' ⊆ C.
(** A list of all maximal cliques. *)
Definition cliques_of (N : nset) (A : arcset) (cl : list nset) : Prop := NoDup cl ∧ ∀ C, C ∈ cl ↔ maximal_clique N A C.

(** Two cliques are linked in a tree, in one or the other direction. *)
Definition linked (F : list (nset * nset)) (X Y : nset) : Prop := (X, Y) ∈ F ∨ (Y, X) ∈ F.
(** They are connected by cliques that contain [S]. *)
Definition connected_over (F : list (nset * nset)) (S : nset) : relation nset := rtc (λ X Y, linked F X Y ∧ S ⊆ X ∧ S ⊆ Y).
(** There are no cycles: without the link between [X] and [Y] they are not connected. *)
Definition forest (F : list (nset * nset)) : Prop :=
  ∀ X Y, (X, Y) ∈ F → X ≠ Y ∧ ¬ rtc (λ U V, linked F U V ∧ (U, V) ≠ (X, Y) ∧ (U, V) ≠ (Y, X)) X Y.
(** The common nodes of [X] and [Y] come before the other nodes of [Y]. *)
Definition points_to (A : arcset) (X Y : nset) : Prop := ∀ s y, s ∈ X → s ∈ Y → y ∈ Y → y ∉ X → (s, y) ∈ A.
