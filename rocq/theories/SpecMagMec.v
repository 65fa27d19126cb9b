(** Specification vocabulary: Markov equivalence of graphs with directed, bidirected
    and undirected edges.  Nothing here refers to the model of the library. *)
From Verif Require Import Py Spec SpecDsep SpecMixed.

(** The same m-separation statements over [N]. *)
Definition same_mseps (N : nset) (G H : mixed) : Prop :=
  ∀ A B C, A ⊆ N → B ⊆ N → C ⊆ N → disjoint3 A B C → msepd G A B C ↔ msepd H A B C.

(** Unshielded collider. *)
Definition mvstruct (G : mixed) (x z y : node) : Prop := mcollider G x z y ∧ x ≠ y ∧ ¬ madj G x y.

(** [x, q1, ..., qk, b, y] with [k > 0] is a discriminating path for [b]: [x] and [y] are not
    adjacent, and every [qi] is a collider on the path and a parent of [y]. *)
Definition discriminating (G : mixed) (l : list node) : Prop :=
  NoDup l ∧ mtrail G l ∧ ∃ x q m b y, l = x :: q :: m ++ [b; y] ∧ ¬ madj G x y ∧
    ∀ p a v c r, l = p ++ a :: v :: c :: r → r ≠ [] → mcollider G a v c ∧ (v, y) ∈ mx_dir G.
(** The last node but one of [l] is a collider on [l]. *)
Definition discr_collider (G : mixed) (l : list node) : Prop :=
  ∃ p a b y, l = p ++ [a; b; y] ∧ mcollider G a b y.

(** ** One mark at a time *)

(** [D] has [a -> b] where [B] has [a <-> b]. *)
Record swap (D B : mixed) (a b : node) : Prop := Swap {
  sw_D : (a, b) ∈ mx_dir D;
  sw_B : spouse B a b;
  sw_dir : ∀ x y, (x, y) ∈ mx_dir B ↔ (x, y) ∈ mx_dir D ∧ (x, y) ≠ (a, b);
  sw_spo : ∀ x y, spouse D x y ↔ spouse B x y ∧ (x, y) ≠ (a, b) ∧ (x, y) ≠ (b, a);
  sw_nei : ∀ x y, neighbor D x y ↔ neighbor B x y
}.
(** The same edges with the same marks. *)
Definition same_marks (G H : mixed) : Prop :=
  ∀ x y, ((x, y) ∈ mx_dir G ↔ (x, y) ∈ mx_dir H) ∧ (spouse G x y ↔ spouse H x y) ∧ (neighbor G x y ↔ neighbor H x y).
(** [H] is an ancestral graph that is Markov equivalent to [G] and differs from it in one mark. *)
Definition mark_step (N : nset) (G H : mixed) : Prop :=
  (∃ a b, swap G H a b ∨ swap H G a b) ∧ ancestral H ∧ same_mseps N G H.
