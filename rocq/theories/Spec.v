(** Specification vocabulary: textbook notions on a bare finite set of arcs.
    Nothing here refers to the model of the library. *)
From Verif Require Import Py.

Definition edge (E : arcset) : relation node := λ x y, (x, y) ∈ E.

(** No directed cycle. *)
Definition acyclic (E : arcset) : Prop := ∀ x, ¬ tc (edge E) x x.

(** All arc endpoints are nodes. *)
Definition over (N : nset) (E : arcset) : Prop := ∀ x y, (x, y) ∈ E → x ∈ N ∧ y ∈ N.

(** [x] is a proper ancestor of [y]. *)
Definition ancestor (E : arcset) (x y : node) : Prop := tc (edge E) x y.

(** [l] lists every node of [N] exactly once and every arc points forward. *)
Definition topo_order (N : nset) (E : arcset) (l : list node) : Prop :=
  NoDup l ∧ (∀ x, x ∈ l ↔ x ∈ N) ∧
  ∀ i j x y, (x, y) ∈ E → l !! i = Some x → l !! j = Some y → i < j.

(** [w] is a directed walk: consecutive entries are joined by arcs. *)
Fixpoint walk (E : arcset) (w : list node) : Prop :=
  match w with
  | x :: (y :: _) as w' => (x, y) ∈ E ∧ walk E w'
  | _ => True
  end.

(** A directed walk whose last node already occurred earlier. *)
Definition closes_cycle (E : arcset) (w : list node) : Prop :=
  walk E w ∧ ∃ p x, w = p ++ [x] ∧ x ∈ p.

Definition adjacent (E : arcset) (x y : node) : Prop := (x, y) ∈ E ∨ (y, x) ∈ E.

(** Unshielded collider [x -> z <- y]. *)
Definition vstruct (E : arcset) (x z y : node) : Prop :=
  (x, z) ∈ E ∧ (y, z) ∈ E ∧ x ≠ y ∧ ¬ adjacent E x y.

Definition same_skeleton (E1 E2 : arcset) : Prop := ∀ x y, adjacent E1 x y ↔ adjacent E2 x y.
Definition same_vstructs (E1 E2 : arcset) : Prop := ∀ x z y, vstruct E1 x z y ↔ vstruct E2 x z y.

(** [x] occurs before [y] in [l]. *)
Definition before (l : list node) (x y : node) : Prop :=
  ∃ i j, l !! i = Some x ∧ l !! j = Some y ∧ i < j.

(** [l] lists every element of [N] exactly once. *)
Definition listing (N : nset) (l : list node) : Prop := NoDup l ∧ ∀ x, x ∈ l ↔ x ∈ N.
