(** Specification vocabulary: d-separation by paths (Pearl).  Nothing here refers
    to the model of the library. *)
From Verif Require Import Py Spec.

(** Consecutive nodes of [l] are adjacent. *)
Definition trail (E : arcset) (l : list node) : Prop :=
  ∀ p a b q, l = p ++ a :: b :: q → adjacent E a b.

(** [b] is a collider between [a] and [c]. *)
Definition collider (E : arcset) (a b c : node) : Prop := (a, b) ∈ E ∧ (c, b) ∈ E.

(** [b] or one of its descendants is in [C]. *)
Definition opened (E : arcset) (C : nset) (b : node) : Prop := ∃ c, c ∈ C ∧ rtc (edge E) b c.

(** Every collider is in [C] or has a descendant in [C]; no non-collider is in [C]. *)
Definition active_at (E : arcset) (C : nset) (a b c : node) : Prop :=
  (collider E a b c → opened E C b) ∧ (¬ collider E a b c → b ∉ C).
Definition active (E : arcset) (C : nset) (l : list node) : Prop :=
  ∀ p a b c q, l = p ++ a :: b :: c :: q → active_at E C a b c.

(** An active path without repeated nodes from [x] to [y]. *)
Definition active_path (E : arcset) (C : nset) (x y : node) (l : list node) : Prop :=
  NoDup l ∧ head l = Some x ∧ last l = Some y ∧ trail E l ∧ active E C l.

Definition dsepd (E : arcset) (A B C : nset) : Prop :=
  ∀ a b l, a ∈ A → b ∈ B → ¬ active_path E C a b l.

Definition disjoint3 (A B C : nset) : Prop := A ## B ∧ A ## C ∧ B ## C.

(** The graph with an intervention node [F] whose children are [I]. *)
Definition with_intervention (E : arcset) (F : node) (I : nset) : arcset := E ∪ set_map (λ i, (F, i)) I.

(** Parents and non-descendants. *)
Definition pa (E : arcset) (v : node) : nset := set_map fst (filter (λ a, a.2 = v) E).

(** A ternary relation on node sets with the axioms of conditional independence
    (on pairwise disjoint sets). *)
Record semigraphoid (I : nset → nset → nset → Prop) : Prop := Semigraphoid {
  sg_triv : ∀ A C, I A ∅ C;
  sg_sym : ∀ A B C, disjoint3 A B C → I A B C → I B A C;
  sg_dec : ∀ A B D C, disjoint3 A (B ∪ D) C → I A (B ∪ D) C → I A B C;
  sg_weak : ∀ A B D C, disjoint3 A (B ∪ D) C → B ## D → I A (B ∪ D) C → I A B (C ∪ D);
  sg_contr : ∀ A B D C, disjoint3 A (B ∪ D) C → B ## D → I A B C → I A D (C ∪ B) → I A (B ∪ D) C
}.

(** [E1] is an independence map of [E2]: its separations hold in [E2]. *)
Definition imap (N : nset) (E1 E2 : arcset) : Prop :=
  ∀ A B C, A ⊆ N → B ⊆ N → C ⊆ N → disjoint3 A B C → dsepd E1 A B C → dsepd E2 A B C.

(** ... and no proper subset of its arcs is enough. *)
Definition minimal_imap (N : nset) (E1 E2 : arcset) : Prop :=
  imap N E1 E2 ∧ ∀ E', E' ⊂ E1 → ¬ imap N E' E2.

(** Separation in an undirected graph given by its adjacency relation: every path
    from [A] to [B] inside [N] meets [C]. *)
Definition useparated (N : nset) (adj : relation node) (A B C : nset) : Prop :=
  ∀ a b, a ∈ A → b ∈ B →
    ¬ rtc (λ x y, adj x y ∧ x ∈ N ∧ y ∈ N ∧ x ∉ C ∧ y ∉ C) a b.
