(** Vocabulary for Chickering sequences. *)
From Verif Require Import Py Spec SpecDsep SpecMec SpecEnum.

(** One operation on arc sets: a covered arc is turned around, or an arc is added
    between two non-adjacent nodes without closing a cycle. *)
Inductive chick_step (N : nset) (E : arcset) : arcset → Prop :=
  | chick_flip x y : covered E x y → chick_step N E (flip_arc E x y)
  | chick_add x y : x ∈ N → y ∈ N → ¬ adjacent E x y → acyclic ({[(x, y)]} ∪ E) → chick_step N E ({[(x, y)]} ∪ E).

(** A sink of [H] once the nodes on which [G] and [H] agree, starting from the
    common sinks, are taken away. *)
Definition open_sink (N : nset) (G H : arcset) (y : node) : Prop :=
  y ∈ N ∧ (∀ X, common_sinks N G H X → y ∉ X) ∧ ∀ v, (y, v) ∈ H → ∃ X, common_sinks N G H X ∧ v ∈ X.
