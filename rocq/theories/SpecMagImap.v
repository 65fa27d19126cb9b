(** Minimality of ancestral graphs among those that claim only separations of
    another graph. *)
From Verif Require Import Py Spec SpecDsep SpecMixed.

(** All separations of [G] between nodes of [N] hold in [H]. *)
Definition mag_imap (N : nset) (G H : mixed) : Prop :=
  ∀ A B C, A ∪ B ∪ C ⊆ N → A ## C → B ## C → msepd G A B C → msepd H A B C.
(** The edges of [G'] are edges of [G]. *)
Definition sub_mixed (G' G : mixed) : Prop :=
  (∀ x y, (x, y) ∈ mx_dir G' → (x, y) ∈ mx_dir G) ∧ (∀ x y, spouse G' x y → spouse G x y) ∧ (∀ x y, neighbor G' x y → neighbor G x y).
(** No graph that satisfies [ok] and has some of the edges of [G], but not all of
    them, is an I-map of [H]. *)
Definition minimal_in (ok : mixed → Prop) (N : nset) (G H : mixed) : Prop :=
  ∀ G', ok G' → sub_mixed G' G → mag_imap N G' H → sub_mixed G G'.
