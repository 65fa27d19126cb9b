(** Specification vocabulary for intervention design; see also [SpecMec]. *)
From Verif Require Import Py Spec SpecMec.

(** Single-node interventions on the nodes of a list. *)
Definition singles (l : list node) : list nset := (λ v, {[v]}) <$> l.
(** The interventions fix the orientation of [i -> j]: it is the same in every
    graph that cannot be told apart from [E] by observing and intervening. *)
Definition determined (Is : list nset) (E : arcset) (i j : node) : Prop :=
  (i, j) ∈ E ∧ ∀ E', acyclic E' → i_equivalent Is E E' → (i, j) ∈ E'.
(** No other graph is left. *)
Definition verifies (Is : list nset) (E : arcset) : Prop :=
  ∀ E', acyclic E' → i_equivalent Is E E' → E' = E.

(** Vertex covers of the graph with edges [H]. *)
Definition vertex_cover (H : arcset) (X : nset) : Prop := ∀ i j : node, (i, j) ∈ H → i ∈ X ∨ j ∈ X.
Definition min_vertex_cover (H : arcset) (X : nset) : Prop :=
  vertex_cover H X ∧ ∀ Y, vertex_cover H Y → size X ≤ size Y.
Definition bipartite (H : arcset) : Prop := ∃ c : node → bool, ∀ i j : node, (i, j) ∈ H → c i ≠ c j.
