(** Vocabulary for chordal graphs and the cliques of partially directed graphs. *)
From Verif Require Import Py Spec SpecDct.

(** Every cycle of at least four different nodes has a chord: two nodes that do
    not follow each other on the cycle are joined. *)
Definition cycle_of (E : arcset) (c : list node) : Prop :=
  NoDup c ∧ ∀ i x y, c !! i = Some x → c !! (S i mod length c) = Some y → joined E x y.
Definition chordal (E : arcset) : Prop :=
  ∀ c, cycle_of E c → 4 ≤ length c →
    ∃ i j x y, c !! i = Some x ∧ c !! j = Some y ∧ S i < j ∧ (0 < i ∨ S j < length c) ∧ joined E x y.

(** The nodes of the edges. *)
Definition nodes_of (E : arcset) : nset := set_map fst E ∪ set_map snd E.
(** No edge joins a node to itself. *)
Definition no_loops (E : arcset) : Prop := ∀ x, (x, x) ∉ E.
(** What networkx promises: the maximal cliques of a chordal graph. *)
Definition finds_cliques (f : arcset → res (list nset)) : Prop :=
  ∀ E, no_loops E → chordal E → ∃ cl, f E = Ok cl ∧ ∀ C, C ∈ cl ↔ maximal_clique (nodes_of E) E C.
(** [k] is the number of nodes of the largest cliques. *)
Definition largest (N : nset) (E : arcset) (k : nat) : Prop :=
  (∃ C, C ⊆ N ∧ clique E C ∧ size C = k) ∧ ∀ C, C ⊆ N → clique E C → size C ≤ k.
(** No arc goes between nodes that are connected by undirected edges. *)
Definition chain_graph (A E : arcset) : Prop := ∀ x y, (x, y) ∈ A → ¬ rtc (joined E) x y.
