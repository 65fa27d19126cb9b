(** Specification vocabulary: triples of nodes that cannot be taken apart.  Nothing here refers to the model of
    the library. *)
From Verif Require Import Py Spec SpecDsep SpecMixed.

(** Three nodes, of which two are adjacent and two are not, such that no two of them are separated by a set that
    contains the third. *)
Record inseparable_triple (N : nset) (G : mixed) (T : nset) : Prop := Inseparable {
  in_nodes : T ⊆ N;
  in_size : size T = 3;
  in_adj : ∃ x y, x ∈ T ∧ y ∈ T ∧ madj G x y;
  in_open : ∃ x y, x ∈ T ∧ y ∈ T ∧ x ≠ y ∧ ¬ madj G x y;
  in_sep : ∀ x y C, x ∈ T → y ∈ T → x ≠ y → C ⊆ N ∖ {[x; y]} → T ∖ {[x; y]} ⊆ C → ¬ msepd G {[x]} {[y]} C
}.
