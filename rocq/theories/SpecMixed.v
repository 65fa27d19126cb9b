(** Specification vocabulary: graphs with directed, bidirected and undirected
    edges, and m-separation by paths.  Nothing here refers to the model of the
    library. *)
From Verif Require Import Py Spec SpecDsep.

(** Bidirected and undirected edges are pairs read in both directions. *)
Record mixed := Mixed { mx_dir : arcset; mx_bi : arcset; mx_un : arcset }.

Definition spouse (G : mixed) (x y : node) : Prop := (x, y) ∈ mx_bi G ∨ (y, x) ∈ mx_bi G.
Definition neighbor (G : mixed) (x y : node) : Prop := (x, y) ∈ mx_un G ∨ (y, x) ∈ mx_un G.
(** The edge between [x] and [y] has an arrowhead at [y]. *)
Definition into (G : mixed) (x y : node) : Prop := (x, y) ∈ mx_dir G ∨ spouse G x y.
Definition madj (G : mixed) (x y : node) : Prop :=
  (x, y) ∈ mx_dir G ∨ (y, x) ∈ mx_dir G ∨ spouse G x y ∨ neighbor G x y.

(** At most one edge between two nodes and no loops. *)
Record simple (G : mixed) : Prop := Simple {
  simple_irr : ∀ x, ¬ madj G x x;
  simple_dir : ∀ x y, (x, y) ∈ mx_dir G → (y, x) ∉ mx_dir G ∧ ¬ spouse G x y ∧ ¬ neighbor G x y;
  simple_bi : ∀ x y, spouse G x y → ¬ neighbor G x y
}.
(** No arrowhead meets an undirected edge. *)
Definition separate (G : mixed) : Prop := ∀ x y z, into G x y → ¬ neighbor G y z.
(** No directed cycle and no spouse that is an ancestor. *)
Definition ancestral (G : mixed) : Prop :=
  acyclic (mx_dir G) ∧ ∀ x y, spouse G x y → ¬ rtc (edge (mx_dir G)) x y.

(** m-connecting paths. *)
Definition mtrail (G : mixed) (l : list node) : Prop :=
  ∀ p a b q, l = p ++ a :: b :: q → madj G a b.
Definition mcollider (G : mixed) (a b c : node) : Prop := into G a b ∧ into G c b.
Definition mactive_at (G : mixed) (C : nset) (a b c : node) : Prop :=
  (mcollider G a b c → opened (mx_dir G) C b) ∧ (¬ mcollider G a b c → b ∉ C).
Definition mactive (G : mixed) (C : nset) (l : list node) : Prop :=
  ∀ p a b c q, l = p ++ a :: b :: c :: q → mactive_at G C a b c.
Definition mpath (G : mixed) (C : nset) (x y : node) (l : list node) : Prop :=
  NoDup l ∧ head l = Some x ∧ last l = Some y ∧ mtrail G l ∧ mactive G C l.
Definition msepd (G : mixed) (A B C : nset) : Prop :=
  ∀ a b l, a ∈ A → b ∈ B → ¬ mpath G C a b l.

(** Two non-adjacent nodes are separated by some set. *)
Definition maximal (N : nset) (G : mixed) : Prop :=
  ∀ x y, x ∈ N → y ∈ N → x ≠ y → ¬ madj G x y → ∃ C, C ⊆ N ∖ {[x; y]} ∧ msepd G {[x]} {[y]} C.
