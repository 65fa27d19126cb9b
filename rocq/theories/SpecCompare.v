(** Specification vocabulary for distances between graphs. *)
From Verif Require Import Py Spec.

(** [edit w c E F]: [F] arises from [E] by adding or removing one arc, at cost
    [c = w], or by reversing one arc, at cost [c = 1]. *)
Inductive edit (w : nat) : nat → arcset → arcset → Prop :=
  | edit_add E a : a ∉ E → edit w w E ({[a]} ∪ E)
  | edit_del E a : a ∈ E → edit w w E (E ∖ {[a]})
  | edit_rev E x y : (x, y) ∈ E → edit w 1 E ({[(y, x)]} ∪ E ∖ {[(x, y)]}).

(** [edits w P c E F]: a sequence of edits of total cost [c] leads from [E] to [F],
    and every arc set reached on the way satisfies [P]. *)
Inductive edits (w : nat) (P : arcset → Prop) : nat → arcset → arcset → Prop :=
  | edits_nil E : edits w P 0 E E
  | edits_cons c c' E F G : edit w c E F → P F → edits w P c' F G → edits w P (c + c') E G.
