(** Model of the formulas of [SemiMarkovian.general_identification]: [ProbabilityTerm], [Product] and
    [MarginalDistribution].  Line numbers refer to graphical_models/classes/semi_markovian.py.  Arguments are sets of
    nodes; [None] is the empty set, as after [to_set].  A failed assertion is a [ValueError]. *)
From Verif Require Import Py Spec DagModel.

(** The classes with their fields: [ProbabilityTerm(active_variables, cond_set, intervened)], lines 22-28;
    [Product] with [active_variables] and [terms], lines 56-60; [MarginalDistribution] with [active_variables],
    [marginalized_variables] and [distribution], lines 85-98. *)
Inductive formula :=
| Term (A C I : nset)
| Prod (A : nset) (terms : list formula)
| Marg (A S : nset) (f : formula).
Definition f_active (f : formula) : nset := match f with Term A _ _ => A | Prod A _ => A | Marg A _ _ => A end.

(** [Product(terms)], lines 57-60: [set.union] without argument is a [TypeError]. *)
Definition make_prod (terms : list formula) : res formula :=
  if decide (terms = []) then Raise TypeError else Ok (Prod (⋃ (f_active <$> terms)) terms).
(** [MarginalDistribution(distribution, marginal_variables=M)], lines 86-94. *)
Definition make_marg (f : formula) (M : nset) : res formula :=
  if decide (M ⊆ f_active f) then Ok (Marg M (f_active f ∖ M) f) else Raise ValueError.

(** [get_conditional], lines 12-16 (the assertions), 40-50, 65-79 and 106-117. *)
Fixpoint get_cond (f : formula) (M C : nset) : res formula :=
  if decide (M ∩ C = ∅ ∧ M ∪ C ⊆ f_active f) then
    match f with
    | Term A C0 J => Ok (Term (if decide (M = ∅) then A ∖ C else M) (C0 ∪ C) J)
    | Prod A terms =>
      if decide (C = ∅) then make_marg f M else
      let M := if decide (M = ∅) then A ∖ C else M in
      res_bind ((fix go (l : list formula) : res (list formula) :=
        match l with
        | [] => Ok []
        | t :: l => res_bind (get_cond t ∅ C) (λ t', res_bind (go l) (λ l', Ok (t' :: l')))
        end) terms) (λ terms',
      res_bind (make_prod terms') (λ p,
        if decide (M ∪ C = A) then Ok p else make_marg p M))
    | Marg A _ d =>
      if decide (C = ∅) then make_marg d M else
      let M := if decide (M = ∅) then A ∖ C else M in
      res_bind (get_cond d ∅ C) (λ d', make_marg d' M)
    end
  else Raise ValueError.
(** [marginalize_out], lines 18-19. *)
Definition marginalize_out (f : formula) (X : nset) : res formula := get_cond f (f_active f ∖ X) ∅.
