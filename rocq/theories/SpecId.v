(** What the formulas of identification denote. *)
From Coq Require Import QArith.Qcanon.
From Verif Require Import Py Spec DagModel QMatModel DiscreteModel IdFormulaModel SpecDiscrete.
#[local] Open Scope Qc_scope.

Section meaning.
  (** The nodes and their numbers of values are those of [D]; [P I] gives the probabilities of all assignments after the
      intervention on [I]. *)
  Context (D : ddag) (P : nset → assignment → Qc).
  (** The probability that the nodes of [S] have the values they have in [a]. *)
  Definition mass (I S : nset) (a : assignment) : Qc := sum_over D (elements (d_nodes (dd_dag D) ∖ S)) (P I) a.
  (** The sum over the values of the nodes of [S]. *)
  Definition sum_out (S : nset) (f : assignment → Qc) (a : assignment) : Qc := sum_over D (elements S) f a.
  Fixpoint den (f : formula) (a : assignment) : Qc :=
    match f with
    | Term A C J => mass J (A ∪ C) a / mass J C a
    | Prod _ terms => foldr (λ t acc, den t a * acc) 1 terms
    | Marg _ X f => sum_out X (den f) a
    end.
  (** [P] only depends on the values of the nodes. *)
  Definition on_nodes : Prop := ∀ I a b, (∀ v, v ∈ d_nodes (dd_dag D) → a !!! v = b !!! v) → P I a = P I b.
  (** The fields of the formula are as the constructors set them. *)
  Fixpoint formed (f : formula) : Prop :=
    match f with
    | Term A C _ => A ∩ C = ∅ ∧ A ∪ C ⊆ d_nodes (dd_dag D)
    | Prod A terms => A = ⋃ (f_active <$> terms)
    | Marg A X f => formed f ∧ A ⊆ f_active f ∧ X = f_active f ∖ A
    end.
  (** A marginal of a single term, whose condition has positive probability. *)
  Fixpoint one_term (f : formula) : Prop := match f with Term _ _ _ => True | Prod _ _ => False | Marg _ _ f => one_term f end.
  Fixpoint possible (f : formula) (a : assignment) : Prop :=
    match f with Term _ C J => mass J C a ≠ 0 | Prod _ _ => True | Marg _ _ f => possible f a end.
End meaning.
