(** Vocabulary for importance sampling. *)
From Coq Require Import QArith.Qcanon.
From Verif Require Import Py Spec DagModel QMatModel DiscreteModel PropertiesDag SpecDiscrete.
#[local] Open Scope Qc_scope.

(** 1 if the nodes of [l] have the values [ks]. *)
Definition indicates (l : list node) (ks : list nat) (a : assignment) : Qc := if decide (vals a l = ks) then 1 else 0.
(** The product of the conditional probabilities of the nodes of [l]. *)
Definition weight_of (D : ddag) (l : list node) (a : assignment) : Qc := foldr (λ v acc, prob D a v * acc) 1 l.
(** The nodes whose values are drawn when those of [cond] are given. *)
Definition drawn (D : ddag) (cond : list node) : list node := filter (λ v, v ∉ cond) (elements (d_nodes (dd_dag D))).
(** [a] is what the numbers [u] give when the nodes [cond] have the values [c]. *)
Definition outcome (D : ddag) (cond : list node) (c : list nat) (u : node → Qc) (a : assignment) : Prop :=
  in_range D (elements (d_nodes (dd_dag D))) a ∧ vals a cond = c ∧ Forall (λ v, selects D (u v) a v) (drawn D cond).
(** Of the [np] points [u 0, u 1, ...] those that select the values of [a] for the nodes drawn are as many as their
    probability says. *)
Definition exact_share (D : ddag) (cond : list node) (u : nat → node → Qc) (np : nat) (a : assignment) : Prop :=
  qsum np (λ i, if decide (Forall (λ v, selects D (u i v) a v) (drawn D cond)) then 1 else 0)
    = qz (Z.of_nat np) * weight_of D (drawn D cond) a.
