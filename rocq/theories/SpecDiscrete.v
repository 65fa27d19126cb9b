(** Vocabulary for discrete Bayesian networks: the joint distribution and its marginals. *)
From Coq Require Import QArith.Qcanon.
From Verif Require Import Py Spec DagModel QMatModel DiscreteModel PropertiesDag.
#[local] Open Scope Qc_scope.

(** The number of values of a node. *)
Definition card (D : ddag) (v : node) : nat := length (default [] (dd_alph D !! v)).
(** An assignment gives each node the index of its value. *)
Notation assignment := (gmap node nat).
Definition in_range (D : ddag) (l : list node) (a : assignment) : Prop := ∀ v, v ∈ l → (a !!! v < card D v)%nat.
(** The values of the nodes of [l]. *)
Definition vals (a : assignment) (l : list node) : list nat := (λ v, a !!! v) <$> l.

(** The conditional probability of the value of [v] given the values of its parents, as stored. *)
Definition prob (D : ddag) (a : assignment) (v : node) : Qc :=
  match dd_cond D !! v, dd_par D !! v with
  | Some c, Some ps => t_at c (vals a (ps ++ [v]))
  | _, _ => 0
  end.
(** The probability of an assignment to all nodes. *)
Definition joint (D : ddag) (a : assignment) : Qc :=
  foldr (λ v acc, prob D a v * acc) 1 (elements (d_nodes (dd_dag D))).
(** The sum of [f] over all values of the nodes of [l], the others as in [a]. *)
Fixpoint sum_over (D : ddag) (l : list node) (f : assignment → Qc) (a : assignment) : Qc :=
  match l with
  | [] => f a
  | v :: l => qsum (card D v) (λ k, sum_over D l f (<[v := k]> a))
  end.
(** The probability that the nodes of [S] have the values they have in [a]. *)
Definition marginal (D : ddag) (S : nset) (a : assignment) : Qc :=
  sum_over D (elements (d_nodes (dd_dag D) ∖ S)) (joint D) a.

(** What a caller has to pass: parents are the parents of the graph, in some order, and the table of each node has
    the shape of its alphabet and those of its parents. *)
Definition ddag_wf (D : ddag) : Prop :=
  views_agree (dd_dag D) ∧ acyclic (d_arcs (dd_dag D)) ∧
  ∀ v, v ∈ d_nodes (dd_dag D) →
    ∃ al ps c, dd_alph D !! v = Some al ∧ dd_par D !! v = Some ps ∧ dd_cond D !! v = Some c ∧
      NoDup ps ∧ (∀ p, p ∈ ps ↔ (p, v) ∈ d_arcs (dd_dag D)) ∧ t_shape c = card D <$> ps ++ [v].
(** Each table holds a distribution of the node for every choice of parent values. *)
Definition stochastic (D : ddag) : Prop :=
  ∀ v ps a, v ∈ d_nodes (dd_dag D) → dd_par D !! v = Some ps → in_range D ps a →
    qsum (card D v) (λ k, prob D (<[v := k]> a) v) = 1.
(** Every stored probability is 0 or larger than 1e-10. *)
Definition no_tiny (D : ddag) : Prop :=
  ∀ v ps a, v ∈ d_nodes (dd_dag D) → dd_par D !! v = Some ps → in_range D (ps ++ [v]) a →
    prob D a v = 0 ∨ Q2Qc (QArith_base.Qmake 1 10000000000) < prob D a v.
(** No stored probability is negative. *)
Definition nonneg (D : ddag) : Prop :=
  ∀ v ps a, v ∈ d_nodes (dd_dag D) → dd_par D !! v = Some ps → in_range D (ps ++ [v]) a → 0 <= prob D a v.
(** The probability that [v] has a smaller value than in [a], given its parents. *)
Definition cdf_before (D : ddag) (a : assignment) (v : node) : Qc := qsum (a !!! v) (λ k, prob D (<[v := k]> a) v).
(** The uniform number [u] selects the value of [v] in [a]. *)
Definition selects (D : ddag) (u : Qc) (a : assignment) (v : node) : Prop := cdf_before D a v <= u ∧ u < cdf_before D a v + prob D a v.
(** The number the value of [v] stands for. *)
Definition value (D : ddag) (a : assignment) (v : node) : Qc := default 0 (default [] (dd_alph D !! v) !! (a !!! v)).
(** The values of [v] are the numbers [0, 1, ...]. *)
Definition plain (D : ddag) (v : node) : Prop := dd_alph D !! v = Some ((λ k, qz (Z.of_nat k)) <$> seq 0 (card D v)).
