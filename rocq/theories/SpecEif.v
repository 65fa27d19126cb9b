(** Vocabulary for influence functions of discrete Bayesian networks. *)
From Coq Require Import QArith.Qcanon.
From Verif Require Import Py Spec DagModel QMatModel DiscreteModel SpecDiscrete.
#[local] Open Scope Qc_scope.

(** The expectation of [f] under the joint distribution. *)
Definition expect (D : ddag) (f : assignment → Qc) : Qc := sum_over D (elements (d_nodes (dd_dag D))) (λ a, joint D a * f a) ∅.
(** The expectation of [f] given that the nodes of [S] have the values they have in [a] (0 if that has probability 0). *)
Definition cexp (D : ddag) (S : nset) (f : assignment → Qc) (a : assignment) : Qc :=
  sum_over D (elements (d_nodes (dd_dag D) ∖ S)) (λ b, joint D b * f b) a / marginal D S a.
(** [f] only depends on the values of the nodes of [S]. *)
Definition depends (S : nset) (f : assignment → Qc) : Prop := ∀ a b, (∀ v, v ∈ S → a !!! v = b !!! v) → f a = f b.
(** A node and its parents. *)
Definition pa (D : ddag) (v : node) : nset := parents (dd_dag D) v.
Definition fam (D : ddag) (v : node) : nset := pa D v ∪ {[v]}.
(** A score of the table of [v]: a direction in which its rows can be changed without changing their sums. *)
Definition score (D : ddag) (v : node) (s : assignment → Qc) : Prop :=
  depends (fam D v) s ∧
  ∀ a, in_range D (elements (pa D v)) a → qsum (card D v) (λ k, prob D (<[v := k]> a) v * s (<[v := k]> a)) = 0.
(** The sum of [f] over a list. *)
Definition lsum_of {A} (f : A → Qc) (l : list A) : Qc := foldr (λ x acc, f x + acc) 0 l.
(** The projection of [h] on the scores of the nodes of [l]. *)
Definition projection (D : ddag) (l : list node) (h : assignment → Qc) (a : assignment) : Qc :=
  lsum_of (λ v, cexp D (fam D v) h a - cexp D (pa D v) h a) l.

(** The number of the value of [t] where [c] has the value [z], and 0 elsewhere. *)
Definition target_if (D : ddag) (t c : node) (z : Z) (a : assignment) : Qc := if decide (value D a c = qz z) then value D a t else 0.
(** The inference returns the conditional probabilities of the nodes [vars] given the evidence (with [state] [k] for the
    value with index [k]), with one axis for each of them in this order, whenever the evidence is possible. *)
Definition exact_query (D : ddag) (query : list node → list (node * Z) → res tensor) : Prop :=
  ∀ vars evs a, vars ≠ [] → NoDup (vars ++ evs) → (∀ v, v ∈ vars ++ evs → v ∈ d_nodes (dd_dag D)) → in_range D evs a →
    marginal D (list_to_set evs) a ≠ 0 →
    ∃ t, query vars ((λ v, (v, Z.of_nat (a !!! v))) <$> evs) = Ok t ∧ t_shape t = card D <$> vars ∧
      ∀ b, in_range D vars b → (∀ v, v ∈ evs → b !!! v = a !!! v) →
        t_at t (vals b vars) = marginal D (list_to_set (vars ++ evs)) b / marginal D (list_to_set evs) a.
(** Rows with a column for each node, which have positive probability. *)
Definition possible_rows (D : ddag) (w : nat) (rows : list (list Z)) : Prop :=
  (∀ v, v ∈ d_nodes (dd_dag D) → (v < w)%nat) ∧
  ∀ r, r ∈ rows → length r = w ∧ ∃ a, in_range D (elements (d_nodes (dd_dag D))) a ∧ joint D a ≠ 0 ∧
    ∀ v, v ∈ d_nodes (dd_dag D) → r !! v = Some (Z.of_nat (a !!! v)).
(** The rows [r] and [s] agree on the columns of [S]. *)
Definition agree_on (S : nset) (r s : list Z) : Prop := ∀ v, v ∈ S → r !! v = s !! v.
(** The function that is returned: the projection on the scores of the nodes outside [I], divided by [p]. *)
Definition influence (D : ddag) (I : nset) (h : assignment → Qc) (p : Qc) (a : assignment) : Qc :=
  projection D (elements (d_nodes (dd_dag D) ∖ I)) h a / p.
(** [D'] has the same tables as [D], except that those of [v] are multiplied by [1 + e * s]. *)
Definition tilted (D D' : ddag) (v : node) (e : Qc) (s : assignment → Qc) : Prop :=
  d_nodes (dd_dag D') = d_nodes (dd_dag D) ∧ (∀ u, u ∈ d_nodes (dd_dag D) → card D' u = card D u) ∧
  ∀ a u, in_range D (elements (d_nodes (dd_dag D))) a → u ∈ d_nodes (dd_dag D) →
    prob D' a u = if decide (u = v) then prob D a u * (1 + e * s a) else prob D a u.
