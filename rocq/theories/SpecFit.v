(** Vocabulary for fitting discrete Bayesian networks to data. *)
From Coq Require Import QArith.Qcanon.
From Verif Require Import Py Spec DagModel QMatModel DiscreteModel SpecDiscrete.
#[local] Open Scope Qc_scope.

(** The number of rows in which the columns of [l] have the values they have in [a]. *)
Definition occurs (l : list node) (a : assignment) (data : list (list Z)) : nat :=
  length (filter (λ r : list Z, Forall (λ v : node, r !! v = Some (Z.of_nat (a !!! v))) l) data).
(** A row as an assignment. *)
Definition row_asg (r : list Z) : assignment := list_to_map (zip (seq 0 (length r)) (Z.to_nat <$> r)).
(** The probability of a sample of independent rows. *)
Fixpoint likelihood (D : ddag) (data : list (list Z)) : Qc :=
  match data with [] => 1 | r :: data => joint D (row_asg r) * likelihood D data end.

(** A nonempty table with a column of natural numbers for each node. *)
Definition usable (d : dag) (w : nat) (data : list (list Z)) : Prop :=
  data ≠ [] ∧ (∀ v, v ∈ d_nodes d → (v < w)%nat) ∧
  ∀ r, r ∈ data → length r = w ∧ ∀ v z, v ∈ d_nodes d → r !! v = Some z → (0 <= z)%Z.
(** The parents of each node in some order. *)
Definition parents_listed (d : dag) (m : gmap node (list node)) : Prop :=
  (∀ v, is_Some (m !! v) ↔ v ∈ d_nodes d) ∧ ∀ v ps, m !! v = Some ps → NoDup ps ∧ ∀ p, p ∈ ps ↔ (p, v) ∈ d_arcs d.
(** The alphabet of each node is [0, 1, ...] and contains the values of the data. *)
Definition alphabets_cover (d : dag) (m : gmap node (list Qc)) (data : list (list Z)) : Prop :=
  ∀ v, v ∈ d_nodes d → ∃ k, m !! v = Some ((λ j, qz (Z.of_nat j)) <$> seq 0 k) ∧ ∀ r z, r ∈ data → r !! v = Some z → (z < Z.of_nat k)%Z.
(** Two networks have the same graph and the same number of values at each node. *)
Definition same_shape (D E : ddag) : Prop :=
  d_nodes (dd_dag D) = d_nodes (dd_dag E) ∧ d_arcs (dd_dag D) = d_arcs (dd_dag E) ∧ ∀ v, v ∈ d_nodes (dd_dag D) → card D v = card E v.
