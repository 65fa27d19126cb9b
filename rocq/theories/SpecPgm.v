(** Vocabulary for networks in the form of [pgmpy]. *)
From Coq Require Import QArith.Qcanon.
From Verif Require Import Py Spec DagModel QMatModel DiscreteModel SpecDiscrete PgmModel.
#[local] Open Scope Qc_scope.

Definition pgm_card (m : pgm) (v : node) : nat := match pg_cpds m !! v with Some (_, t) => default 0%nat (head (t_shape t)) | None => 0%nat end.
(** The probability that the table of [v] gives to the values in [a]. *)
Definition pgm_prob (m : pgm) (a : assignment) (v : node) : Qc :=
  match pg_cpds m !! v with Some (ev, t) => t_at t (vals a (v :: ev)) | None => 0 end.
Definition pgm_joint (m : pgm) (a : assignment) : Qc := foldr (λ v acc, pgm_prob m a v * acc) 1 (pg_nodes m).
Definition pgm_arcs (m : pgm) : arcset := list_to_set (v ← pg_nodes m; (λ p, (p, v)) <$> pg_preds m v).
(** A network that passes [check_model]: each node has a table whose evidence are its parents, in some order. *)
Definition pgm_wf (m : pgm) : Prop :=
  NoDup (pg_nodes m) ∧ acyclic (pgm_arcs m) ∧
  ∀ v, v ∈ pg_nodes m → NoDup (pg_preds m v) ∧ (∀ p, p ∈ pg_preds m v → p ∈ pg_nodes m) ∧
    ∃ ev t, pg_cpds m !! v = Some (ev, t) ∧ ev ≡ₚ pg_preds m v ∧ t_shape t = pgm_card m <$> v :: ev.
(** The evidence is in the order of the parents of the graph. *)
Definition same_order (m : pgm) : Prop := ∀ v ev t, v ∈ pg_nodes m → pg_cpds m !! v = Some (ev, t) → ev = pg_preds m v.
(** [a] gives the node at position [i] of [l] what [b] gives [i]. *)
Definition renamed (l : list node) (a b : assignment) : Prop := ∀ i v, l !! i = Some v → a !!! v = b !!! i.
