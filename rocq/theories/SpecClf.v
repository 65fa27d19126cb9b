(** Vocabulary for fitting with classifiers. *)
From Coq Require Import QArith.Qcanon.
From Verif Require Import Py Spec DagModel QMatModel DiscreteModel SpecDiscrete ClfModel.
#[local] Open Scope Qc_scope.

(** The probability that a classifier gives to the label [q] for the features [x]. *)
Definition clf_prob (c : clf) (x : list Qc) (q : Qc) : Qc := foldr Qcplus 0 (snd <$> filter (λ zp, qz zp.1 = q) (zip (cl_classes c) (cl_proba c x))).
(** What is assumed of a classifier: from labels that are not all the same it learns a distribution over the labels, which are numbered in increasing order. *)
Definition learns (train : list (list Z) → list Z → res clf) : Prop := ∀ X y, length X = length y → (∃ s t, s ∈ y ∧ t ∈ y ∧ s ≠ t) →
  ∃ c, train X y = Ok c ∧ StronglySorted Z.lt (cl_classes c) ∧ (∀ z, z ∈ cl_classes c ↔ z ∈ y) ∧
    ∀ x, length (cl_proba c x) = length (cl_classes c) ∧ Forall (λ p, 0 <= p) (cl_proba c x) ∧ foldr Qcplus 0 (cl_proba c x) = 1.
(** The value of [v] in [a]. *)
Definition value_at (D : ddag) (a : assignment) (v : node) : Qc := default 0 (default [] (dd_alph D !! v) !! (a !!! v)).
(** A nonempty table with a column for each node. *)
Definition table_for (d : dag) (w : nat) (data : list (list Z)) : Prop :=
  data ≠ [] ∧ (∀ v, v ∈ d_nodes d → (v < w)%nat) ∧ ∀ r, r ∈ data → length r = w.
(** The values in column [v]. *)
Definition column (data : list (list Z)) (v : node) : list Z := omap (λ r : list Z, r !! v) data.
(** The values of the nodes [ps] in each row. *)
Definition features (data : list (list Z)) (ps : list node) : list (list Z) := (λ r : list Z, (λ p, default 0%Z (r !! p)) <$> ps) <$> data.
(** The values of each node are in its alphabet.  For a node with parents the alphabet is [0, 1, ...], or the increasing list of the values that occur. *)
Definition alphabets_fit (d : dag) (m : gmap node (list Qc)) (data : list (list Z)) : Prop :=
  ∀ v, v ∈ d_nodes d → ∃ l, m !! v = Some l ∧ NoDup l ∧ (∀ z, z ∈ column data v → qz z ∈ l) ∧
    ((∀ p, (p, v) ∉ d_arcs d) ∨ (∃ k, l = (λ j, qz (Z.of_nat j)) <$> seq 0 k) ∨
     ∃ zs, l = qz <$> zs ∧ StronglySorted Z.lt zs ∧ ∀ z, z ∈ zs → z ∈ column data v).
