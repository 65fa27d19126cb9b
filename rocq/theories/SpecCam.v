(** What samples and conditional means of causal additive models should be. *)
From Coq Require Import QArith.Qcanon.
From Verif Require Import Py Spec DagModel QMatModel GaussModel ScmModel CamModel PropertiesDag SpecScm.
#[local] Open Scope Qc_scope.

(** The nodes given to the constructor are those of the graph, without repetition. *)
Definition cam_wf (C : cam) : Prop :=
  views_agree (cm_dag C) ∧ acyclic (d_arcs (cm_dag C)) ∧ NoDup (cm_list C) ∧ ∀ v, v ∈ cm_list C ↔ v ∈ d_nodes (cm_dag C).
(** [c] is the sum of means and noise, each spread over [n] rows. *)
Definition noisy (n : nat) (means noise c : list Qc) : Prop :=
  ∃ mm nn, fills n (Vec means) mm ∧ fills n (Vec noise) nn ∧ c = zip_with Qcplus mm nn.
(** Every node is its mean given its parents, 0 for a node without parents, plus its noise. *)
Definition cam_solves (C : cam) (ord : node → list node) (n : nat) (m : columns) : Prop :=
  length m = length (cm_list C) ∧
  ∀ v, v ∈ d_nodes (cm_dag C) →
    ∃ cs means e noise c, Forall2 (column (cm_list C) m) (ord v) cs ∧
      (ord v = [] → means = replicate n 0) ∧
      (ord v ≠ [] → ∃ f, cm_mean C !! v = Some f ∧ f cs n (ord v) = Ok means) ∧
      cm_noise C !! v = Some e ∧ e n = Ok noise ∧ noisy n means noise c ∧ column (cm_list C) m v c.
(** The nodes [K] have the columns [vals]; every other node is its mean given its parents. *)
Definition mean_solves (C : cam) (ord : node → list node) (n : nat) (K : list node) (vals m : columns) : Prop :=
  length m = length (cm_list C) ∧
  (∀ i v x, K !! i = Some v → vals !! i = Some x → ∃ c, fills n (Vec x) c ∧ column (cm_list C) m v c) ∧
  ∀ v, v ∈ d_nodes (cm_dag C) → v ∉ K →
    ∃ cs f x c, Forall2 (column (cm_list C) m) (ord v) cs ∧ cm_mean C !! v = Some f ∧ f cs n (ord v) = Ok x ∧
      fills n (Vec x) c ∧ column (cm_list C) m v c.
(** A mean function that looks at the names of the parents and not at their order. *)
Definition by_name (f : columns → nat → list node → res (list Qc)) : Prop :=
  ∀ n cs cs' ps ps', length cs = length ps → length cs' = length ps' → zip ps cs ≡ₚ zip ps' cs' → f cs n ps = f cs' n ps'.
(** A mean function that is linear in the parents, with the weight [w p] of the parent [p] and the intercept [b]. *)
Definition dotted (w : node → Qc) (ps : list node) (cs : columns) (i : nat) : Qc :=
  foldr (λ (pc : node * list Qc) acc, w pc.1 * default 0 (pc.2 !! i) + acc) 0 (zip ps cs).
Definition linear_mean (f : columns → nat → list node → res (list Qc)) (w : node → Qc) (b : Qc) : Prop :=
  ∀ n cs ps, f cs n ps = Ok ((λ i, b + dotted w ps cs i) <$> seq 0 n).
(** The sum of a column, and the number [n] as a rational. *)
Definition total (c : list Qc) : Qc := foldr Qcplus 0 c.
Definition qn (n : nat) : Qc := Q2Qc (QArith_base.inject_Z (Z.of_nat n)).
