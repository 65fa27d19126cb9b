(** C48: [set_node_bias] and [set_node_variance] of a [GaussDAG]. *)
From Coq Require Import QArith.Qcanon.
From Verif Require Import Py Spec DagModel QMatModel GaussModel.
From Verif Require Import TopoProofs StateProofs QMatProofs GaussProofs PropertiesDag PropertiesGauss.
#[local] Open Scope nat_scope.

(** The bias and the variance of a node: the entry at its position in the node list. *)
Definition bias_of (g : gauss) (v : node) : option Qc := a ← g_ix g !! v; g_bias g !! a.
Definition variance_of (g : gauss) (v : node) : option Qc := a ← g_ix g !! v; g_var g !! a.
(** Graph, node list and weights are the same. *)
Definition same_graph (g g' : gauss) : Prop :=
  d_nodes (g_dag g') = d_nodes (g_dag g) ∧ d_arcs (g_dag g') = d_arcs (g_dag g) ∧ g_list g' = g_list g ∧ ∀ x y, weight g' x y = weight g x y.

(** With the labels 0, ..., n-1 the setters change the entry of that node only. *)
Theorem C48_set_node_bias g n i b : gauss_wf g → g_list g = seq 0 n → length (g_bias g) = n → i ∈ g_list g →
  ∃ g', set_node_bias i b g = (g', Ok tt) ∧ gauss_wf g' ∧ same_graph g g' ∧ length (g_bias g') = n ∧
    (∀ v, v ∈ g_list g → bias_of g' v = if decide (v = i) then Some b else bias_of g v) ∧ ∀ v, variance_of g' v = variance_of g v.
Proof.
  intros Hg Hl Hb Hi. unfold set_node_bias. assert (i < n) as Hlt by (rewrite Hl in Hi; apply elem_of_seq in Hi; lia).
  rewrite decide_True by lia. eexists. split; [reflexivity|]. split; [exact Hg|]. split; [done|]. split; [by cbn; rewrite insert_length|]. split; [|done].
  intros v Hv. unfold bias_of. cbn [with_bias g_ix g_bias]. pose proof Hg as (_ & _ & _ & Hix & _).
  assert (g_ix g !! v = Some v) as Ha. { apply Hix. rewrite Hl in Hv |- *. apply elem_of_seq in Hv. apply lookup_seq. lia. }
  rewrite Ha. cbn. destruct (decide (v = i)) as [->|Hne]; [apply list_lookup_insert; lia|by rewrite list_lookup_insert_ne].
Qed.
Theorem C48_set_node_variance g n i x : gauss_wf g → g_list g = seq 0 n → length (g_var g) = n → i ∈ g_list g →
  ∃ g', set_node_variance i x g = (g', Ok tt) ∧ gauss_wf g' ∧ same_graph g g' ∧ length (g_var g') = n ∧
    (∀ v, v ∈ g_list g → variance_of g' v = if decide (v = i) then Some x else variance_of g v) ∧ ∀ v, bias_of g' v = bias_of g v.
Proof.
  intros Hg Hl Hb Hi. unfold set_node_variance. assert (i < n) as Hlt by (rewrite Hl in Hi; apply elem_of_seq in Hi; lia).
  rewrite decide_True by lia. eexists. split; [reflexivity|]. split; [exact Hg|]. split; [done|]. split; [by cbn; rewrite insert_length|]. split; [|done].
  intros v Hv. unfold variance_of. cbn [with_var g_ix g_var]. pose proof Hg as (_ & _ & _ & Hix & _).
  assert (g_ix g !! v = Some v) as Ha. { apply Hix. rewrite Hl in Hv |- *. apply elem_of_seq in Hv. apply lookup_seq. lia. }
  rewrite Ha. cbn. destruct (decide (v = i)) as [->|Hne]; [apply list_lookup_insert; lia|by rewrite list_lookup_insert_ne].
Qed.
(** With any labels: the setter changes the entry of the node at the position [i], if there is one, or raises. *)
Theorem C48_set_node_position g i b x : gauss_wf g → length (g_bias g) = length (g_list g) → length (g_var g) = length (g_list g) →
  (∀ w, g_list g !! i = Some w →
    ((set_node_bias i b g).2 = Ok tt ∧ ∀ v, v ∈ g_list g → bias_of (set_node_bias i b g).1 v = if decide (v = w) then Some b else bias_of g v) ∧
    ((set_node_variance i x g).2 = Ok tt ∧ ∀ v, v ∈ g_list g → variance_of (set_node_variance i x g).1 v = if decide (v = w) then Some x else variance_of g v)) ∧
  (g_list g !! i = None → set_node_bias i b g = (g, Raise IndexError) ∧ set_node_variance i x g = (g, Raise IndexError)).
Proof.
  intros (_ & Hnd & _ & Hix & _) Hb Hv. unfold set_node_bias, set_node_variance. rewrite Hb, Hv. split.
  - intros w Hw. pose proof (lookup_lt_Some _ _ _ Hw) as Hlt. rewrite !decide_True by done. cbn [fst snd].
    split; (split; [done|]); intros v [a Ha]%elem_of_list_lookup; unfold bias_of, variance_of; cbn [with_var with_bias g_ix g_var g_bias];
      rewrite (proj2 (Hix v a) Ha); cbn; (destruct (decide (v = w)) as [->|Hne];
        [rewrite (NoDup_lookup _ _ _ _ Hnd Ha Hw); apply list_lookup_insert; lia|rewrite list_lookup_insert_ne; [done|intros ->; congruence]]).
  - intros Hw%lookup_ge_None. by rewrite !decide_False by lia.
Qed.
(** So for other labels the bias of a different node changes. *)
Theorem C48_set_bias_refuted : ∃ g, gauss_make oracle0 [1; 0] [((0, 1), 1%Qc)] None None = Ok g ∧
  bias_of (set_node_bias 0 (qz 5) g).1 0 = bias_of g 0 ∧ bias_of (set_node_bias 0 (qz 5) g).1 1 = Some (qz 5).
Proof.
  assert (match gauss_make oracle0 [1; 0] [((0, 1), 1%Qc)] None None with
    | Ok g => bool_decide (bias_of (set_node_bias 0 (qz 5) g).1 0 = bias_of g 0 ∧ bias_of (set_node_bias 0 (qz 5) g).1 1 = Some (qz 5)) | _ => false end = true) as H by by_vm.
  destruct (gauss_make oracle0 [1; 0] [((0, 1), 1%Qc)] None None) as [g|]; [|done]. apply bool_decide_eq_true in H. by exists g.
Qed.
(** The hypotheses of the theorems hold for a graph with three nodes. *)
Example C48_set_node_example : ∃ g, gauss_make oracle0 [0; 1; 2] [((2, 1), qz 2); ((2, 0), qz (-1))] None None = Ok g ∧ gauss_wf g ∧ g_list g = seq 0 3 ∧
  length (g_bias g) = 3 ∧ length (g_var g) = 3 ∧ bias_of (set_node_bias 2 (qz 5) g).1 2 = Some (qz 5).
Proof.
  destruct C48_example as (g & Hg & Hwf & Hl & _). exists g. split; [exact Hg|]. split; [done|]. split; [done|].
  assert (match gauss_make oracle0 [0; 1; 2] [((2, 1), qz 2); ((2, 0), qz (-1))] None None with
    | Ok g => bool_decide (length (g_bias g) = 3 ∧ length (g_var g) = 3 ∧ bias_of (set_node_bias 2 (qz 5) g).1 2 = Some (qz 5)) | _ => false end = true) as H by by_vm.
  rewrite Hg in H. by apply bool_decide_eq_true in H.
Qed.

Print Assumptions C48_set_node_bias.
Print Assumptions C48_set_node_variance.
Print Assumptions C48_set_node_position.
Print Assumptions C48_set_bias_refuted.
