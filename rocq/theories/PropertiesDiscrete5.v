(** [get_marginal_dag] for discrete Bayesian networks. *)
From Coq Require Import QArith.Qcanon.
From Verif Require Import Py Spec DagModel QMatModel DiscreteModel SpecDiscrete TopoProofs StateProofs ReachProofs QueryProofs CoreProofs MarkovProofs QMatProofs PropertiesDag DiscreteProofs DiscreteElim PropertiesDiscrete PropertiesDiscrete2 PropertiesDiscrete4.
#[local] Open Scope Qc_scope.

(** ** C50: [get_marginal_dag] *)
(** Nodes with at most one child each: the result is a network over the other nodes with the marginal distribution. *)
Theorem C50_marginal_dag_one_child (o : oracle) (D : ddag) (ms : list node) :
  ddag_wf D → stochastic D → (∀ v, is_Some (dd_par D !! v) → v ∈ d_nodes (dd_dag D)) →
  NoDup ms → (∀ m, m ∈ ms → m ∈ d_nodes (dd_dag D)) →
  (∀ m c c', m ∈ ms → (m, c) ∈ d_arcs (dd_dag D) → (m, c') ∈ d_arcs (dd_dag D) → c = c') →
  ∃ D', get_marginal_dag o D ms = Ok D' ∧ ddag_wf D' ∧ stochastic D' ∧
    d_nodes (dd_dag D') = d_nodes (dd_dag D) ∖ list_to_set ms ∧ (∀ v, v ∉ ms → card D' v = card D v) ∧
    ∀ a, in_range D (elements (d_nodes (dd_dag D'))) a → joint D' a = marginal D (d_nodes (dd_dag D')) a.
Proof.
  intros Hwf Hst Hpar Hnd Hms Hone. unfold get_marginal_dag.
  set (f := λ m D', if decide (m ∈ d_nodes (dd_dag D')) then marginal_dag_node o D' m else Raise KeyError).
  assert (∀ (l : list node) D, ddag_wf D → stochastic D → (∀ v, is_Some (dd_par D !! v) → v ∈ d_nodes (dd_dag D)) → NoDup l → (∀ m, m ∈ l → m ∈ d_nodes (dd_dag D)) →
    (∀ m, m ∈ l → one_child D m) →
    ∃ D', loopR f l D = Ok D' ∧ ddag_wf D' ∧ stochastic D' ∧ d_nodes (dd_dag D') = d_nodes (dd_dag D) ∖ list_to_set l ∧ (∀ v, v ∉ l → card D' v = card D v) ∧
      ∀ a, (∀ v, v ∈ d_nodes (dd_dag D) → v ∉ l → (a !!! v < card D v)%nat) → joint D' a = sum_over D l (joint D) a) as H.
  { clear. induction l as [|m l IH]; intros D Hwf Hst Hpar Hnd Hl Hone.
    - exists D. split; [done|]. split; [done|]. split; [done|]. split; [cbn; set_solver|]. split; [done|]. done.
    - apply NoDup_cons in Hnd as [Hml Hnd]. assert (m ∈ d_nodes (dd_dag D)) as Hm by (apply Hl; by left).
      destruct (marg_main D Hwf Hst Hpar o m Hm (Hone m ltac:(by left))) as (D1 & E1 & Hwf1 & Hst1 & HN1 & Hpar1 & Hc1 & HA1 & Hj1).
      destruct (IH D1 Hwf1 Hst1) as (D' & E' & Hwf' & Hst' & HN' & Hc' & Hj').
      + by rewrite HN1.
      + done.
      + intros v Hv. rewrite HN1. assert (v ∈ d_nodes (dd_dag D)) by (apply Hl; by right). assert (v ≠ m) by (by intros ->). set_solver.
      + intros v Hv c c' (H1 & H2 & H3)%HA1 (H1' & H2' & H3')%HA1.
        assert (one_child D v) as Hov by (apply Hone; by right). assert (one_child D m) as Hom by (apply Hone; by left).
        destruct H3 as [H3|[H3 H4]], H3' as [H3'|[H3' H4']].
        * by apply (Hov c c').
        * destruct H2. by apply (Hov c m).
        * destruct H2'. by apply (Hov c' m).
        * by apply (Hom c c').
      + exists D'. split; [|split; [done|split; [done|split; [|split]]]].
        * cbn [loopR]. unfold f at 1. rewrite decide_True by done. by rewrite E1.
        * rewrite HN', HN1. cbn. set_solver.
        * intros v Hv. apply not_elem_of_cons in Hv as [Hvm Hvl]. rewrite Hc' by done. by apply Hc1.
        * intros a Ha. rewrite Hj'.
          2:{ intros v Hv Hvl. rewrite HN1 in Hv. apply elem_of_difference in Hv as [Hv Hvm]. rewrite elem_of_singleton in Hvm. rewrite Hc1 by done. apply Ha; [done|].
            by apply not_elem_of_cons. }
          rewrite (sum_over_card D D1) by (intros v Hv; apply Hc1; by intros ->).
          rewrite (sum_over_perm D (m :: l) (l ++ [m])); [|by constructor|by rewrite Permutation_app_comm].
          rewrite sum_over_app. apply sum_over_ext. intros b [Hb1 Hb2]. cbn [sum_over]. apply Hj1. intros v Hv Hvm.
          destruct (decide (v ∈ l)) as [Hvl|Hvl]; [by apply Hb2|]. rewrite Hb1 by done. apply Ha; [done|]. by apply not_elem_of_cons. }
  destruct (H (reverse ms) D Hwf Hst Hpar) as (D' & E & H1 & H2 & H3 & H4 & H5).
  - by rewrite reverse_Permutation.
  - intros m Hm. rewrite elem_of_reverse in Hm. exact (Hms m Hm).
  - intros m Hm. rewrite elem_of_reverse in Hm. intros c c'. exact (Hone m c c' Hm).
  - assert (list_to_set (reverse ms) = list_to_set ms :> nset) as Hrev by (apply set_eq; intros v; by rewrite !elem_of_list_to_set, elem_of_reverse).
    exists D'. split; [done|]. split; [done|]. split; [done|]. split; [by rewrite H3, Hrev|]. split; [intros v Hv; apply H4; by rewrite elem_of_reverse|].
    intros a Ha. rewrite H5.
    + unfold marginal. apply sum_over_perm; [by rewrite reverse_Permutation|]. apply NoDup_Permutation; [by rewrite reverse_Permutation|apply NoDup_elements|].
      intros v. rewrite elem_of_reverse, elem_of_elements, H3, Hrev, !elem_of_difference, elem_of_list_to_set. split.
      * intros Hv. split; [by apply Hms|]. tauto.
      * intros [H6 H7]. destruct (decide (v ∈ ms)); [done|]. destruct H7. tauto.
    + intros v Hv Hvm. apply Ha, elem_of_elements. rewrite H3, Hrev. apply elem_of_difference. split; [done|]. rewrite elem_of_list_to_set. by rewrite elem_of_reverse in Hvm.
Qed.
(** A node with two children: they come out independent although they are not. *)
Theorem C50_two_children_refuted :
  ∃ D D' a, ddag_wf D ∧ stochastic D ∧ no_tiny D ∧ get_marginal_dag oracle0 D [0]%nat = Ok D' ∧ d_nodes (dd_dag D') = {[1; 2]}%nat ∧
    in_range D (elements (d_nodes (dd_dag D'))) a ∧ joint D' a = qz 225 / qz 1000 ∧ marginal D (d_nodes (dd_dag D')) a = qz 85 / qz 1000.
Proof.
  destruct (proj1 (proj2 C80_example)) as (H1 & H2 & H3).
  set (a := list_to_map [(1, 1); (2, 0)]%nat : assignment).
  assert (match get_marginal_dag oracle0 ex_tree [0]%nat with
    | Ok D' => bool_decide (d_nodes (dd_dag D') = {[1; 2]}%nat ∧ joint D' a = qz 225 / qz 1000 ∧ marginal ex_tree {[1; 2]}%nat a = qz 85 / qz 1000)
    | Raise _ => false end = true) as H by (vm_compute; reflexivity).
  remember (get_marginal_dag oracle0 ex_tree [0]%nat) as r eqn:E. destruct r as [D'|]; [|discriminate H]. apply bool_decide_eq_true in H as (H4 & H5 & H6).
  exists ex_tree, D', a. split; [done|]. split; [done|]. split; [done|]. split; [by symmetry|]. split; [exact H4|]. rewrite H4.
  split; [|split; [exact H5|exact H6]].
  assert (Forall (λ v, (a !!! v < card ex_tree v)%nat) (elements ({[1; 2]}%nat : nset))) as HF by by_vm. rewrite Forall_forall in HF. exact HF.
Qed.
Example C50_example : (ddag_wf ex_ddag ∧ stochastic ex_ddag) ∧
  match get_marginal_dag oracle0 ex_ddag [1]%nat with
  | Ok D' => bool_decide (d_nodes (dd_dag D') = {[0; 2]}%nat ∧ joint D' (list_to_map [(0, 1); (2, 0)]%nat) = qz 415 / qz 1000) | Raise _ => false end = true.
Proof. split; [split; apply ex_ddag_ok|]. vm_compute. reflexivity. Qed.

Print Assumptions C50_marginal_dag_one_child.
Print Assumptions C50_two_children_refuted.
