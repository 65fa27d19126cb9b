(** C78: [interventional_covariance] with at most one node that is not intervened on. *)
From Coq Require Import QArith.Qcanon.
From Verif Require Import Py Spec DagModel QMatModel GaussModel TopoProofs StateProofs QMatProofs PropertiesDag GaussProofs GaussLoops PropertiesGauss InvProofs.
#[local] Open Scope Qc_scope.

Lemma rem_length o g (iv : nset) : length (filter (λ v, v ∉ iv) (on o [137%nat] (d_nodes (g_dag g)))) = size (d_nodes (g_dag g) ∖ iv).
Proof.
  rewrite <-(size_list_to_set (C := nset)) by apply NoDup_filter, NoDup_on. f_equal. apply set_eq. intros v.
  rewrite elem_of_list_to_set, elem_of_list_filter, elem_of_on, elem_of_difference. tauto.
Qed.
(** With one node left the one entry is subtracted from every entry of the identity matrix; as it is 0, the result is the diagonal
    matrix of all variances, whatever the arcs are. *)
Theorem C78_one_left o inv g n (iv : nset) : inverts inv → gauss_wf g → g_list g = seq 0 n → acyclic (d_arcs (g_dag g)) →
  length (g_var g) = n → (2 ≤ n)%nat → size (d_nodes (g_dag g) ∖ iv) = 1%nat →
  ∃ s, interventional_covariance o inv g iv = Ok s ∧ meq n s (mdiag (vec_of (g_var g))).
Proof.
  intros Hinv Hg Hl Hac Hv Hn Hsz. unfold interventional_covariance. rewrite (lab_size g n Hg Hl), (lab_dim g n Hl).
  pose proof (rem_length o g iv) as Hlen. rewrite Hsz in Hlen.
  assert (∀ v, v ∈ filter (λ v, v ∉ iv) (on o [137%nat] (d_nodes (g_dag g))) → v < n)%nat as Hlt.
  { intros v [_ Hv'%elem_of_on]%elem_of_list_filter. by apply (lab_node g n Hg Hl). }
  revert Hlen Hlt. generalize (filter (λ v, v ∉ iv) (on o [137%nat] (d_nodes (g_dag g)))) as r. intros r Hlen Hlt.
  rewrite decide_True by (by apply Forall_forall). rewrite (decide_False (P := length r = n)) by lia. rewrite (decide_True (P := length r = 1%nat)) by done.
  destruct r as [|x [|]]; [done| |done]. cbn [lookup list_lookup default from_option id].
  assert (g_w g x x = 0) as H0.
  { assert (x < n)%nat as Hx by (apply Hlt; by left). rewrite <-(lab_weight g n Hg Hl) by done. pose proof Hg as (_ & _ & _ & _ & Hw).
    destruct (decide (weight g x x = 0)) as [|Hne]; [done|]. apply Hw in Hne. exfalso. eapply Hac. by apply tc_once. }
  assert (meq n (msub mid (λ _ _, g_w g x x)) mid) as Hm. { intros i j Hi Hj. unfold msub. rewrite H0. ring. }
  assert (is_inverse n (msub mid (λ _ _, g_w g x x)) mid) as Hid by (split; rewrite Hm; apply mmul_id_l).
  assert (meq n (inv n (msub mid (λ _ _, g_w g x x))) mid) as Hi by (eapply inverse_unique; [apply Hinv; by eexists|done]).
  destruct (decide (all_one (g_var g))) as [H1|H1].
  - eexists. split; [reflexivity|]. rewrite Hi, mT_id, mmul_id_l, <-mdiag_one. intros i j Hi' Hj. unfold mdiag. by rewrite (vec_of_one (g_var g)) by (done || lia).
  - rewrite decide_True by done. eexists. split; [reflexivity|]. by rewrite Hi, mT_id, mmul_id_l, mmul_id_r.
Qed.
(** With no node left the call raises. *)
Theorem C78_none_left o inv g n (iv : nset) : gauss_wf g → g_list g = seq 0 n → (2 ≤ n)%nat → d_nodes (g_dag g) ⊆ iv →
  interventional_covariance o inv g iv = Raise ValueError.
Proof.
  intros Hg Hl Hn Hiv. unfold interventional_covariance. rewrite (lab_size g n Hg Hl).
  pose proof (rem_length o g iv) as Hlen. replace (d_nodes (g_dag g) ∖ iv) with (∅ : nset) in Hlen by set_solver. rewrite size_empty in Hlen.
  apply nil_length_inv in Hlen as ->. rewrite decide_True by constructor. cbn [length]. rewrite !decide_False by lia. done.
Qed.
(** The hypotheses hold: two of three nodes, and all of them. *)
Example C78_one_left_example : inverts exact_inv ∧ ∃ g, gauss_make oracle0 [0; 1; 2]%nat [((0, 1)%nat, qz 2); ((1, 2)%nat, qz 3)] None (Some [qz 4; 1; qz 5]) = Ok g ∧
  gauss_wf g ∧ g_list g = seq 0 3 ∧ acyclic (d_arcs (g_dag g)) ∧ length (g_var g) = 3%nat ∧ size (d_nodes (g_dag g) ∖ {[0; 1]}%nat) = 1%nat ∧
  d_nodes (g_dag g) ⊆ {[0; 1; 2]}%nat.
Proof.
  split; [apply exact_inv_ok|].
  destruct (gauss_new_spec oracle0 [0; 1; 2]%nat [((0, 1)%nat, qz 2); ((1, 2)%nat, qz 3)] None (Some [qz 4; 1; qz 5])) as (g & Hg & Hwf & Hl & _).
  { by apply (bool_decide_unpack _). } { by apply (bool_decide_unpack _). }
  { intros e w. rewrite !elem_of_cons, elem_of_nil. intros [[= -> ->]|[[= -> ->]|[]]]; cbn; split; apply (bool_decide_unpack _); done. }
  assert (match gauss_make oracle0 [0; 1; 2]%nat [((0, 1)%nat, qz 2); ((1, 2)%nat, qz 3)] None (Some [qz 4; 1; qz 5]) with
    | Ok g => bool_decide (acyclic (d_arcs (g_dag g)) ∧ length (g_var g) = 3%nat ∧ size (d_nodes (g_dag g) ∖ {[0; 1]}%nat) = 1%nat ∧
       d_nodes (g_dag g) ⊆ {[0; 1; 2]}%nat) | _ => false end = true) as H by by_vm.
  rewrite Hg in H. apply bool_decide_eq_true in H. by exists g.
Qed.

Print Assumptions C78_one_left.
Print Assumptions C78_none_left.
