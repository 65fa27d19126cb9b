(** C78: [interventional_covariance] without interventions. *)
From Coq Require Import QArith.Qcanon.
From Verif Require Import Py Spec DagModel QMatModel GaussModel TopoProofs StateProofs QMatProofs PropertiesDag GaussProofs GaussLoops PropertiesGauss InvProofs InvProofs.
#[local] Open Scope Qc_scope.

(** If no node of the graph is intervened on and the set of nodes is iterated in the order of the node list, the result is
    the covariance matrix. *)
Theorem C78_no_intervention o inv g n (iv : nset) : inverts inv → gauss_wf g → g_list g = seq 0 n → acyclic (d_arcs (g_dag g)) →
  length (g_var g) = n → iv ∩ d_nodes (g_dag g) = ∅ → on o [137%nat] (d_nodes (g_dag g)) = seq 0 n →
  ∃ s s', interventional_covariance o inv g iv = Ok s ∧ covariance_of inv g = Ok s' ∧ meq n s s'.
Proof.
  intros Hinv Hg Hl Hac Hv Hiv Hon. unfold interventional_covariance, covariance_of. rewrite (lab_size g n Hg Hl), (lab_dim g n Hl).
  assert (filter (λ v, v ∉ iv) (on o [137%nat] (d_nodes (g_dag g))) = seq 0 n) as ->.
  { rewrite Hon. assert (∀ v, v ∈ seq 0 n → v ∉ iv) as H.
    { intros v Hv' Hi. rewrite <-Hon, elem_of_on in Hv'. set_solver. }
    clear -H. induction (seq 0 n) as [|v l IH]; [done|]. rewrite filter_cons_True by (apply H; by left). f_equal. apply IH. intros w Hw. apply H. by right. }
  rewrite seq_length. rewrite decide_True. 2: { apply Forall_forall. intros v Hv'. apply elem_of_seq in Hv'. lia. }
  rewrite !(decide_True (P := n = n)) by done.
  set (a := λ i j : nat, g_w g (default O (seq 0 n !! i)) (default O (seq 0 n !! j))).
  assert (meq n a (g_w g)) as Ha. { intros i j Hi Hj. unfold a. by rewrite !lookup_seq_lt by done. }
  assert (meq n (msub mid a) (msub mid (g_w g))) as Hb by (by rewrite Ha).
  destruct (C46_invertible g Hg Hac) as [V HV]. rewrite (lab_dim g n Hl) in HV.
  assert (is_inverse n (msub mid a) V) as HVa by (eapply inverse_proper; [symmetry; exact Hb|reflexivity|exact HV]).
  assert (meq n (inv n (msub mid a)) (inv n (msub mid (g_w g)))) as Hi.
  { transitivity V; [|symmetry]; (eapply inverse_unique; [apply Hinv; by eexists|done]). }
  rewrite ?(decide_True (P := n = n)) by done. destruct (decide (all_one (g_var g))).
  - eexists _, _. split; [reflexivity|]. split; [reflexivity|]. by rewrite Hi.
  - rewrite !(decide_True (P := length (g_var g) = n)) by done. eexists _, _. split; [reflexivity|]. split; [reflexivity|]. by rewrite Hi.
Qed.
(** In another iteration order rows and columns are in that order but the variances are not, so the result is not
    even the covariance in another order of the nodes: here no node has the variance 2. *)
Theorem C78_order_refuted : ∃ g (s S' : mat), gauss_make oracle0 [0; 1]%nat [((0, 1)%nat, 1)] None (Some [1; qz 2]) = Ok g ∧
  interventional_covariance oracle_rev exact_inv g ∅ = Ok s ∧ covariance_of exact_inv g = Ok S' ∧
  s 1%nat 1%nat = qz 2 ∧ S' 0%nat 0%nat ≠ qz 2 ∧ S' 1%nat 1%nat ≠ qz 2.
Proof.
  assert (match gauss_make oracle0 [0; 1]%nat [((0, 1)%nat, 1)] None (Some [1; qz 2]) with
    | Ok g => match interventional_covariance oracle_rev exact_inv g ∅, covariance_of exact_inv g with
      | Ok s, Ok S' => bool_decide (s 1%nat 1%nat = qz 2 ∧ S' 0%nat 0%nat ≠ qz 2 ∧ S' 1%nat 1%nat ≠ qz 2) | _, _ => false end
    | _ => false end = true) as H by by_vm.
  destruct (gauss_make _ _ _ _ _) as [g|]; [|done]. exists g. destruct (interventional_covariance _ _ _ _) as [s|]; [|done].
  destruct (covariance_of _ _) as [S'|]; [|done]. apply bool_decide_eq_true in H. by exists s, S'.
Qed.
(** The hypotheses of [C78_no_intervention] hold. *)
Example C78_no_intervention_example : inverts exact_inv ∧ ∃ g, gauss_make oracle0 [0; 1; 2]%nat [((0, 1)%nat, qz 2); ((1, 2)%nat, qz 3)] None None = Ok g ∧
  gauss_wf g ∧ g_list g = seq 0 3 ∧ acyclic (d_arcs (g_dag g)) ∧ length (g_var g) = 3%nat ∧ (∅ : nset) ∩ d_nodes (g_dag g) = ∅ ∧
  on oracle0 [137%nat] (d_nodes (g_dag g)) = seq 0 3.
Proof.
  split; [apply exact_inv_ok|].
  destruct (gauss_new_spec oracle0 [0; 1; 2]%nat [((0, 1)%nat, qz 2); ((1, 2)%nat, qz 3)] None None) as (g & Hg & Hwf & Hl & _).
  { by apply (bool_decide_unpack _). } { by apply (bool_decide_unpack _). }
  { intros e w. rewrite !elem_of_cons, elem_of_nil. intros [[= -> ->]|[[= -> ->]|[]]]; cbn; split; apply (bool_decide_unpack _); done. }
  assert (match gauss_make oracle0 [0; 1; 2]%nat [((0, 1)%nat, qz 2); ((1, 2)%nat, qz 3)] None None with
    | Ok g => bool_decide (acyclic (d_arcs (g_dag g)) ∧ length (g_var g) = 3%nat ∧ (∅ : nset) ∩ d_nodes (g_dag g) = ∅ ∧
       on oracle0 [137%nat] (d_nodes (g_dag g)) = seq 0 3) | _ => false end = true) as H by by_vm.
  rewrite Hg in H. apply bool_decide_eq_true in H. by exists g.
Qed.

Print Assumptions C78_no_intervention.
Print Assumptions C78_order_refuted.
