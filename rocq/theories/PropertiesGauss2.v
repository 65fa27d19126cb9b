(** Final theorems about [GaussDAG]: C76 to C79. *)
From Coq Require Import QArith.Qcanon.
From Verif Require Import Py Spec DagModel QMatModel GaussModel TopoProofs StateProofs ReachProofs CoreProofs MarkovProofs QMatProofs PropertiesDag GaussProofs GaussLoops PropertiesGauss.
#[local] Open Scope Qc_scope.

(** A solution of the structural equations is determined by the noise. *)
Lemma solution_unique (g : gauss) n (iv : nset) (eps x y : vec) :
  gauss_wf g → g_list g = seq 0 n → acyclic (d_arcs (g_dag g)) →
  (∀ v, (v < n)%nat → x v = eps v + if decide (v ∈ iv) then 0 else qsum n (λ u, weight g u v * x u)) →
  (∀ v, (v < n)%nat → y v = eps v + if decide (v ∈ iv) then 0 else qsum n (λ u, weight g u v * y u)) →
  ∀ v, (v < n)%nat → x v = y v.
Proof.
  intros Hg Hl Hac Hx Hy. pose proof (lab_wf g Hg) as Hwf.
  destruct (exists_topo (d_nodes (g_dag g)) (d_arcs (g_dag g)) Hac) as (t & Hnd & Hin & Hord). { intros a b H. by apply (wf_over _ Hwf). }
  assert (∀ k v, t !! k = Some v → x v = y v) as H.
  { intros k. induction (lt_wf k) as [k _ IH]. intros v Hv. assert (v < n)%nat as Hvn.
    { apply (lab_node g n Hg Hl), Hin. by eapply elem_of_list_lookup_2. }
    rewrite Hx, Hy by done. f_equal. case_decide; [done|]. apply qsum_ext. intros u Hu. destruct (decide (weight g u v = 0)) as [->|Hne]; [ring|].
    f_equal. destruct Hg as (Hva & Hnd' & HN & Hix & HA). apply HA in Hne. assert (u ∈ t) as [k' Hk']%elem_of_list_lookup.
    { apply Hin. by apply (wf_over _ Hwf) in Hne as [? _]. }
    eapply IH; [|exact Hk']. by eapply Hord. }
  intros v Hv. apply (lab_node g n Hg Hl), Hin, elem_of_list_lookup in Hv as [k Hk]. by eapply H.
Qed.

(** ** C76: sampling *)

(** Given the noise, the sample is the solution of the structural equations in which the
    intervened nodes keep the value drawn for them. *)
Theorem C76_sample (o : oracle) (g : gauss) (n : nat) (iv : nset) (eps : vec) :
  gauss_wf g → g_list g = seq 0 n → acyclic (d_arcs (g_dag g)) →
  ∃ x, sample_row o g iv eps = Ok x ∧
    (∀ v, (v < n)%nat → x v = eps v + if decide (v ∈ iv) then 0 else qsum n (λ u, weight g u v * x u)) ∧
    ∀ y, (∀ v, (v < n)%nat → y v = eps v + if decide (v ∈ iv) then 0 else qsum n (λ u, weight g u v * y u)) →
      ∀ v, (v < n)%nat → x v = y v.
Proof.
  intros Hg Hl Hac. pose proof (lab_wf g Hg) as Hwf. unfold sample_row.
  pose proof (topological_sort_spec (g_dag g) o Hwf) as Ht. destruct (topological_sort (g_dag g) o) as [t|e]; cycle 1.
  { destruct Ht as (w & _ & Hw). by apply closes_cycle_not_acyclic in Hw. }
  cbn [res_bind]. destruct Ht as (Hnd & Hin & Hord). rewrite (lab_dim g n Hl).
  set (f := λ (v : node) (x : vec), eps v + if decide (v ∈ iv) then 0 else qsum n (λ u, g_w g u v * x u)).
  assert (∀ v, v ∈ t → (v < n)%nat) as Hr by (intros v Hv; by apply (lab_node g n Hg Hl), Hin).
  rewrite (loopR_foldl _ (λ v x, vupd x v (f v x))); cycle 1.
  { intros v x Hv. apply Hr in Hv. assert (g_ix g !! v = Some v) as -> by (by apply (lab_ix g n Hg Hl)). unfold f.
    pose proof (lab_dot g n Hg Hl o [133%nat; v] v x Hv) as Hdot. destruct (decide (v ∈ iv)) as [Hi|Hi].
    { rewrite decide_False by tauto. do 2 f_equal. ring. }
    destruct (decide (parents (g_dag g) v = ∅)) as [He|He].
    - rewrite decide_False by tauto. do 2 f_equal. rewrite qsum_zero; [ring|]. intros u Hu. destruct (decide (g_w g u v = 0)) as [->|Hne]; [ring|].
      assert (u ∈ parents (g_dag g) v) as Hp by (by apply (lab_parents g n Hg Hl)). rewrite He in Hp. by apply elem_of_empty in Hp.
    - rewrite decide_True by tauto. destruct (ixs_of g (on o [133%nat; v] (parents (g_dag g) v))); [|done]. cbn [res_bind] in *. injection Hdot as ->.
      rewrite decide_True by done. do 2 f_equal. ring. }
  set (x := foldl _ _ _). exists x. split; [done|].
  assert (∀ v, (v < n)%nat → x v = eps v + if decide (v ∈ iv) then 0 else qsum n (λ u, weight g u v * x u)) as HX.
  { intros v Hv. unfold x. rewrite (topo_loop (d_arcs (g_dag g)) t f) at 1; [|done|done| |by apply Hin, (lab_node g n Hg Hl)].
    - unfold f at 1. f_equal. case_decide; [done|]. apply qsum_ext. intros u Hu. by rewrite (lab_weight g n Hg Hl).
    - intros w y z Hw%Hr Hyz. unfold f. f_equal. case_decide; [done|]. apply qsum_ext. intros u Hu. destruct (decide (g_w g u w = 0)) as [->|Hne]; [ring|].
      rewrite Hyz; [done|]. pose proof Hg as (_ & _ & _ & _ & HA). apply HA. by rewrite (lab_weight g n Hg Hl). }
  split; [done|]. intros y HY v Hv. by apply (solution_unique g n iv eps x y).
Qed.

(** A cyclic graph cannot be sampled. *)
Theorem C76_sample_cyclic (o : oracle) (g : gauss) (iv : nset) (eps : vec) :
  gauss_wf g → ¬ acyclic (d_arcs (g_dag g)) → ∃ w, sample_row o g iv eps = Raise (CycleError w).
Proof.
  intros Hg Hc. pose proof (lab_wf g Hg) as Hwf. unfold sample_row.
  pose proof (topological_sort_spec (g_dag g) o Hwf) as Ht. destruct (topological_sort (g_dag g) o) as [t|e].
  - destruct Hc. eapply topo_order_acyclic; [apply Hwf|exact Ht].
  - destruct Ht as (w & -> & _). by exists w.
Qed.

(** Counterfactuals: the same noise, with the intervened nodes set. *)
Theorem C76_counterfactual (o : oracle) (g : gauss) (n : nat) (iv : gmap node Qc) (x : vec) :
  gauss_wf g → g_list g = seq 0 n → acyclic (d_arcs (g_dag g)) →
  ∃ y, counterfactual_row o g iv x = Ok y ∧ ∀ v, (v < n)%nat →
    match iv !! v with
    | Some c => y v = c
    | None => y v - qsum n (λ u, weight g u v * y u) = x v - qsum n (λ u, weight g u v * x u)
    end.
Proof.
  intros Hg Hl Hac. pose proof (lab_wf g Hg) as Hwf. unfold counterfactual_row.
  pose proof (topological_sort_spec (g_dag g) o Hwf) as Ht. destruct (topological_sort (g_dag g) o) as [t|e]; cycle 1.
  { destruct Ht as (w & _ & Hw). by apply closes_cycle_not_acyclic in Hw. }
  cbn [res_bind]. destruct Ht as (Hnd & Hin & Hord). rewrite (lab_dim g n Hl).
  set (eps := λ a, qsum n (λ k, x k * msub mid (g_w g) k a)).
  set (f := λ (v : node) (y : vec), match iv !! v with Some c => c | None => qsum n (λ u, g_w g u v * y u) + eps v end).
  assert (∀ v, v ∈ t → (v < n)%nat) as Hr by (intros v Hv; by apply (lab_node g n Hg Hl), Hin).
  rewrite (loopR_foldl _ (λ v y, vupd y v (f v y))); cycle 1.
  { intros v y Hv. apply Hr in Hv. assert (g_ix g !! v = Some v) as -> by (by apply (lab_ix g n Hg Hl)). unfold f.
    destruct (iv !! v) as [c|]; [done|]. pose proof (lab_dot g n Hg Hl o [134%nat; v] v y Hv) as Hdot.
    destruct (ixs_of g (on o [134%nat; v] (parents (g_dag g) v))); [|done]. cbn [res_bind] in *. injection Hdot as ->.
    by rewrite decide_True by done. }
  set (y := foldl _ _ _). exists y. split; [done|]. intros v Hv.
  assert (y v = f v y) as HY.
  { unfold y. apply (topo_loop (d_arcs (g_dag g)) t f); [done|done| |by apply Hin, (lab_node g n Hg Hl)].
    intros w a b Hw%Hr Hab. unfold f. destruct (iv !! w); [done|]. f_equal. apply qsum_ext. intros u Hu. destruct (decide (g_w g u w = 0)) as [->|Hne]; [ring|].
    rewrite Hab; [done|]. pose proof Hg as (_ & _ & _ & _ & HA). apply HA. by rewrite (lab_weight g n Hg Hl). }
  unfold f in HY at 1. destruct (iv !! v); [done|]. rewrite HY at 1.
  assert (eps v = x v - qsum n (λ u, weight g u v * x u)) as ->.
  { unfold eps. transitivity (qsum n (λ k, x k * mid k v) - qsum n (λ u, weight g u v * x u)).
    - rewrite <-qsum_sub. apply qsum_ext. intros k Hk. unfold msub. rewrite (lab_weight g n Hg Hl) by done. ring.
    - f_equal. unfold mid. rewrite (qsum_one n _ v); [rewrite decide_True by done; ring|done|]. intros k _ Hk. rewrite decide_False by done. ring. }
  assert (qsum n (λ u, g_w g u v * y u) = qsum n (λ u, weight g u v * y u)) as ->; [|ring].
  apply qsum_ext. intros u Hu. by rewrite (lab_weight g n Hg Hl).
Qed.
(** Without an intervention nothing changes. *)
Theorem C76_counterfactual_consistent (o : oracle) (g : gauss) (n : nat) (x : vec) :
  gauss_wf g → g_list g = seq 0 n → acyclic (d_arcs (g_dag g)) →
  ∃ y, counterfactual_row o g ∅ x = Ok y ∧ ∀ v, (v < n)%nat → y v = x v.
Proof.
  intros Hg Hl Hac. destruct (C76_counterfactual o g n ∅ x Hg Hl Hac) as (y & Hy & H). exists y. split; [done|].
  apply (solution_unique g n ∅ (λ v, x v - qsum n (λ u, weight g u v * x u))); [done..| |].
  - intros v Hv. specialize (H v Hv). rewrite lookup_empty in H. rewrite decide_False by apply not_elem_of_empty. rewrite <-H. ring.
  - intros v Hv. rewrite decide_False by apply not_elem_of_empty. ring.
Qed.

(** With other labels the claim fails: for the node list [1; 0] and the arc 1 -> 0 with
    weight 5 the sample does not depend on the parent. *)
Theorem C76_sample_labels_refuted :
  ∃ g x, gauss_wf g ∧ acyclic (d_arcs (g_dag g)) ∧ g_list g = [1; 0]%nat ∧ weight g 1%nat 0%nat = qz 5 ∧
    sample_row oracle0 g ∅ (λ _, 1) = Ok x ∧ x 0%nat = 1 ∧ x 1%nat = 1.
Proof.
  destruct (gauss_new_spec oracle0 [1; 0]%nat [((1, 0)%nat, qz 5)] None None) as (g & Hg & Hwf & Hl & _).
  { by apply (bool_decide_unpack _). } { by apply (bool_decide_unpack _). }
  { intros e w. rewrite !elem_of_cons, elem_of_nil. intros [[= -> ->]|[]]; cbn; split; apply (bool_decide_unpack _); done. }
  assert (match gauss_make oracle0 [1; 0]%nat [((1, 0)%nat, qz 5)] None None with
    | Ok g => bool_decide (acyclic (d_arcs (g_dag g)) ∧ weight g 1%nat 0%nat = qz 5) &&
       match sample_row oracle0 g ∅ (λ _, 1) with Ok x => bool_decide (x 0%nat = 1 ∧ x 1%nat = 1) | Raise _ => false end
    | Raise _ => false end = true) as H by by_vm.
  rewrite Hg in H. apply andb_prop in H as [H1 H2]. apply bool_decide_eq_true in H1 as [? ?].
  destruct (sample_row oracle0 g ∅ (λ _, 1)) as [x|] eqn:E; [|done]. apply bool_decide_eq_true in H2 as [? ?]. exists g, x. by do 6 (split; [done|]).
Qed.

Example C76_example : ∃ g x y, gauss_make oracle0 [0; 1; 2]%nat [((2, 1)%nat, qz 2); ((1, 0)%nat, qz (-1))] None None = Ok g ∧
  gauss_wf g ∧ g_list g = seq 0 3 ∧ acyclic (d_arcs (g_dag g)) ∧
  sample_row oracle0 g {[1%nat]} (λ v, if decide (v = 2)%nat then qz 3 else 1) = Ok x ∧ x 0%nat = 0 ∧
  counterfactual_row oracle0 g {[1%nat := qz 7]} x = Ok y ∧ y 0%nat = qz (-6).
Proof.
  destruct (gauss_new_spec oracle0 [0; 1; 2]%nat [((2, 1)%nat, qz 2); ((1, 0)%nat, qz (-1))] None None) as (g & Hg & Hwf & Hl & _).
  { by apply (bool_decide_unpack _). } { by apply (bool_decide_unpack _). }
  { intros e w. rewrite !elem_of_cons, elem_of_nil. intros [[= -> ->]|[[= -> ->]|[]]]; cbn; split; apply (bool_decide_unpack _); done. }
  assert (match gauss_make oracle0 [0; 1; 2]%nat [((2, 1)%nat, qz 2); ((1, 0)%nat, qz (-1))] None None with
    | Ok g => bool_decide (acyclic (d_arcs (g_dag g))) &&
       match sample_row oracle0 g {[1%nat]} (λ v, if decide (v = 2)%nat then qz 3 else 1) with Ok x => bool_decide (x 0%nat = 0) &&
        match counterfactual_row oracle0 g {[1%nat := qz 7]} x with Ok y => bool_decide (y 0%nat = qz (-6)) | Raise _ => false end | Raise _ => false end
    | Raise _ => false end = true) as H by by_vm.
  rewrite Hg in H. apply andb_prop in H as [H1 H2]. apply bool_decide_eq_true in H1.
  destruct (sample_row oracle0 g _ _) as [x|] eqn:E; [|done]. apply andb_prop in H2 as [H2 H3]. apply bool_decide_eq_true in H2.
  destruct (counterfactual_row oracle0 g _ x) as [y|] eqn:E'; [|done]. apply bool_decide_eq_true in H3. exists g, x, y. by do 7 (split; [done|]).
Qed.

(** ** C77: log-density *)

(** [logpdf] adds the normal log-densities of the residuals [x_v - sum_u w(u, v) x_u] with the variances of the nodes. *)
Theorem C77_logpdf_terms (o : oracle) (g : gauss) (n : nat) (x : vec) :
  gauss_wf g → g_list g = seq 0 n → acyclic (d_arcs (g_dag g)) → length (g_var g) = n →
  ∃ t, t ≡ₚ seq 0 n ∧
    logpdf_terms o g x = Ok ((λ v, (x v - qsum n (λ u, weight g u v * x u), vec_of (g_var g) v)) <$> t).
Proof.
  intros Hg Hl Hac Hv. pose proof (lab_wf g Hg) as Hwf. unfold logpdf_terms.
  pose proof (topological_sort_spec (g_dag g) o Hwf) as Ht. destruct (topological_sort (g_dag g) o) as [t|e]; cycle 1.
  { destruct Ht as (w & _ & Hw). by apply closes_cycle_not_acyclic in Hw. }
  cbn [res_bind]. destruct Ht as (Hnd & Hin & _). rewrite (lab_dim g n Hl). exists t. split.
  { apply NoDup_Permutation; [done|apply NoDup_seq|]. intros v. rewrite Hin, (lab_node g n Hg Hl), elem_of_seq. lia. }
  assert (∀ v, v ∈ t → (v < n)%nat) as Hr by (intros v Hx; by apply (lab_node g n Hg Hl), Hin).
  rewrite (loopR_foldl _ (λ v acc, acc ++ [(x v - qsum n (λ u, weight g u v * x u), vec_of (g_var g) v)])).
  - f_equal. generalize t. clear. intros t. assert (∀ acc, foldl (λ y a, y ++ [(x a - qsum n (λ u, weight g u a * x u), vec_of (g_var g) a)]) acc t
      = acc ++ ((λ v, (x v - qsum n (λ u, weight g u v * x u), vec_of (g_var g) v)) <$> t)) as H; [|apply H].
    induction t as [|v t IH]; intros acc; cbn; [by rewrite app_nil_r|]. by rewrite IH, <-app_assoc.
  - intros v acc Hx. apply Hr in Hx. assert (g_ix g !! v = Some v) as -> by (by apply (lab_ix g n Hg Hl)).
    pose proof (lab_dot g n Hg Hl o [135%nat; v] v x Hx) as Hdot.
    destruct (ixs_of g (on o [135%nat; v] (parents (g_dag g) v))); [|done]. cbn [res_bind] in *. injection Hdot as ->.
    rewrite decide_False by lia. assert (is_Some (g_var g !! v)) as [s Hs] by (apply lookup_lt_is_Some; lia). unfold vec_of. rewrite Hs. cbn.
    do 5 f_equal. apply qsum_ext. intros u Hu. by rewrite (lab_weight g n Hg Hl).
Qed.
(** The noise that [sample] draws for node [v] has mean [bias_v], so the residual of a sample must be centred at
    [bias_v]: correct when all biases are 0. *)
Theorem C77_logpdf_unbiased (o : oracle) (g : gauss) (n : nat) (eps x : vec) :
  gauss_wf g → g_list g = seq 0 n → acyclic (d_arcs (g_dag g)) → length (g_var g) = n → (∀ v, vec_of (g_bias g) v = 0) →
  sample_row o g ∅ eps = Ok x →
  ∃ t, t ≡ₚ seq 0 n ∧ logpdf_terms o g x = Ok ((λ v, (eps v - vec_of (g_bias g) v, vec_of (g_var g) v)) <$> t).
Proof.
  intros Hg Hl Hac Hv Hb Hx. destruct (C77_logpdf_terms o g n x Hg Hl Hac Hv) as (t & Ht & ->). exists t. split; [done|]. f_equal.
  destruct (C76_sample o g n ∅ eps Hg Hl Hac) as (x' & Hx' & Heq & _). rewrite Hx in Hx'. injection Hx' as <-.
  apply list_fmap_ext. intros i v Hvi. assert (v < n)%nat as Hvn. { apply elem_of_list_lookup_2 in Hvi. rewrite Ht, elem_of_seq in Hvi. lia. }
  f_equal. rewrite Hb. rewrite (Heq v Hvn) at 1. rewrite decide_False by apply not_elem_of_empty. ring.
Qed.
(** With a bias the claim fails: the sample drawn with the mean noise does not get the density of a zero deviation. *)
Theorem C77_logpdf_bias_refuted :
  ∃ g x, gauss_wf g ∧ acyclic (d_arcs (g_dag g)) ∧ sample_row oracle0 g ∅ (vec_of (g_bias g)) = Ok x ∧
    logpdf_terms oracle0 g x = Ok [(qz 5, 1)].
Proof.
  destruct (gauss_new_spec oracle0 [0]%nat [] (Some [qz 5]) None) as (g & Hg & Hwf & Hl & _).
  { by apply (bool_decide_unpack _). } { by apply (bool_decide_unpack _). } { intros e w H. by apply elem_of_nil in H. }
  assert (match gauss_make oracle0 [0]%nat [] (Some [qz 5]) None with
    | Ok g => bool_decide (acyclic (d_arcs (g_dag g))) &&
       match sample_row oracle0 g ∅ (vec_of (g_bias g)) with Ok x => bool_decide (logpdf_terms oracle0 g x = Ok [(qz 5, 1)]) | Raise _ => false end
    | Raise _ => false end = true) as H by by_vm.
  rewrite Hg in H. apply andb_prop in H as [H1 H2]. apply bool_decide_eq_true in H1.
  destruct (sample_row oracle0 g ∅ (vec_of (g_bias g))) as [x|] eqn:E; [|done]. apply bool_decide_eq_true in H2. exists g, x. by do 3 (split; [done|]).
Qed.

(** ** C78: interventional graphs *)

Lemma pick_ok l new order : (∀ v, v ∈ order → new !! v = None → (v < length l)%nat) →
  pick l new order = Ok ((λ v, default (vec_of l v) (new !! v)) <$> order).
Proof.
  intros H. unfold pick. rewrite (loopR_foldl _ (λ v acc, acc ++ [default (vec_of l v) (new !! v)])).
  - f_equal. assert (∀ acc, foldl (λ y a, y ++ [default (vec_of l a) (new !! a)]) acc order = acc ++ ((λ v, default (vec_of l v) (new !! v)) <$> order)) as HH; [|apply HH].
    clear. induction order as [|v t IH]; intros acc; cbn; [by rewrite app_nil_r|]. by rewrite IH, <-app_assoc.
  - intros v acc Hv. destruct (new !! v) as [c|] eqn:E; [done|]. cbn. pose proof (H v Hv E) as [c Hc]%lookup_lt_is_Some. unfold vec_of. by rewrite Hc.
Qed.

(** [interventional_dag] removes exactly the arcs into intervened nodes, keeps the other
    weights, and replaces the biases and variances of the intervened nodes. *)
Theorem C78_interventional_dag (o : oracle) (g : gauss) (n : nat) (iv : gmap node (Qc * Qc)) :
  gauss_wf g → g_list g = seq 0 n → length (g_bias g) = n → length (g_var g) = n →
  on o [136%nat] (d_nodes (g_dag g)) = seq 0 n →
  ∃ g', interventional_dag o g iv = Ok g' ∧ gauss_wf g' ∧ g_list g' = seq 0 n ∧
    (∀ i j, weight g' i j = match iv !! j with Some _ => 0 | None => weight g i j end) ∧
    (∀ i j, (i, j) ∈ d_arcs (g_dag g') ↔ (i, j) ∈ d_arcs (g_dag g) ∧ iv !! j = None) ∧
    (∀ v, (v < n)%nat → g_bias g' !! v = Some match iv !! v with Some t => t.1 | None => vec_of (g_bias g) v end) ∧
    (∀ v, (v < n)%nat → g_var g' !! v = Some match iv !! v with Some t => t.2 | None => vec_of (g_var g) v end).
Proof.
  intros Hg Hl Hb Hv Ho. unfold interventional_dag. destruct (arc_weights_ok o g n Hg Hl) as (ws & -> & Hnd & Hws). cbn [res_bind]. rewrite Ho.
  rewrite !pick_ok by (intros v Hx%elem_of_seq _; lia). cbn [res_bind].
  set (ws' := filter (λ a : arc * Qc, iv !! a.1.2 = None) ws).
  assert (NoDup (ws'.*1)) as Hnd'.
  { unfold ws'. apply NoDup_fmap_2_strong; [|eapply NoDup_filter, NoDup_fmap_1; exact Hnd]. intros [e1 w1] [e2 w2] H1 H2 He. cbn in He. subst e2. f_equal.
    apply elem_of_list_filter in H1 as [_ H1], H2 as [_ H2]. destruct e1 as [i j]. apply Hws in H1 as [_ ->], H2 as [_ ->]. done. }
  assert (∀ i j w, ((i, j), w) ∈ ws' ↔ (i, j) ∈ d_arcs (g_dag g) ∧ iv !! j = None ∧ w = weight g i j) as Hws'.
  { intros i j w. unfold ws'. rewrite elem_of_list_filter, Hws. cbn. tauto. }
  destruct (gauss_new_spec o (seq 0 n) ws' (Some ((λ v, default (vec_of (g_bias g) v) ((fst <$> iv) !! v)) <$> seq 0 n))
    (Some ((λ v, default (vec_of (g_var g) v) ((snd <$> iv) !! v)) <$> seq 0 n))) as (g' & -> & Hwf & Hl' & Hw & Hv' & Hb' & _); [apply NoDup_seq|done| |].
  { intros [i j] w (H & _)%Hws'. cbn. pose proof (lab_wf g Hg) as [Hov _ _ _]. apply Hov in H as [Hi Hj].
    rewrite (lab_node g n Hg Hl) in Hi, Hj. rewrite !elem_of_seq. lia. }
  assert (∀ i j, weight g' i j = match iv !! j with Some _ => 0 | None => weight g i j end) as HW.
  { intros i j. rewrite Hw. destruct (given ws' (i, j)) as [w|] eqn:E.
    - apply given_Some in E; [|done]. apply Hws' in E as (_ & -> & ->). done.
    - apply given_None in E. cbn. destruct (iv !! j) eqn:Ej; [done|]. destruct (decide (weight g i j = 0)) as [->|Hne]; [done|]. destruct E. apply elem_of_list_fmap.
      exists ((i, j), weight g i j). split; [done|]. apply Hws'. split; [|done]. destruct Hg as (_ & _ & _ & _ & HA). by apply HA. }
  exists g'. split; [done|]. split; [done|]. split; [done|]. split; [done|]. split.
  { intros i j. pose proof Hwf as (_ & _ & _ & _ & HA'). pose proof Hg as (_ & _ & _ & _ & HA). rewrite HA', HA, HW. destruct (iv !! j); naive_solver. }
  split; intros v Hvn; [rewrite Hb'|rewrite Hv']; cbn [default]; unfold id; rewrite list_lookup_fmap, lookup_seq_lt by done; cbn [fmap option_fmap option_map Nat.add];
    rewrite lookup_fmap; by destruct (iv !! v).
Qed.

(** [soft_interventional_dag] is given a bias, a variance and weights per node; the claim that the arcs into the node get
    the given weights fails: the arc from node 0 gets the bias as its weight, that from node 1 the variance. *)
Theorem C78_soft_refuted :
  ∃ g g', gauss_wf g ∧ acyclic (d_arcs (g_dag g)) ∧ g_list g = [0; 1; 2]%nat ∧
    soft_interventional_dag oracle0 g {[2%nat := (qz 7, qz 3, [qz 4; qz 5])]} = Ok g' ∧
    weight g' 0%nat 2%nat = qz 7 ∧ weight g' 1%nat 2%nat = qz 3.
Proof.
  destruct (gauss_new_spec oracle0 [0; 1; 2]%nat [((0, 2)%nat, 1); ((1, 2)%nat, 1)] None None) as (g & Hg & Hwf & Hl & _).
  { by apply (bool_decide_unpack _). } { by apply (bool_decide_unpack _). }
  { intros e w. rewrite !elem_of_cons, elem_of_nil. intros [[= -> ->]|[[= -> ->]|[]]]; cbn; split; apply (bool_decide_unpack _); done. }
  assert (match gauss_make oracle0 [0; 1; 2]%nat [((0, 2)%nat, 1); ((1, 2)%nat, 1)] None None with
    | Ok g => bool_decide (acyclic (d_arcs (g_dag g))) &&
       match soft_interventional_dag oracle0 g {[2%nat := (qz 7, qz 3, [qz 4; qz 5])]} with Ok g' => bool_decide (weight g' 0%nat 2%nat = qz 7 ∧ weight g' 1%nat 2%nat = qz 3) | Raise _ => false end
    | Raise _ => false end = true) as H by by_vm.
  rewrite Hg in H. apply andb_prop in H as [H1 H2]. apply bool_decide_eq_true in H1.
  destruct (soft_interventional_dag oracle0 g _) as [g'|] eqn:E; [|done]. apply bool_decide_eq_true in H2 as [? ?]. exists g, g'. by do 5 (split; [done|]).
Qed.

(** [interventional_covariance] raises whenever a node is intervened on and at least two
    are not. *)
Theorem C78_interventional_covariance_refuted (o : oracle) (inv : nat → mat → mat) (g : gauss) (n : nat) (iv : nset) :
  gauss_wf g → g_list g = seq 0 n → iv ∩ d_nodes (g_dag g) ≠ ∅ → (2 ≤ size (d_nodes (g_dag g) ∖ iv))%nat →
  interventional_covariance o inv g iv = Raise ValueError.
Proof.
  intros Hg Hl Hne Hsz. unfold interventional_covariance. rewrite (lab_size g n Hg Hl), (lab_dim g n Hl).
  set (rem := filter (λ v, v ∉ iv) (on o [137%nat] (d_nodes (g_dag g)))).
  assert (length rem = size (d_nodes (g_dag g) ∖ iv)) as Hlen.
  { replace (d_nodes (g_dag g) ∖ iv) with (list_to_set rem : nset).
    - symmetry. apply size_list_to_set. apply NoDup_filter, NoDup_on.
    - apply set_eq. intros v. unfold rem. rewrite elem_of_list_to_set, elem_of_list_filter, elem_of_on, elem_of_difference. tauto. }
  assert (size (d_nodes (g_dag g) ∖ iv) < n)%nat as Hlt.
  { rewrite <-(lab_size g n Hg Hl). apply subset_size. clear -Hne. apply set_choose_L in Hne as [x Hx]. set_solver. }
  rewrite decide_True.
  - rewrite !decide_False by lia. done.
  - apply Forall_forall. intros v Hv. unfold rem in Hv. apply elem_of_list_filter in Hv as [_ Hv%elem_of_on]. by apply (lab_node g n Hg Hl).
Qed.

Example C78_example : ∃ g, gauss_make oracle0 [0; 1; 2]%nat [((0, 1)%nat, qz 2); ((1, 2)%nat, qz 3)] None None = Ok g ∧
  gauss_wf g ∧ g_list g = seq 0 3 ∧ length (g_bias g) = 3%nat ∧ length (g_var g) = 3%nat ∧ on oracle0 [136%nat] (d_nodes (g_dag g)) = seq 0 3 ∧
  ({[1%nat]} : nset) ∩ d_nodes (g_dag g) ≠ ∅ ∧ (2 ≤ size (d_nodes (g_dag g) ∖ {[1%nat]}))%nat ∧
  match interventional_dag oracle0 g {[1%nat := (qz 7, qz 3)]} with Ok g' => d_arcs (g_dag g') = {[(1, 2)]}%nat ∧ g_bias g' = [0; qz 7; 0] | Raise _ => False end.
Proof.
  destruct (gauss_new_spec oracle0 [0; 1; 2]%nat [((0, 1)%nat, qz 2); ((1, 2)%nat, qz 3)] None None) as (g & Hg & Hwf & Hl & _).
  { by apply (bool_decide_unpack _). } { by apply (bool_decide_unpack _). }
  { intros e w. rewrite !elem_of_cons, elem_of_nil. intros [[= -> ->]|[[= -> ->]|[]]]; cbn; split; apply (bool_decide_unpack _); done. }
  assert (match gauss_make oracle0 [0; 1; 2]%nat [((0, 1)%nat, qz 2); ((1, 2)%nat, qz 3)] None None with
    | Ok g => bool_decide (length (g_bias g) = 3%nat ∧ length (g_var g) = 3%nat ∧ on oracle0 [136%nat] (d_nodes (g_dag g)) = seq 0 3 ∧
         ({[1%nat]} : nset) ∩ d_nodes (g_dag g) ≠ ∅ ∧ (2 ≤ size (d_nodes (g_dag g) ∖ {[1%nat]}))%nat) &&
       match interventional_dag oracle0 g {[1%nat := (qz 7, qz 3)]} with Ok g' => bool_decide (d_arcs (g_dag g') = {[(1, 2)]}%nat ∧ g_bias g' = [0; qz 7; 0]) | Raise _ => false end
    | Raise _ => false end = true) as H by by_vm.
  rewrite Hg in H. apply andb_prop in H as [H1 H2]. apply bool_decide_eq_true in H1 as (? & ? & ? & ? & ?). exists g. do 8 (split; [done|]).
  destruct (interventional_dag oracle0 g _); [|done]. by apply bool_decide_eq_true in H2.
Qed.

(** ** C79: weight matrices *)

Lemma amat_arcs n (W : mat) :
  let ws := (i ← seq 0 n; j ← seq 0 n; if decide (W i j ≠ 0) then [((i, j), W i j)] else []) in
  NoDup (ws.*1) ∧ ∀ i j w, ((i, j), w) ∈ ws ↔ (i < n)%nat ∧ (j < n)%nat ∧ W i j ≠ 0 ∧ w = W i j.
Proof.
  intros ws. assert (∀ i j w, ((i, j), w) ∈ ws ↔ (i < n)%nat ∧ (j < n)%nat ∧ W i j ≠ 0 ∧ w = W i j) as H.
  { intros i j w. unfold ws. rewrite elem_of_list_bind. setoid_rewrite elem_of_list_bind. setoid_rewrite elem_of_seq. split.
    - intros (i' & (j' & H & Hj) & Hi). case_decide; [|by apply elem_of_nil in H]. apply elem_of_list_singleton in H as [= -> -> ->]. split_and!; [lia|lia|done|done].
    - intros (Hi & Hj & Hne & ->). exists i. split; [|lia]. exists j. split; [|lia]. rewrite decide_True by done. by apply elem_of_list_singleton. }
  split; [|done]. clear H. unfold ws. clear ws.
  assert (∀ i l, NoDup l → NoDup ((j ← l; if decide (W i j ≠ 0) then [((i, j), W i j)] else []).*1) ∧
     ∀ a, a ∈ (j ← l; if decide (W i j ≠ 0) then [((i, j), W i j)] else []).*1 → a.1 = i ∧ a.2 ∈ l) as Hrow.
  { intros i l Hl. induction Hl as [|j l Hj Hl [IH1 IH2]]; [split; [constructor|intros a Ha; by apply elem_of_nil in Ha]|]. rewrite bind_cons, fmap_app. split.
    - apply NoDup_app. split; [case_decide; [apply NoDup_singleton|constructor]|]. split; [|done]. intros a Ha Ha'. apply IH2 in Ha' as [_ Ha']. apply Hj.
      case_decide; [|by apply elem_of_nil in Ha]. apply elem_of_list_singleton in Ha as ->. done.
    - intros a [Ha|Ha]%elem_of_app; [|apply IH2 in Ha as [? ?]; split; [done|by right]].
      case_decide; [|by apply elem_of_nil in Ha]. apply elem_of_list_singleton in Ha as ->. split; [done|by left]. }
  assert (∀ l, NoDup l → NoDup ((i ← l; j ← seq 0 n; if decide (W i j ≠ 0) then [((i, j), W i j)] else []).*1) ∧
    ∀ a, a ∈ (i ← l; j ← seq 0 n; if decide (W i j ≠ 0) then [((i, j), W i j)] else []).*1 → a.1 ∈ l) as Hall; [|apply Hall, NoDup_seq].
  intros l Hl. induction Hl as [|i l Hi Hl [IH1 IH2]]; [split; [constructor|intros a Ha; by apply elem_of_nil in Ha]|]. rewrite bind_cons, fmap_app.
  destruct (Hrow i (seq 0 n) (NoDup_seq 0 n)) as [R1 R2]. split.
  - apply NoDup_app. split; [done|]. split; [|done]. intros a [Ha _]%R2 Ha'%IH2. congruence.
  - intros a [[-> _]%R2|Ha]%elem_of_app; [by left|right; by apply IH2].
Qed.

(** [from_amat] gives back the matrix, and the arcs are its non-zero entries. *)
Theorem C79_from_amat (o : oracle) (n : nat) (W : mat) (bs vs : option (list Qc)) :
  ∃ g, gauss_from_amat o n W None bs vs = Ok g ∧ gauss_wf g ∧ g_list g = seq 0 n ∧ meq n (g_w g) W ∧
    (∀ i j, (i, j) ∈ d_arcs (g_dag g) ↔ (i < n)%nat ∧ (j < n)%nat ∧ W i j ≠ 0) ∧
    g_var g = default (replicate n 1) vs ∧ g_bias g = default (replicate n 0) bs ∧ fresh g.
Proof.
  unfold gauss_from_amat. destruct (amat_arcs n W) as [Hnd Hws]. set (ws := seq 0 n ≫= _) in *. cbn [default].
  destruct (gauss_new_spec o (seq 0 n) ws bs vs) as (g & -> & Hwf & Hl & Hw & Hv & Hb & Hp & Hc); [apply NoDup_seq|done| |].
  { intros [i j] w (Hi & Hj & _)%Hws. cbn. rewrite !elem_of_seq. lia. }
  assert (∀ i j, (i < n)%nat → (j < n)%nat → weight g i j = W i j) as HW.
  { intros i j Hi Hj. rewrite Hw. destruct (given ws (i, j)) as [w|] eqn:E.
    - apply given_Some in E; [|done]. apply Hws in E as (_ & _ & _ & ->). done.
    - apply given_None in E. cbn. destruct (decide (W i j = 0)) as [->|Hne]; [done|]. destruct E. apply elem_of_list_fmap. exists ((i, j), W i j). split; [done|]. by apply Hws. }
  rewrite seq_length in Hv, Hb. exists g. split; [done|]. split; [done|]. split; [done|]. split; [|split; [|by split_and!]].
  - intros i j Hi Hj. rewrite <-HW by done. symmetry. by apply (lab_weight g n).
  - intros i j. pose proof Hwf as (_ & _ & _ & _ & HA). split.
    + intros H. pose proof (lab_wf g Hwf) as [Hov _ _ _]. destruct (Hov _ _ H) as [Hi Hj]. rewrite (lab_node g n Hwf Hl) in Hi, Hj.
      apply HA in H. by rewrite HW in H.
    + intros (Hi & Hj & H). apply HA. by rewrite HW.
Qed.

(** With an explicit node list the claim fails: the indices of the matrix are taken as labels. *)
Theorem C79_from_amat_nodes_refuted :
  ∃ W g, gauss_from_amat oracle0 2 W (Some [1; 0]%nat) None None = Ok g ∧ ¬ meq 2 (g_w g) W ∧
    gauss_from_amat oracle0 2 W (Some [7; 8]%nat) None None = Raise KeyError.
Proof.
  exists (mupd mzero 0%nat 1%nat (qz 5)).
  assert (match gauss_from_amat oracle0 2 (mupd mzero 0%nat 1%nat (qz 5)) (Some [1; 0]%nat) None None with
    | Ok g => bool_decide (g_w g 0%nat 1%nat = 0) | Raise _ => false end = true) as H by by_vm.
  assert (match gauss_from_amat oracle0 2 (mupd mzero 0%nat 1%nat (qz 5)) (Some [7; 8]%nat) None None with
    | Ok _ => false | Raise e => bool_decide (e = KeyError) end = true) as H' by by_vm.
  destruct (gauss_from_amat oracle0 2 _ (Some [1; 0]%nat) None None) as [g|] eqn:E; [|done]. apply bool_decide_eq_true in H.
  exists g. split; [done|]. split.
  - intros Hm. specialize (Hm 0%nat 1%nat ltac:(lia) ltac:(lia)). rewrite H in Hm. done.
  - destruct (gauss_from_amat oracle0 2 _ (Some [7; 8]%nat) None None) as [|e]; [done|]. apply bool_decide_eq_true in H'. by subst e.
Qed.

(** [direct_effects] returns the total effects: the solution of [T = W + W T], which sums over all
    directed paths the products of the weights. *)
Theorem C79_direct_effects (g : gauss) :
  gauss_wf g → acyclic (d_arcs (g_dag g)) →
  let n := g_dim g in let T := direct_effects g in
  meq n T (madd (g_w g) (mmul n (g_w g) T)) ∧
  ∀ T', meq n T' (madd (g_w g) (mmul n (g_w g) T')) → meq n T T'.
Proof.
  intros Hg Hac n T. set (W := g_w g) in *. pose proof (gauss_macyclic g Hg Hac) as Hm. fold n W in Hm.
  assert (meq n T (mmul n W (mgeom n W n))) as HT.
  { unfold T, direct_effects. rewrite (gauss_size g Hg). fold n W.
    assert (∀ k s, let st := foldl (λ (st : mat * mat) _, (madd st.1 st.2, mmul n st.2 W)) (mzero, W) (seq s k) in
      meq n st.1 (mmul n W (mgeom n W k)) ∧ meq n st.2 (mpow n W (S k))) as H; [|apply H].
    intros k. induction k as [|k IH]; intros s; cbn zeta.
    - split; cbn; [|by rewrite mmul_id_r]. intros i j _ _. unfold mmul, mzero. symmetry. apply qsum_zero. intros l _. ring.
    - rewrite seq_S, foldl_app. cbn [foldl fst snd]. destruct (IH s) as [IH1 IH2]. split.
      + rewrite IH1, IH2. cbn [mgeom mpow]. rewrite mmul_add_r. done.
      + rewrite IH2. apply mpow_comm. }
  pose proof (acyclic_inverse n W Hm) as Hinv. set (V := mgeom n W n) in *. destruct Hinv as [I1 I2].
  assert (meq n V (madd mid (mmul n W V))) as HV.
  { intros i j Hi Hj. specialize (I1 i j Hi Hj). rewrite (mmul_sub_l n mid W V i j Hi Hj) in I1. unfold msub in I1. rewrite (mmul_id_l n V i j Hi Hj) in I1.
    unfold madd. rewrite <-I1. ring. }
  split.
  - rewrite HT. transitivity (mmul n W (madd mid (mmul n W V))); [apply mmul_proper; [done|exact HV]|]. rewrite mmul_add_r, mmul_id_r. done.
  - intros T' HT'. rewrite HT. assert (meq n (mmul n (msub mid W) T') W) as H1.
    { intros i j Hi Hj. rewrite (mmul_sub_l n mid W T' i j Hi Hj). unfold msub. rewrite (mmul_id_l n T' i j Hi Hj). rewrite (HT' i j Hi Hj) at 1. unfold madd. ring. }
    assert (meq n (mmul n (msub mid W) (mmul n W V)) W) as H2.
    { rewrite <-mmul_assoc. assert (meq n (mmul n (msub mid W) W) (mmul n W (msub mid W))) as ->; [|by rewrite mmul_assoc, I1, mmul_id_r].
      rewrite mmul_sub_l, mmul_sub_r, mmul_id_l, mmul_id_r. done. }
    rewrite <-(mmul_id_l n (mmul n W V)), <-(mmul_id_l n T'), <-I2, !mmul_assoc. by rewrite H1, H2.
Qed.

Example C79_example : ∃ g, gauss_make oracle0 [0; 1; 2]%nat [((0, 1)%nat, qz 2); ((1, 2)%nat, qz 3)] None None = Ok g ∧
  gauss_wf g ∧ acyclic (d_arcs (g_dag g)) ∧ direct_effects g 0%nat 2%nat = qz 6.
Proof.
  destruct (gauss_new_spec oracle0 [0; 1; 2]%nat [((0, 1)%nat, qz 2); ((1, 2)%nat, qz 3)] None None) as (g & Hg & Hwf & Hl & _).
  { by apply (bool_decide_unpack _). } { by apply (bool_decide_unpack _). }
  { intros e w. rewrite !elem_of_cons, elem_of_nil. intros [[= -> ->]|[[= -> ->]|[]]]; cbn; split; apply (bool_decide_unpack _); done. }
  assert (match gauss_make oracle0 [0; 1; 2]%nat [((0, 1)%nat, qz 2); ((1, 2)%nat, qz 3)] None None with
    | Ok g => bool_decide (acyclic (d_arcs (g_dag g)) ∧ direct_effects g 0%nat 2%nat = qz 6) | Raise _ => false end = true) as H by by_vm.
  rewrite Hg in H. apply bool_decide_eq_true in H as [? ?]. by exists g.
Qed.

Print Assumptions C76_sample.
Print Assumptions C76_sample_cyclic.
Print Assumptions C76_counterfactual.
Print Assumptions C76_counterfactual_consistent.
Print Assumptions C76_sample_labels_refuted.
Print Assumptions C77_logpdf_terms.
Print Assumptions C77_logpdf_unbiased.
Print Assumptions C77_logpdf_bias_refuted.
Print Assumptions C78_interventional_dag.
Print Assumptions C78_soft_refuted.
Print Assumptions C78_interventional_covariance_refuted.
Print Assumptions C79_from_amat.
Print Assumptions C79_from_amat_nodes_refuted.
Print Assumptions C79_direct_effects.
