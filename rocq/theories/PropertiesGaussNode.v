(** Final theorems about removing a node of a [GaussDAG]: C119. *)
From Coq Require Import QArith.Qcanon.
From Verif Require Import Py Spec DagModel QMatModel GaussModel GaussNodeModel TopoProofs StateProofs ReachProofs CoreProofs MarkovProofs QMatProofs PropertiesDag GaussProofs GaussLoops PropertiesGauss.
#[local] Open Scope Qc_scope.

(** The label at position [a] once the label [k] is gone from 0, 1, 2, ... *)
Definition skip (k a : nat) : nat := if decide (a < k)%nat then a else S a.

Lemma delete_seq k n a : (k < n)%nat → delete k (seq 0 n) !! a = if decide (S a < n)%nat then Some (skip k a) else None.
Proof.
  intros Hk. unfold skip. destruct (decide (a < k)%nat) as [Ha|Ha].
  - rewrite lookup_delete_lt by done. rewrite decide_True by lia. apply lookup_seq. lia.
  - rewrite lookup_delete_ge by lia. case_decide as H; [apply lookup_seq; lia|]. apply lookup_seq_ge. lia.
Qed.
Lemma delete_seq_dim k n : (k < n)%nat → length (delete k (seq 0 n)) = (n - 1)%nat.
Proof. intros Hk. rewrite length_delete; [by rewrite seq_length|]. apply lookup_lt_is_Some. by rewrite seq_length. Qed.

(** Removing any node of a model with labels 0..n-1 returns.  The graph is the induced
    subgraph, the list loses the label, and the matrix has at each two positions the weight
    between the labels at these positions.  Nothing else changes. *)
Theorem C119_remove_node (o : oracle) (g : gauss) (n k : nat) :
  gauss_wf g → oriented (d_arcs (g_dag g)) → g_list g = seq 0 n → (k < n)%nat →
  ∃ g', gauss_remove_node o k g = (g', Ok tt) ∧
    views_agree (g_dag g') ∧ d_nodes (g_dag g') = d_nodes (g_dag g) ∖ {[k]} ∧
    (∀ i j, (i, j) ∈ d_arcs (g_dag g') ↔ (i, j) ∈ d_arcs (g_dag g) ∧ i ≠ k ∧ j ≠ k) ∧
    g_list g' = skip k <$> seq 0 (n - 1) ∧
    (∀ a b, (a < n - 1)%nat → (b < n - 1)%nat → g_w g' a b = weight g (skip k a) (skip k b)) ∧
    g_ix g' = g_ix g ∧ g_var g' = g_var g ∧ g_bias g' = g_bias g ∧ g_prec g' = g_prec g ∧ g_cov g' = g_cov g.
Proof.
  intros Hg Hor Hl Hk. unfold gauss_remove_node. rewrite (proj2 (lab_ix g n Hg Hl k k)) by done.
  rewrite (lab_dim g n Hl). rewrite Hl, seq_length, decide_True by done.
  rewrite decide_True; cycle 1.
  { apply Forall_lookup. intros a x Hx. rewrite delete_seq in Hx by done. case_decide; [|done]. injection Hx as <-. unfold skip. case_decide; lia. }
  destruct (remove_node_spec o k false (g_dag g)) as (Hwf & _ & Hs); [by apply lab_wf|done|].
  rewrite decide_True in Hs by (by apply (lab_node g n Hg Hl)). destruct Hs as (Hr & HN & HA).
  unfold on_dag. cbn [g_dag with_w with_list]. destruct (remove_node o k false (g_dag g)) as [d r] eqn:E. cbn [fst snd] in *. subst r.
  eexists. split; [done|]. cbn. split_and!; [by apply wf_views_agree|done| | | |done..].
  - intros i j. rewrite HA, elem_of_filter. cbn. tauto.
  - apply list_eq. intros a. rewrite delete_seq by done. rewrite list_lookup_fmap. case_decide as H.
    + rewrite (proj2 (lookup_seq 0 (n - 1) a a)) by lia. done.
    + by rewrite lookup_seq_ge by lia.
  - intros a b Ha Hb. rewrite !delete_seq by done. rewrite !decide_True by lia.
    rewrite (lab_weight g n Hg Hl); [done|unfold skip; case_decide; lia..].
Qed.

(** Without the node nothing happens; with a label that is no index of the matrix, the label
    is gone from the list but the graph still has the node. *)
Theorem C119_raises (o : oracle) (g : gauss) (v : node) :
  gauss_wf g →
  (v ∉ g_list g → gauss_remove_node o v g = (g, Raise KeyError)) ∧
  ∀ x, v ∈ g_list g → x ∈ g_list g → x ≠ v → (length (g_list g) ≤ x)%nat →
    ∃ g', gauss_remove_node o v g = (g', Raise IndexError) ∧ v ∉ g_list g' ∧ g_dag g' = g_dag g ∧ v ∈ d_nodes (g_dag g').
Proof.
  intros (_ & Hnd & HN & Hix & _). split.
  - intros Hv. unfold gauss_remove_node. destruct (g_ix g !! v) as [a|] eqn:E; [|done]. apply Hix, elem_of_list_lookup_2 in E. done.
  - intros x Hv Hx Hne Hlen. destruct (proj1 (elem_of_list_lookup _ _) Hv) as [a Ha]. destruct (proj1 (elem_of_list_lookup _ _) Hx) as [b Hb].
    unfold gauss_remove_node. rewrite (proj2 (Hix v a)) by done. pose proof (lookup_lt_Some _ _ _ Ha). rewrite decide_True by done.
    rewrite decide_False; cycle 1.
    { rewrite Forall_forall. intros H'. specialize (H' x). unfold g_dim in H'. assert (x ∈ delete a (g_list g)) as Hin; [|specialize (H' Hin); lia].
      rewrite delete_take_drop. rewrite <-(take_drop_middle _ _ _ Ha) in Hx. rewrite elem_of_app, elem_of_cons in Hx. rewrite elem_of_app. naive_solver. }
    eexists. split; [done|]. cbn. split_and!; [|done|by apply HN].
    rewrite delete_take_drop. rewrite <-(take_drop_middle _ _ _ Ha) in Hnd. apply NoDup_app in Hnd as (_ & H1 & H2). apply NoDup_cons in H2 as [H2 _].
    rewrite elem_of_app. intros [H'|H']; [|done]. apply (H1 v H'). by left.
Qed.

(** After removing the last label, [arc_weights] has exactly the remaining arcs with their old
    weights. *)
Theorem C119_last (o o' : oracle) (g : gauss) (k : nat) :
  gauss_wf g → oriented (d_arcs (g_dag g)) → g_list g = seq 0 (S k) →
  ∃ ws, arc_weights o' (gauss_remove_node o k g).1 = Ok ws ∧ NoDup (ws.*1) ∧
    ∀ i j w, ((i, j), w) ∈ ws ↔ (i, j) ∈ d_arcs (g_dag g) ∧ i ≠ k ∧ j ≠ k ∧ w = weight g i j.
Proof.
  intros Hg Hor Hl. destruct (C119_remove_node o g (S k) k Hg Hor Hl ltac:(lia)) as (g' & -> & Hv & HN & HA & Hl' & Hw & _). cbn [fst].
  replace (S k - 1)%nat with k in * by lia.
  assert (g_list g' = seq 0 k) as Hl2.
  { rewrite Hl'. rewrite <-(list_fmap_id (seq 0 k)) at 2. apply list_fmap_ext. intros a x Hx. apply lookup_seq in Hx as [-> Hx]. cbn in *. unfold skip. by rewrite decide_True by lia. }
  set (g2 := Gauss (g_dag g') (seq 0 k) (ix_map (seq 0 k)) (g_w g') (g_var g') (g_bias g') (g_prec g') (g_cov g')).
  assert (∀ x, ix_map (seq 0 k) !! x = if decide (x < k)%nat then Some x else None) as Hi.
  { intros x. case_decide as H.
    - apply ix_map_spec; [apply NoDup_seq|]. apply lookup_seq. lia.
    - destruct (ix_map (seq 0 k) !! x) as [a|] eqn:E; [|done]. apply ix_map_spec, lookup_seq in E; [|apply NoDup_seq]. lia. }
  assert (∀ i j, (i < k)%nat → (j < k)%nat → weight g2 i j = weight g i j) as Hwt.
  { intros i j Hik Hjk. unfold weight at 1. cbn. rewrite !Hi, !decide_True by done. rewrite Hw by done. unfold skip. by rewrite !decide_True by done. }
  pose proof (lab_wf g Hg) as [Ho _ _ _].
  assert (∀ i j, (i, j) ∈ d_arcs (g_dag g) → i ≠ k → j ≠ k → (i < k)%nat ∧ (j < k)%nat) as Hlt.
  { intros i j H Hik Hjk. apply Ho in H as [H1 H2]. apply (lab_node g _ Hg Hl) in H1, H2. lia. }
  assert (gauss_wf g2) as Hg2.
  { split_and!.
    - exact Hv.
    - apply NoDup_seq.
    - intros v. cbn. rewrite HN, elem_of_difference, elem_of_singleton, (lab_node g _ Hg Hl), elem_of_seq. lia.
    - intros v a. cbn. apply ix_map_spec, NoDup_seq.
    - intros i j. cbn [g2 g_dag]. rewrite HA. destruct Hg as (_ & _ & _ & _ & HAw). split.
      + intros (H & Hik & Hjk). destruct (Hlt _ _ H Hik Hjk). rewrite Hwt by done. by apply HAw.
      + intros H. assert (i < k ∧ j < k)%nat as [Hik Hjk].
        { unfold weight in H. cbn in H. rewrite !Hi in H. repeat case_decide; done. }
        rewrite Hwt in H by done. split; [by apply HAw|lia]. }
  destruct (arc_weights_ok o' g2 k Hg2 eq_refl) as (ws & E & Hnd & Hws). exists ws. split; [|split; [done|]].
  - rewrite <-E. unfold arc_weights, g_dim. cbn. by rewrite Hl2.
  - intros i j w. rewrite Hws. cbn [g2 g_dag]. rewrite HA. split.
    + intros [(H & Hik & Hjk) ->]. destruct (Hlt _ _ H Hik Hjk). by rewrite Hwt.
    + intros (H & Hik & Hjk & ->). destruct (Hlt _ _ H Hik Hjk). by rewrite Hwt.
Qed.

Lemma loopR_index (f : arc → Qc) m l acc :
  Exists (λ a : arc, ¬ (a.1 < m ∧ a.2 < m)%nat) l →
  loopR (λ (a : arc) acc, if decide (a.1 < m ∧ a.2 < m)%nat then Ok (acc ++ [(a, f a)]) else Raise IndexError) l acc = Raise IndexError.
Proof.
  intros H. revert acc. induction H as [a l H|a l H IH]; intros acc; cbn.
  - by rewrite decide_False.
  - case_decide; [apply IH|done].
Qed.
(** After removing another label, [arc_weights] (and so [copy]) raises [IndexError] as soon as
    the last label still has an arc. *)
Theorem C119_not_last (o o' : oracle) (g : gauss) (n k i j : nat) :
  gauss_wf g → oriented (d_arcs (g_dag g)) → g_list g = seq 0 (S n) → (k < n)%nat →
  (i, j) ∈ d_arcs (g_dag g) → i ≠ k → j ≠ k → i = n ∨ j = n →
  arc_weights o' (gauss_remove_node o k g).1 = Raise IndexError ∧ gauss_copy o' (gauss_remove_node o k g).1 = Raise IndexError.
Proof.
  intros Hg Hor Hl Hk Hij Hik Hjk Hn. destruct (C119_remove_node o g (S n) k Hg Hor Hl ltac:(lia)) as (g' & -> & _ & _ & HA & Hl' & _). cbn [fst].
  assert (arc_weights o' g' = Raise IndexError) as E.
  { unfold arc_weights. apply (loopR_index (λ a, g_w g' a.1 a.2)). apply Exists_exists. exists (i, j). split; [apply elem_of_oa, HA; done|].
    unfold g_dim. rewrite Hl', fmap_length, seq_length. cbn. lia. }
  split; [done|]. unfold gauss_copy. by rewrite E.
Qed.

(** The precision afterwards.  A value computed before is returned unchanged.  Otherwise, when
    all variances are 1, it is that of the model of the remaining nodes; else it raises. *)
Theorem C119_precision (o : oracle) (g : gauss) (n k : nat) :
  gauss_wf g → oriented (d_arcs (g_dag g)) → g_list g = seq 0 n → (k < n)%nat → length (g_var g) = n →
  let r := read_precision (gauss_remove_node o k g).1 in
  let B : mat := msub mid (λ a b, weight g (skip k a) (skip k b)) in
  (∀ P, g_prec g = Some P → r.2 = Ok P) ∧
  (g_prec g = None → all_one (g_var g) → ∃ P, r.2 = Ok P ∧ meq (n - 1) P (mmul (n - 1) B (mT B))) ∧
  (g_prec g = None → ¬ all_one (g_var g) → r.2 = Raise ValueError).
Proof.
  intros Hg Hor Hl Hk Hlen. destruct (C119_remove_node o g n k Hg Hor Hl Hk) as (g' & -> & _ & HN & _ & Hl' & Hw & _ & Hvar & _ & Hp & _). cbn [fst].
  assert (g_dim g' = (n - 1)%nat) as Hd by (unfold g_dim; by rewrite Hl', fmap_length, seq_length).
  assert (size (d_nodes (g_dag g')) = (n - 1)%nat) as Hs.
  { rewrite HN, size_difference; [by rewrite (lab_size g n Hg Hl), size_singleton|]. apply singleton_subseteq_l. by apply (lab_node g n Hg Hl). }
  cbn zeta. unfold read_precision. rewrite Hp. split_and!.
  - intros P ->. done.
  - intros -> H1. unfold precision_of. rewrite Hd, Hs, Hvar, decide_True by done. rewrite decide_True by done. eexists. split; [done|].
    assert (meq (n - 1) (msub mid (g_w g')) (msub mid (λ a b, weight g (skip k a) (skip k b)))) as HB.
    { intros a b Ha Hb. unfold msub. by rewrite Hw. }
    by rewrite HB.
  - intros -> H1. unfold precision_of. rewrite Hd, Hs, Hvar, decide_True by done. rewrite decide_False by done. rewrite decide_False by lia. done.
Qed.

(** A model with arcs [1 -> 2] (weight 5) and [2 -> 3] (weight 7). *)
Definition rm_model (n : nat) (vs : option (list Qc)) : res gauss :=
  gauss_make oracle0 (seq 0 n) [((1, 2)%nat, qz 5); ((2, 3)%nat, qz 7)] None vs.
Lemma rm_model_ok n vs : (4 ≤ n)%nat → ∃ g, rm_model n vs = Ok g ∧ gauss_wf g ∧ oriented (d_arcs (g_dag g)) ∧ g_list g = seq 0 n ∧
  weight g 1 2 = qz 5 ∧ weight g 2 3 = qz 7 ∧ (1, 2)%nat ∈ d_arcs (g_dag g) ∧ (2, 3)%nat ∈ d_arcs (g_dag g).
Proof.
  intros Hn. destruct (C45_constructor oracle0 (seq 0 n) [((1, 2)%nat, qz 5); ((2, 3)%nat, qz 7)] None vs) as [(g & Hg & Hwf & Hl & Hw & _ & HA) _].
  { apply NoDup_seq. } { by apply (bool_decide_unpack _). }
  { intros e w. rewrite !elem_of_cons, elem_of_nil. intros [[= -> ->]|[[= -> ->]|[]]]; cbn [fst snd]; rewrite !elem_of_seq; lia. }
  exists g. split_and!; [done|done| |done| | | |].
  - intros i j (w & H & _)%HA (w' & H' & _)%HA. rewrite !elem_of_cons, elem_of_nil in H, H'.
    destruct H as [[= -> -> ->]|[[= -> -> ->]|[]]]; destruct H' as [[=]|[[=]|[]]].
  - apply Hw. by left.
  - apply Hw. right. by left.
  - apply HA. eexists. split; [by left|]. by apply (bool_decide_unpack _).
  - apply HA. eexists. split; [right; by left|]. by apply (bool_decide_unpack _).
Qed.

(** [arc_weights] can also give a remaining arc a wrong weight without an exception: after
    removing 0 from the model on 0..4 the weight of [1 -> 2] is said to be 7. *)
Theorem C119_weights_refuted :
  ∃ (o : oracle) (g : gauss) (n k : nat) ws i j w, gauss_wf g ∧ oriented (d_arcs (g_dag g)) ∧ g_list g = seq 0 n ∧ (k < n)%nat ∧
    arc_weights o (gauss_remove_node o k g).1 = Ok ws ∧ ((i, j), w) ∈ ws ∧ (i, j) ∈ d_arcs (g_dag g) ∧ i ≠ k ∧ j ≠ k ∧
    w = qz 7 ∧ weight g i j = qz 5.
Proof.
  destruct (rm_model_ok 5 None ltac:(lia)) as (g & Hg & Hwf & Hor & Hl & Hw1 & Hw2 & HA1 & HA2).
  assert (match rm_model 5 None with
    | Ok g => match arc_weights oracle0 (gauss_remove_node oracle0 0 g).1 with Ok ws => bool_decide (((1, 2)%nat, qz 7) ∈ ws) | Raise _ => false end
    | Raise _ => false end = true) as H by by_vm.
  rewrite Hg in H. destruct (arc_weights oracle0 (gauss_remove_node oracle0 0 g).1) as [ws|] eqn:E; [|done]. apply bool_decide_eq_true in H.
  exists oracle0, g, 5%nat, 0%nat, ws, 1%nat, 2%nat, (qz 7). split_and!; (done || lia).
Qed.
(** A second removal takes the wrong label off the list: after removing 0 and then 1 from 0..2 the
    only node is 2 but the list has 1. *)
Theorem C119_second_refuted :
  ∃ (o : oracle) (g g' : gauss) (n k m : nat), gauss_wf g ∧ oriented (d_arcs (g_dag g)) ∧ g_list g = seq 0 n ∧ (k < m < n)%nat ∧
    gauss_remove_node o m (gauss_remove_node o k g).1 = (g', Ok tt) ∧ d_nodes (g_dag g') = {[2]}%nat ∧ g_list g' = [1]%nat.
Proof.
  destruct (C45_constructor oracle0 (seq 0 3) [((0, 1)%nat, qz 5)] None None) as [(g & Hg & Hwf & Hl & _ & _ & HA) _].
  { apply NoDup_seq. } { by apply (bool_decide_unpack _). }
  { intros e w. rewrite !elem_of_cons, elem_of_nil. intros [[= -> ->]|[]]; cbn [fst snd]; rewrite !elem_of_seq; lia. }
  assert (match gauss_make oracle0 (seq 0 3) [((0, 1)%nat, qz 5)] None None with
    | Ok g => let r := gauss_remove_node oracle0 1 (gauss_remove_node oracle0 0 g).1 in
        bool_decide (r.2 = Ok tt) && bool_decide (d_nodes (g_dag r.1) = {[2]}%nat) && bool_decide (g_list r.1 = [1]%nat)
    | Raise _ => false end = true) as H by by_vm.
  rewrite Hg in H. cbn zeta in H. destruct (gauss_remove_node oracle0 1 (gauss_remove_node oracle0 0 g).1) as [g' r] eqn:E. cbn [fst snd] in H.
  apply andb_prop in H as [[H1%bool_decide_eq_true H2%bool_decide_eq_true]%andb_prop H3%bool_decide_eq_true]. subst r.
  exists oracle0, g, g', 3%nat, 0%nat, 1%nat. split_and!; [done| |done|lia..|exact E|exact H2|done].
  intros i j (w & H & _)%HA (w' & H' & _)%HA. rewrite !elem_of_cons, elem_of_nil in H, H'. destruct H as [[= -> -> ->]|[]]; destruct H' as [[=]|[]].
Qed.

(** The hypotheses can be met: a model on 0..4, where 4 is last and has no arc, and one on 0..3,
    where 3 is last and has an arc; with unit variances and with others. *)
Example C119_example : ∃ g h h', rm_model 5 None = Ok g ∧ gauss_wf g ∧ oriented (d_arcs (g_dag g)) ∧ g_list g = seq 0 5 ∧
  (1, 2)%nat ∈ d_arcs (g_dag g) ∧ weight g 1 2 = qz 5 ∧
  rm_model 4 None = Ok h ∧ gauss_wf h ∧ oriented (d_arcs (g_dag h)) ∧ g_list h = seq 0 4 ∧ (2, 3)%nat ∈ d_arcs (g_dag h) ∧
  length (g_var h) = 4%nat ∧ g_prec h = None ∧ all_one (g_var h) ∧
  rm_model 4 (Some [1; qz 2; 1; 1]) = Ok h' ∧ gauss_wf h' ∧ oriented (d_arcs (g_dag h')) ∧ g_list h' = seq 0 4 ∧
  length (g_var h') = 4%nat ∧ g_prec h' = None ∧ ¬ all_one (g_var h').
Proof.
  destruct (rm_model_ok 5 None ltac:(lia)) as (g & Hg & ?&?&?&?&?&?&?).
  destruct (rm_model_ok 4 None ltac:(lia)) as (h & Hh & ?&?&?&?&?&?&?).
  destruct (rm_model_ok 4 (Some [1; qz 2; 1; 1]) ltac:(lia)) as (h' & Hh' & ?&?&?&?&?&?&?).
  assert (match rm_model 4 None with Ok h => bool_decide (length (g_var h) = 4%nat) && (if g_prec h then false else true) && bool_decide (all_one (g_var h)) | _ => false end = true) as C1 by by_vm.
  assert (match rm_model 4 (Some [1; qz 2; 1; 1]) with Ok h => bool_decide (length (g_var h) = 4%nat) && (if g_prec h then false else true) && bool_decide (¬ all_one (g_var h)) | _ => false end = true) as C2 by by_vm.
  rewrite Hh in C1. rewrite Hh' in C2.
  apply andb_prop in C1 as [[A1%bool_decide_eq_true A2]%andb_prop A3%bool_decide_eq_true].
  apply andb_prop in C2 as [[B1%bool_decide_eq_true B2]%andb_prop B3%bool_decide_eq_true].
  exists g, h, h'. destruct (g_prec h); [done|]. destruct (g_prec h'); [done|]. split_and!; done.
Qed.
(** A model whose labels are not indices, for [C119_raises]. *)
Example C119_raises_example : ∃ g, gauss_make oracle0 [4; 7; 2]%nat [((4, 7)%nat, qz 3)] None None = Ok g ∧ gauss_wf g ∧
  5%nat ∉ g_list g ∧ 2%nat ∈ g_list g ∧ 7%nat ∈ g_list g ∧ (length (g_list g) ≤ 7)%nat.
Proof.
  destruct (C45_constructor oracle0 [4; 7; 2]%nat [((4, 7)%nat, qz 3)] None None) as [(g & Hg & Hwf & Hl & _) _].
  { by apply (bool_decide_unpack _). } { by apply (bool_decide_unpack _). }
  { intros e w. rewrite elem_of_cons, elem_of_nil. intros [[= -> ->]|[]]; cbn; split; apply (bool_decide_unpack _); done. }
  exists g. rewrite Hl. split_and!; [done|done|by apply (bool_decide_unpack _)..|cbn; lia].
Qed.

Print Assumptions C119_remove_node.
Print Assumptions C119_raises.
Print Assumptions C119_last.
Print Assumptions C119_not_last.
Print Assumptions C119_precision.
Print Assumptions C119_weights_refuted.
Print Assumptions C119_second_refuted.
