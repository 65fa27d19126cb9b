(** Small methods that other theorems do not reach: C48, C61, C72, C106, C108. *)
From Coq Require Import QArith.Qcanon.
From Verif Require Import Py Spec SpecMec SpecMixed SpecCompare DagModel UGraphModel PdagModel CompareModel InterveneModel AncestralModel MsepModel MagModel QMatModel GaussModel ScmModel CamModel.
From Verif Require Import TopoProofs StateProofs ReachProofs CoreProofs UGraphProofs PdagProofs ShdProofs AncestralState AncestralProofs AncestralCopy MWalkProofs MsepProofs MagProofs MaxProofs
  QMatProofs GaussProofs SpecScm PropertiesDag PropertiesEnum PropertiesCompare PropertiesAncestral PropertiesMsep PropertiesMag PropertiesGauss PropertiesScm PropertiesCam.
#[local] Open Scope nat_scope.

(** ** C48: [add_arc], [remove_arc] and [to_dag] of a [GaussDAG] *)
(** [add_arc] sets the weight to 1 whatever it was before. *)
Theorem C48_add_arc (o : oracle) (g : gauss) (i j : node) :
  gauss_wf g → oriented (d_arcs (g_dag g)) → i ∈ g_list g → j ∈ g_list g →
  ∃ g', g_add_arc o i j g = (g', Ok tt) ∧ gauss_wf g' ∧ g_list g' = g_list g ∧
    (∀ x y, weight g' x y = if decide (x = i ∧ y = j) then 1%Qc else weight g x y) ∧ d_arcs (g_dag g') = {[(i, j)]} ∪ d_arcs (g_dag g).
Proof.
  intros Hg Hor Hi Hj. destruct (C48_set_arc_weight o g i j 1%Qc Hg Hor Hi Hj) as (g' & H1 & H2 & H3 & H4 & H5). exists g'. split_and!; [done..|].
  apply set_eq. intros [x y]. rewrite H5, elem_of_union, elem_of_singleton. destruct (decide (x = i ∧ y = j)) as [[-> ->]|Hne].
  - split; [by left|]. intros _ H. apply (f_equal (λ q, bool_decide (q = 0%Qc))) in H. vm_compute in H. discriminate.
  - split; [by right|]. intros [[= -> ->]|H]; [tauto|done].
Qed.
(** [remove_arc] removes the arc and its weight; a missing arc is no error. *)
Theorem C48_remove_arc (o : oracle) (g : gauss) (i j : node) :
  gauss_wf g → oriented (d_arcs (g_dag g)) → i ∈ g_list g → j ∈ g_list g →
  ∃ g', g_remove_arc o i j g = (g', Ok tt) ∧ gauss_wf g' ∧ g_list g' = g_list g ∧
    (∀ x y, weight g' x y = if decide (x = i ∧ y = j) then 0%Qc else weight g x y) ∧ d_arcs (g_dag g') = d_arcs (g_dag g) ∖ {[(i, j)]}.
Proof.
  intros Hg Hor Hi Hj. destruct (C48_set_arc_weight o g i j 0%Qc Hg Hor Hi Hj) as (g' & H1 & H2 & H3 & H4 & H5). exists g'. split_and!; [done..|].
  apply set_eq. intros [x y]. rewrite H5, elem_of_difference, elem_of_singleton. destruct (decide (x = i ∧ y = j)) as [[-> ->]|Hne].
  - split; [done|]. by intros [_ []].
  - split; [|by intros []]. intros H. split; [done|]. intros [= -> ->]. tauto.
Qed.
(** [to_dag] returns the graph with the same nodes and arcs, or fails if there is a cycle. *)
Theorem C48_to_dag (o : oracle) (g : gauss) : gauss_wf g →
  (acyclic (d_arcs (g_dag g)) → ∃ d, gauss_to_dag o g = Ok d ∧ views_agree d ∧ d_arcs d = d_arcs (g_dag g) ∧ d_nodes d = d_nodes (g_dag g)) ∧
  (¬ acyclic (d_arcs (g_dag g)) → ∃ e, gauss_to_dag o g = Raise e).
Proof.
  intros (Hv & _ & HN & _ & _). unfold gauss_to_dag. split.
  - intros Hac. destruct (dag_make_ok o (list_to_set (g_list g)) (d_arcs (g_dag g)) Hac) as [d Hd]. exists d. split; [done|].
    apply dag_make_spec in Hd as (Hwf & _ & HA & HN'). split; [by apply wf_views_agree|]. split; [done|]. rewrite HN'. apply set_eq. intros v.
    apply wf_views_agree in Hv. rewrite !elem_of_union, elem_of_list_to_set, !elem_of_map, HN. split; [|tauto].
    intros [[H|([a b] & -> & H)]|([a b] & -> & H)]; [done|..]; apply HN; cbn; by destruct (wf_over _ Hv a b H).
  - intros Hac. destruct (dag_make o _ _) as [d|e] eqn:Hd; [|by eexists]. apply dag_make_spec in Hd as (_ & H & HA & _). by rewrite HA in H.
Qed.

(** ** C61: [PDAG.shd_skeleton] *)
(** It counts the pairs adjacent in exactly one of the graphs, is symmetric, satisfies the triangle inequality and is
    0 exactly for equal skeletons. *)
Theorem C61_shd_skeleton g h k : pdag_wf g → pdag_wf h → pdag_wf k →
  (∃ L : arcset, (∀ x y, (x, y) ∈ L ↔ x < y ∧ ¬ (y ∈ p_neighbors g x ↔ y ∈ p_neighbors h x)) ∧ p_shd_skeleton g h = size L) ∧
  p_shd_skeleton g h = p_shd_skeleton h g ∧ (p_shd_skeleton g h = 0 ↔ ∀ x y, y ∈ p_neighbors g x ↔ y ∈ p_neighbors h x) ∧
  p_shd_skeleton g k ≤ p_shd_skeleton g h + p_shd_skeleton h k.
Proof.
  rewrite <-!pok_pdag_wf. intros Hg Hh Hk. unfold p_shd_skeleton.
  assert (∀ g, pok g → ∀ x y, (x, y) ∈ p_skeleton g ↔ x < y ∧ y ∈ p_neighbors g x) as Hs.
  { clear. intros g Hg x y. rewrite (pok_nbr g Hg), (pok_unb g Hg). unfold p_skeleton. assert (x < y → upair x y = (x, y)) as Hu.
    { intros H. unfold upair. by rewrite Nat.min_l, Nat.max_r by lia. }
    split.
    - intros H. assert (x < y) as Hlt.
      { apply elem_of_as_edges in H as ([a b] & Ha & Heq). cbn in Heq.
        assert (a ≠ b). { intros ->. apply elem_of_union in Ha as [Ha|Ha]; [by apply (pok_irr g b Hg)|]. apply (pok_edge g Hg) in Ha. cbn in Ha. lia. }
        pose proof (upair_lt a b). rewrite <-Heq in *. cbn in *. auto. }
      split; [done|]. rewrite <-(Hu Hlt) in H. apply upair_as_edges in H. unfold adjacent in H. rewrite !elem_of_union in H.
      rewrite Hu by done. assert ((y, x) ∉ p_edges g) by (intros H'; apply (pok_edge g Hg) in H'; cbn in H'; lia).
      assert (x ≠ y) by lia. tauto.
    - intros [Hlt H]. rewrite <-(Hu Hlt). apply upair_as_edges. unfold adjacent. rewrite !elem_of_union. rewrite Hu in H by done. tauto. }
  split; [|split; [by rewrite sym_diff_comm|split]].
  - exists (sym_diff (p_skeleton g) (p_skeleton h)). split; [|done]. intros x y. rewrite elem_of_sym_diff, !Hs by done.
    destruct (decide (y ∈ p_neighbors g x)), (decide (y ∈ p_neighbors h x)); tauto.
  - assert (∀ g, pok g → ∀ x y, y ∈ p_neighbors g x ↔ (x, y) ∈ p_skeleton g ∨ (y, x) ∈ p_skeleton g) as Hn.
    { clear -Hs. intros g Hg x y. rewrite !Hs by done.
      assert (y ∈ p_neighbors g x ↔ x ∈ p_neighbors g y) as Hsym. { rewrite !(pok_nbr g Hg), !(pok_unb g Hg), (upair_comm y x). naive_solver. }
      rewrite <-Hsym. split; [|tauto]. intros H. destruct (Nat.lt_trichotomy x y) as [?|[->|?]]; [tauto| |tauto].
      rewrite (pok_nbr g Hg), (pok_unb g Hg) in H. pose proof (pok_irr g y Hg). tauto. }
    split.
    + intros H x y. assert (p_skeleton g = p_skeleton h) as Heq by (apply sym_diff_empty; by apply leibniz_equiv, size_empty_inv).
      by rewrite (Hn g Hg), (Hn h Hh), Heq.
    + intros H. assert (p_skeleton g = p_skeleton h) as ->. { apply set_eq. intros [x y]. by rewrite !Hs, H by done. }
      assert (sym_diff (p_skeleton h) (p_skeleton h) = ∅) as ->; [|apply size_empty]. apply set_eq. intros e. rewrite elem_of_sym_diff.
      split; [tauto|by intros ?%not_elem_of_empty].
  - etrans; [apply (subseteq_size _ (sym_diff (p_skeleton g) (p_skeleton h) ∪ sym_diff (p_skeleton h) (p_skeleton k)))|].
    + intros e. rewrite elem_of_union, !elem_of_sym_diff. destruct (decide (e ∈ p_skeleton h)); tauto.
    + rewrite size_union_alt. apply Nat.add_le_mono_l. apply subseteq_size. set_solver.
Qed.

(** ** C72: [markov_blanket_of] with [flat=False] *)
(** The dictionary has exactly the district of the node as keys, each once, with its parents. *)
Theorem C72_blanket_dict g o v : ag_wf g → ∃ l, mag_blanket_dict g o v = Ok l ∧ NoDup l.*1 ∧
  (∀ u, u ∈ l.*1 ↔ rtc (spouse (gmix g)) v u) ∧ ∀ u X x, (u, X) ∈ l → x ∈ X ↔ (x, u) ∈ g_dir g.
Proof.
  rewrite <-gok_ag_wf. intros Hg. unfold mag_blanket_dict. destruct (district_of_spec g Hg o v None) as (D & -> & HD). cbn [res_bind default] in *.
  eexists. split; [reflexivity|]. assert (((λ u, (u, g_parents g u)) <$> on o [97] D).*1 = on o [97] D) as Hk.
  { rewrite <-list_fmap_compose. apply list_fmap_id. }
  rewrite Hk. split; [apply NoDup_on|]. split.
  - intros u. rewrite elem_of_on, HD. apply rtc_iff. intros a b. split; [tauto|]. intros Hs. split; [done|]. apply (madj_nodes g Hg a b). unfold madj. tauto.
  - intros u X x (w & [= -> ->] & _)%elem_of_list_fmap. apply (gok_par g Hg).
Qed.

(** ** C108, C106: setting a function of a node *)
(** The node then uses the given function, all other nodes are computed as before. *)
Theorem C108_set_mean_function o n v f C : let C' := set_mean_function v f C in
  cm_dag C' = cm_dag C ∧ cm_list C' = cm_list C ∧
  (∀ u m, u ≠ v → cam_node o C' n u m = cam_node o C n u m ∧ mean_node o C' n u m = mean_node o C n u m) ∧
  (∀ h m, cam_node o C' n v m = cam_node o (set_mean_function v f (set_mean_function v h C)) n v m) ∧
  cm_mean C' !! v = Some f ∧ cm_noise C' = cm_noise C.
Proof.
  cbn zeta. split; [done|]. split; [done|]. split; [|split; [|split; [apply lookup_insert|done]]].
  - intros u m Hu. unfold cam_node, mean_node. cbn [set_mean_function cm_dag cm_list cm_mean cm_noise]. by rewrite lookup_insert_ne by done.
  - intros h m. unfold set_mean_function. cbn. by rewrite insert_insert.
Qed.
Theorem C108_set_noise o n v f C : let C' := set_noise v f C in
  cm_dag C' = cm_dag C ∧ cm_list C' = cm_list C ∧
  (∀ u m, u ≠ v → cam_node o C' n u m = cam_node o C n u m) ∧ (∀ u m, mean_node o C' n u m = mean_node o C n u m) ∧
  (∀ h m, cam_node o C' n v m = cam_node o (set_noise v f (set_noise v h C)) n v m) ∧
  cm_noise C' !! v = Some f ∧ cm_mean C' = cm_mean C.
Proof.
  cbn zeta. split; [done|]. split; [done|]. split; [|split; [done|split; [|split; [apply lookup_insert|done]]]].
  - intros u m Hu. unfold cam_node. cbn [set_noise cm_dag cm_list cm_mean cm_noise]. by rewrite lookup_insert_ne by done.
  - intros h m. unfold set_noise. cbn. by rewrite insert_insert.
Qed.
Theorem C106_set_conditional o n v f S : let S' := set_conditional v f S in
  s_dag S' = s_dag S ∧ s_list S' = s_list S ∧ (∀ u m, u ≠ v → scm_node o S' n u m = scm_node o S n u m) ∧
  (∀ h m, scm_node o S' n v m = scm_node o (set_conditional v f (set_conditional v h S)) n v m) ∧ s_cond S' !! v = Some f.
Proof.
  cbn zeta. split; [done|]. split; [done|]. split; [|split; [|apply lookup_insert]].
  - intros u m Hu. unfold scm_node. cbn [set_conditional s_dag s_list s_cond]. by rewrite lookup_insert_ne by done.
  - intros h m. unfold set_conditional. cbn. by rewrite insert_insert.
Qed.

(** ** Examples *)
(** A graph with an arc from 0 to 1: an arc is added, the old one removed, and a cycle makes [to_dag] fail. *)
Example C48_add_remove_example :
  match gauss_make oracle0 [0; 1; 2] [((2, 1), qz 2); ((2, 0), qz (-1))] None None with
  | Ok g => let g1 := (g_add_arc oracle0 0 1 g).1 in let g2 := (g_remove_arc oracle0 2 1 g1).1 in
    bool_decide (weight g1 0 1 = 1%Qc ∧ weight g1 2 1 = qz 2 ∧ d_arcs (g_dag g2) = {[(2, 0); (0, 1)]} ∧ weight g2 2 1 = 0%Qc) &&
    match gauss_to_dag oracle0 g2 with Ok d => bool_decide (d_arcs d = {[(2, 0); (0, 1)]} ∧ d_nodes d = {[0; 1; 2]}) | _ => false end
  | _ => false end = true.
Proof. by_vm. Qed.
Example C61_shd_skeleton_example :
  match cpdag cx1_dag oracle0, cpdag cx2_dag oracle0 with
  | Ok g, Ok h => bool_decide (p_shd_skeleton g h ≤ p_shd g h ∧ p_shd_skeleton g g = 0) | _, _ => false end = true.
Proof. vm_compute. reflexivity. Qed.
Example C72_blanket_dict_example : ag_wf ms_ag ∧
  match mag_blanket_dict ms_ag oracle0 4 with Ok l => bool_decide (⋃ l.*2 ∪ list_to_set l.*1 = ({[1; 2; 3; 4; 8]} : nset) ∧ 2 ≤ length l) | _ => false end = true.
Proof. split; [apply ms_wf|by vm_compute]. Qed.
(** The new noise of node 0 is used by [sample], and the column of node 1 follows. *)
Example C108_setters_example :
  cam_sample oracle0 (set_noise 0 (λ n, Ok (replicate n (zq 5))) lin_cam) 2 = Ok [[zq 11; zq 11]; [zq 5; zq 5]] ∧
  cam_sample oracle0 (set_mean_function 1 (λ _ n _, Ok (replicate n (zq 7))) lin_cam) 2 = Ok [[zq 7; zq 7]; [1%Qc; (- (1))%Qc]].
Proof. split; by_vm. Qed.
Example C106_set_conditional_example : scm_wf chain_scm ∧
  scm_sample oracle0 (set_conditional 1 (λ _, Ok (Scal 1%Qc)) chain_scm) 2 = Ok [[zq 3; zq 3]; [1%Qc; zq 2]; [1%Qc; 1%Qc]].
Proof. split; [apply chain_scm_wf|]. by_vm. Qed.

Print Assumptions C48_add_arc.
Print Assumptions C48_remove_arc.
Print Assumptions C48_to_dag.
Print Assumptions C61_shd_skeleton.
Print Assumptions C72_blanket_dict.
Print Assumptions C108_set_mean_function.
Print Assumptions C108_set_noise.
Print Assumptions C106_set_conditional.
