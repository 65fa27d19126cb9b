(** Final theorems about [SemiMarkovian]: C52, C74, C75. *)
From Verif Require Import Py Spec DagModel UGraphModel PdagModel AncestralModel MagModel SemiModel
  TopoProofs StateProofs ReachProofs CoreProofs UGraphProofs AncestralCopy MagProofs PropertiesDag.

(** The derived dictionaries agree with the sets of edges, which run between nodes. *)
Definition sm_wf (g : sm) : Prop :=
  (∀ x y, y ∈ s_children g x ↔ (x, y) ∈ s_dir g) ∧ (∀ x y, y ∈ s_parents g x ↔ (y, x) ∈ s_dir g) ∧
  (∀ x y, y ∈ s_spouses g x ↔ upair x y ∈ s_bi g) ∧
  (∀ x y, y ∈ s_adjacent g x ↔ adjacent (s_dir g) x y ∨ upair x y ∈ s_bi g) ∧
  over (s_nodes g) (s_dir g) ∧ over (s_nodes g) (s_bi g) ∧ ∀ x y, (x, y) ∈ s_bi g → x ≤ y.

Lemma upair_over (N : nset) (X : arcset) x y : over N X → upair x y ∈ X → x ∈ N ∧ y ∈ N.
Proof.
  intros Ho. unfold upair. destruct (Nat.le_gt_cases x y).
  - rewrite Nat.min_l, Nat.max_r by done. apply Ho.
  - rewrite Nat.min_r, Nat.max_l by lia. intros H0%Ho. tauto.
Qed.

(** ** C74: construction and queries *)

Lemma s_add_directed_wf i j g : sm_wf g → sm_wf (s_add_directed i j g).
Proof.
  intros (H1 & H2 & H3 & H4 & H5 & H6 & H7). unfold sm_wf, s_children, s_parents, s_spouses, s_adjacent, adjacent, over in *. cbn.
  split_and!.
  - intros x y. rewrite dget_dadd, elem_of_union, elem_of_singleton. case_decide as E; [subst|]; rewrite ?elem_of_union, ?elem_of_singleton, H1; naive_solver.
  - intros x y. rewrite dget_dadd, elem_of_union, elem_of_singleton. case_decide as E; [subst|]; rewrite ?elem_of_union, ?elem_of_singleton, H2; naive_solver.
  - done.
  - intros x y. rewrite !dget_dadd, !elem_of_union, !elem_of_singleton.
    destruct (decide (j = x)), (decide (i = x)); subst; rewrite ?elem_of_union, ?elem_of_singleton, H4; naive_solver.
  - intros x y. rewrite !elem_of_union, !elem_of_singleton. intros [[= -> ->]|H%H5]; [tauto|]. tauto.
  - intros x y. rewrite !elem_of_union, !elem_of_singleton. intros H%H6. tauto.
  - done.
Qed.
Lemma s_add_bidirected_wf i j g : sm_wf g → sm_wf (s_add_bidirected i j g).
Proof.
  intros (H1 & H2 & H3 & H4 & H5 & H6 & H7). unfold sm_wf, s_children, s_parents, s_spouses, s_adjacent, adjacent, over in *. cbn.
  split_and!; [done|done|..].
  - intros x y. rewrite !dget_dadd, !elem_of_union, !elem_of_singleton, upair_inj.
    destruct (decide (i = x)), (decide (j = x)); subst; rewrite ?elem_of_union, ?elem_of_singleton, H3; naive_solver.
  - intros x y. rewrite !dget_dadd, !elem_of_union, !elem_of_singleton, upair_inj.
    destruct (decide (j = x)), (decide (i = x)); subst; rewrite ?elem_of_union, ?elem_of_singleton, H4; naive_solver.
  - intros x y. rewrite !elem_of_union, !elem_of_singleton. intros H%H5. tauto.
  - intros x y. rewrite !elem_of_union, !elem_of_singleton. unfold upair. intros [[= -> ->]|H%H6]; [|tauto].
    destruct (Nat.min_spec i j) as [[_ ->]|[_ ->]], (Nat.max_spec i j) as [[_ ->]|[_ ->]]; tauto.
  - intros x y. rewrite elem_of_union, elem_of_singleton. unfold upair. intros [[= -> ->]|H%H7]; [lia|done].
Qed.
Lemma sm_make_spec (N : nset) (D B : list arc) :
  sm_wf (sm_make N D B) ∧ s_dir (sm_make N D B) = list_to_set D ∧
  (∀ x y, upair x y ∈ s_bi (sm_make N D B) ↔ (x, y) ∈ B ∨ (y, x) ∈ B) ∧
  ∀ v, v ∈ s_nodes (sm_make N D B) ↔ v ∈ N ∨ ∃ e : arc, (e ∈ D ∨ e ∈ B) ∧ (v = e.1 ∨ v = e.2).
Proof.
  unfold sm_make. set (g0 := Sm N ∅ ∅ ∅ ∅ ∅ ∅).
  assert (sm_wf g0) as W0.
  { unfold sm_wf, s_children, s_parents, s_spouses, s_adjacent, adjacent, over, dget. cbn. setoid_rewrite lookup_empty. cbn.
    split_and!; intros x y; rewrite ?elem_of_empty; tauto. }
  assert (∀ D g, sm_wf g → let h := foldl (λ g e, s_add_directed e.1 e.2 g) g D in
    sm_wf h ∧ s_dir h = list_to_set D ∪ s_dir g ∧ s_bi h = s_bi g ∧
    ∀ v, v ∈ s_nodes h ↔ v ∈ s_nodes g ∨ ∃ e : arc, e ∈ D ∧ (v = e.1 ∨ v = e.2)) as HD.
  { clear. intros D. induction D as [|[i j] D IH]; intros g W; cbn [foldl].
    { split_and!; [done|set_solver|done|]. intros v. split; [by left|]. intros [?|(e & He & _)]; [done|by apply elem_of_nil in He]. }
    destruct (IH _ (s_add_directed_wf i j g W)) as (I1 & I2 & I3 & I4). split_and!; [done|etrans; [exact I2|]; cbn; clear; set_solver|done|].
    intros v. etrans; [apply I4|]. cbn. rewrite !elem_of_union, !elem_of_singleton. setoid_rewrite elem_of_cons. clear. split.
    - intros [[->|[->|?]]|(e & ? & ?)]; [right; exists (i, j)|right; exists (i, j)|left|right; exists e]; cbn; tauto.
    - intros [?|(e & [->|?] & ?)]; [tauto|cbn in *; tauto|]. right. by exists e. }
  assert (∀ B g, sm_wf g → let h := foldl (λ g e, s_add_bidirected e.1 e.2 g) g B in
    sm_wf h ∧ s_dir h = s_dir g ∧ (∀ x y, upair x y ∈ s_bi h ↔ upair x y ∈ s_bi g ∨ (x, y) ∈ B ∨ (y, x) ∈ B) ∧
    ∀ v, v ∈ s_nodes h ↔ v ∈ s_nodes g ∨ ∃ e : arc, e ∈ B ∧ (v = e.1 ∨ v = e.2)) as HB.
  { clear. intros B. induction B as [|[i j] B IH]; intros g W; cbn [foldl].
    { split_and!; [done|done|intros x y; rewrite !elem_of_nil; tauto|]. intros v. split; [by left|]. intros [?|(e & He & _)]; [done|by apply elem_of_nil in He]. }
    destruct (IH _ (s_add_bidirected_wf i j g W)) as (I1 & I2 & I3 & I4). split_and!; [done|done|..].
    - intros x y. etrans; [apply I3|]. cbn. rewrite elem_of_union, elem_of_singleton, upair_inj, !elem_of_cons. clear. naive_solver.
    - intros v. etrans; [apply I4|]. cbn. rewrite !elem_of_union, !elem_of_singleton. setoid_rewrite elem_of_cons. clear. split.
      + intros [[->|[->|?]]|(e & ? & ?)]; [right; exists (i, j)|right; exists (i, j)|left|right; exists e]; cbn; tauto.
      + intros [?|(e & [->|?] & ?)]; [tauto|cbn in *; tauto|]. right. by exists e. }
  destruct (HD D g0 W0) as (I1 & I2 & I3 & I4). destruct (HB B _ I1) as (J1 & J2 & J3 & J4). split; [done|]. split; [|split].
  - rewrite J2, I2. cbn. clear. set_solver.
  - intros x y. rewrite J3, I3. cbn. rewrite elem_of_empty. tauto.
  - intros v. rewrite J4, I4. cbn. clear. naive_solver.
Qed.

Theorem C74_new (N : nset) (D B : list arc) :
  let g := sm_make N D B in
  sm_wf g ∧ s_dir g = list_to_set D ∧ (∀ x y, upair x y ∈ s_bi g ↔ (x, y) ∈ B ∨ (y, x) ∈ B) ∧
  ∀ v, v ∈ s_nodes g ↔ v ∈ N ∨ ∃ e : arc, (e ∈ D ∨ e ∈ B) ∧ (v = e.1 ∨ v = e.2).
Proof. apply sm_make_spec. Qed.

Theorem C74_c_components g o :
  sm_wf g → ∃ cs, s_components g o = Ok cs ∧
    (∀ c, c ∈ cs → c ≠ ∅ ∧ c ⊆ s_nodes g) ∧ (∀ v, v ∈ s_nodes g → ∃ c, c ∈ cs ∧ v ∈ c) ∧
    (∀ i j c c', cs !! i = Some c → cs !! j = Some c' → i ≠ j → c ## c') ∧
    (∀ x y, x ∈ s_nodes g → (∃ c, c ∈ cs ∧ x ∈ c ∧ y ∈ c) ↔ rtc (λ a b, upair a b ∈ s_bi g) x y).
Proof.
  intros (_ & _ & H3 & _ & _ & H6 & H7). unfold s_components.
  assert (∀ x y, upair x y ∈ s_bi g → x ∈ s_nodes g ∧ y ∈ s_nodes g) as Hov.
  { intros x y. by apply upair_over. }
  destruct (dfs_all_spec (s_spouses g) o (s_nodes g)) with (N := s_nodes g) as (cs & vis & -> & A1 & A2 & A3); [|..].
  { intros v x Hx. apply H3, Hov in Hx. tauto. }
  { intros x y. rewrite !H3. by rewrite upair_comm. }
  { done. }
  exists cs. split; [done|].
  set (R := λ a b, upair a b ∈ s_bi g).
  assert (∀ v x, rtc (λ x y, y ∈ s_spouses g x) v x ↔ rtc R v x) as HR.
  { intros v x. split; intros Hr; (induction Hr as [|x y z Hxy _ IH]; [apply rtc_refl|]); (eapply rtc_l; [|exact IH]); by apply H3. }
  assert (∀ x y, rtc R x y → rtc R y x) as Hsym.
  { intros x y Hr. induction Hr as [|x y z Hxy _ IH]; [apply rtc_refl|]. eapply rtc_r; [exact IH|]. unfold R in *. by rewrite upair_comm. }
  split_and!; [|done|done|].
  - intros c Hc. destruct (A1 c Hc) as (v & Hv & Hx). split.
    + intros ->. apply (not_elem_of_empty (C := nset) v). apply Hx. apply rtc_refl.
    + intros x Hr%Hx. apply HR in Hr. clear -Hov Hv Hr. induction Hr as [|x y z Hxy _ IH]; [done|]. apply IH. by apply (Hov x y).
  - intros x y Hx. split.
    + intros (c & Hc & Hxc & Hyc). destruct (A1 c Hc) as (v & _ & Hv). apply Hv, HR in Hxc, Hyc. etrans; [by apply Hsym|done].
    + intros Hr. destruct (A2 x Hx) as (c & Hc & Hxc). exists c. split_and!; [done..|]. destruct (A1 c Hc) as (v & _ & Hv).
      apply Hv, HR. apply Hv, HR in Hxc. by etrans.
Qed.

Theorem C74_topological_sort g o :
  sm_wf g →
  (acyclic (s_dir g) → ∃ l, s_topological_sort g o = Ok l ∧ topo_order (s_nodes g) (s_dir g) l) ∧
  (¬ acyclic (s_dir g) → s_topological_sort g o = Raise RuntimeError).
Proof.
  intros (H1 & _ & _ & _ & H5 & _). unfold s_topological_sort.
  set (d := repair (Dag (s_nodes g) (s_dir g) ∅ (s_par g) (s_chi g))).
  assert (d_nodes d = s_nodes g) as HN by (unfold d; by rewrite repair_nodes).
  assert (d_arcs d = s_dir g) as HE by (unfold d; by rewrite repair_arcs).
  assert (wf d) as Hwf by apply repair_wf.
  rewrite (topological_sort_ext _ d o).
  - pose proof (C05_topological_sort d o (proj1 (wf_views_agree d) Hwf)) as [A1 A2]. rewrite HN, HE in A1. rewrite HE in A2. split; intros Hc.
    + destruct (A1 Hc) as (l & -> & Hl). by exists l.
    + by destruct (A2 Hc) as (w & -> & _).
  - by rewrite HN.
  - intros n. apply set_eq. intros x. rewrite (wf_chi d Hwf), HE. unfold children. cbn. apply H1.
Qed.

(** Subgraphs; the code fails when a bidirected self-loop was stored. *)
Lemma s_unpack_spec o k flip g :
  sm_wf g → (∀ x, upair x x ∉ s_bi g) →
  ∃ B, s_unpack o k flip (s_bi g) = Ok B ∧ ∀ x y, (x, y) ∈ B ∨ (y, x) ∈ B ↔ upair x y ∈ s_bi g.
Proof.
  intros (_ & _ & _ & _ & _ & _ & H7) Hl. unfold s_unpack. rewrite decide_True.
  2:{ intros [x y] He. cbn. intros ->. apply (Hl y). unfold upair. by rewrite Nat.min_id, Nat.max_id. }
  eexists. split; [done|]. intros x y. rewrite !elem_of_list_fmap. setoid_rewrite elem_of_oa.
  assert (∀ x y, (x, y) ∈ s_bi g → upair x y = (x, y)) as Hup.
  { intros a b H%H7. unfold upair. by rewrite Nat.min_l, Nat.max_r by done. }
  split.
  - intros [([a b] & E & Hab)|([a b] & E & Hab)]; unfold unpack in E; destruct (flip (a, b)); cbn in E; injection E as -> ->;
      rewrite <-(Hup _ _ Hab) in Hab; first [done|by rewrite upair_comm].
  - intros H. assert (∃ a b, upair x y = (a, b) ∧ ((a = x ∧ b = y) ∨ (a = y ∧ b = x))) as (a & b & E & Hab).
    { unfold upair. eexists _, _. split; [done|]. lia. }
    rewrite E in H. destruct (flip (a, b)) eqn:Hf; destruct Hab as [[-> ->]|[-> ->]].
    + right. exists (x, y). unfold unpack. by rewrite Hf.
    + left. exists (y, x). unfold unpack. by rewrite Hf.
    + left. exists (x, y). unfold unpack. by rewrite Hf.
    + right. exists (y, x). unfold unpack. by rewrite Hf.
Qed.

Theorem C74_induced_subgraph g o flip (X : nset) :
  sm_wf g → (∀ x, upair x x ∉ s_bi g) →
  ∃ h, s_induced g o flip X = Ok h ∧ sm_wf h ∧ s_nodes h = X ∧
    (∀ x y, (x, y) ∈ s_dir h ↔ (x, y) ∈ s_dir g ∧ x ∈ X ∧ y ∈ X) ∧
    ∀ x y, upair x y ∈ s_bi h ↔ upair x y ∈ s_bi g ∧ x ∈ X ∧ y ∈ X.
Proof.
  intros Hg Hl. unfold s_induced. destruct (s_unpack_spec o [127] flip g Hg Hl) as (B & -> & HB). cbn [res_bind].
  set (D := oa o [128] _). set (B' := oa o [129] _). destruct (sm_make_spec X D B') as (I1 & I2 & I3 & I4).
  eexists. split; [done|]. split; [done|].
  assert (∀ e, e ∈ D ↔ e ∈ s_dir g ∧ e.1 ∈ X ∧ e.2 ∈ X) as HD by (intros e; unfold D; rewrite elem_of_oa, elem_of_filter; tauto).
  assert (∀ e, e ∈ B' ↔ e ∈ B ∧ e.1 ∈ X ∧ e.2 ∈ X) as HB'.
  { intros e. unfold B'. rewrite elem_of_oa, elem_of_list_to_set, elem_of_list_filter. tauto. }
  split_and!.
  - apply set_eq. intros v. rewrite I4. setoid_rewrite HD. setoid_rewrite HB'. split; [|tauto].
    intros [?|(e & [?|?] & [->| ->])]; tauto.
  - intros x y. rewrite I2, elem_of_list_to_set, HD. done.
  - intros x y. rewrite I3, !HB', <-HB. cbn. tauto.
Qed.

(** With a bidirected self-loop no subgraph and no mutilated graph is built. *)
Theorem C74_self_loop g o flip v (X Y : nset) :
  upair v v ∈ s_bi g →
  s_induced g o flip X = Raise ValueError ∧ s_removed g o flip X = Raise ValueError ∧ s_mutilated g o flip (Some X) (Some Y) = Raise ValueError.
Proof.
  intros Hv.
  assert (∀ k, s_unpack o k flip (s_bi g) = Raise ValueError) as Hs.
  { intros k. unfold s_unpack. rewrite decide_False; [done|]. intros H. apply (H _ Hv). unfold upair. cbn. lia. }
  split; [unfold s_induced; by rewrite Hs|]. split; [unfold s_removed, s_induced; by rewrite Hs|].
  unfold s_mutilated. set (f := λ (e : arc) (acc : arcset), if decide (e.1 ∈ X) then Ok acc else Ok (if decide (e.2 ∈ Y) then acc else {[e]} ∪ acc)).
  assert (∀ l acc, ∃ D, loopR f l acc = Ok D) as Hloop.
  { intros l. induction l as [|a l IH]; intros acc; cbn [loopR]; [by exists acc|]. unfold f at 1. destruct (decide (a.1 ∈ X)); apply IH. }
  destruct (Hloop (oa o [126] (s_dir g)) ∅) as (D & E). match goal with |- context [loopR ?h ?l ∅] => change (loopR h l ∅) with (loopR f l ∅) end.
  rewrite E. cbn [res_bind]. by rewrite Hs.
Qed.
Example C74_self_loop_example :
  let g := sm_make {[1; 2]} [(1, 2)] [(2, 2)] in upair 2 2 ∈ s_bi g ∧ s_removed g oracle0 (λ _, false) {[2]} = Raise ValueError.
Proof. cbn zeta. split; [by_vm|by vm_compute]. Qed.
Theorem C74_removed_nodes g o flip (R : nset) :
  sm_wf g → (∀ x, upair x x ∉ s_bi g) →
  ∃ h, s_removed g o flip R = Ok h ∧ sm_wf h ∧ s_nodes h = s_nodes g ∖ R ∧
    (∀ x y, (x, y) ∈ s_dir h ↔ (x, y) ∈ s_dir g ∧ x ∉ R ∧ y ∉ R) ∧
    ∀ x y, upair x y ∈ s_bi h ↔ upair x y ∈ s_bi g ∧ x ∉ R ∧ y ∉ R.
Proof.
  intros Hg Hl. unfold s_removed. destruct (C74_induced_subgraph g o flip (s_nodes g ∖ R) Hg Hl) as (h & E & H1 & H2 & H3 & H4).
  exists h. split_and!; [done..| |].
  - intros x y. rewrite H3, !elem_of_difference. split; [tauto|]. intros (H & Hx & Hy). destruct Hg as (_ & _ & _ & _ & Ho & _).
    pose proof (Ho _ _ H). tauto.
  - intros x y. rewrite H4, !elem_of_difference. split; [tauto|]. intros (H & ? & ?).
    assert (x ∈ s_nodes g ∧ y ∈ s_nodes g); [|tauto]. eapply upair_over; [|exact H]. apply Hg.
Qed.

Theorem C74_mutilated_graph g o flip (X Y : nset) :
  sm_wf g → (∀ x, upair x x ∉ s_bi g) →
  ∃ h, s_mutilated g o flip (Some X) (Some Y) = Ok h ∧ sm_wf h ∧ s_nodes h = s_nodes g ∧
    (∀ x y, (x, y) ∈ s_dir h ↔ (x, y) ∈ s_dir g ∧ x ∉ X ∧ y ∉ Y) ∧
    ∀ x y, upair x y ∈ s_bi h ↔ upair x y ∈ s_bi g.
Proof.
  intros Hg Hl. unfold s_mutilated.
  set (f := λ (e : arc) (acc : arcset), if decide (e.1 ∈ X) then Ok acc else Ok (if decide (e.2 ∈ Y) then acc else {[e]} ∪ acc)).
  assert (∀ l acc, ∃ D, loopR f l acc = Ok D ∧ ∀ e, e ∈ D ↔ e ∈ acc ∨ e ∈ l ∧ e.1 ∉ X ∧ e.2 ∉ Y) as Hloop.
  { intros l. induction l as [|a l IH]; intros acc; cbn [loopR]; [exists acc; split; [done|]; intros e; rewrite elem_of_nil; tauto|].
    unfold f at 1. destruct (decide (a.1 ∈ X)) as [Ha|Ha].
    - destruct (IH acc) as (D & E & HD). exists D. split; [done|]. intros e. rewrite HD, elem_of_cons. split; [tauto|]. intros [?|[[->|?] ?]]; tauto.
    - destruct (IH (if decide (a.2 ∈ Y) then acc else {[a]} ∪ acc)) as (D & E & HD). exists D. split; [done|]. intros e. rewrite HD, elem_of_cons.
      destruct (decide (a.2 ∈ Y)) as [Hb|Hb].
      + split; [tauto|]. intros [?|[[->|?] ?]]; tauto.
      + rewrite elem_of_union, elem_of_singleton. split; [|tauto]. intros [[->|?]|?]; tauto. }
  destruct (Hloop (oa o [126] (s_dir g)) ∅) as (D & E & HD). match goal with |- context [loopR ?h ?l ∅] => change (loopR h l ∅) with (loopR f l ∅) end. rewrite E. cbn [res_bind].
  destruct (s_unpack_spec o [127] flip g Hg Hl) as (B & -> & HB). cbn [res_bind].
  set (D' := oa o [128] D). destruct (sm_make_spec (s_nodes g) D' B) as (I1 & I2 & I3 & I4).
  eexists. split; [done|]. split; [done|]. setoid_rewrite elem_of_oa in HD.
  assert (∀ e, e ∈ D' ↔ e ∈ s_dir g ∧ e.1 ∉ X ∧ e.2 ∉ Y) as HD' by (intros e; unfold D'; rewrite elem_of_oa, HD, elem_of_empty; tauto).
  split_and!.
  - apply set_eq. intros v. rewrite I4. split; [|tauto]. destruct Hg as (_ & _ & _ & _ & H5 & H6 & _).
    intros [?|([x y] & [H|H] & Hv)]; [done|..]; cbn in Hv.
    + apply HD' in H as [H%H5 _]. destruct Hv as [->| ->]; tauto.
    + assert (upair x y ∈ s_bi g) as [? ?]%(upair_over _ _ _ _ H6) by (apply HB; tauto). by destruct Hv as [->| ->].
  - intros x y. rewrite I2, elem_of_list_to_set, HD'. done.
  - intros x y. by rewrite I3, HB.
Qed.

(** With the default [outgoing_mutilated=None], as in the call on line 255, the
    method fails on every graph with a directed edge. *)
Theorem C74_mutilated_default_refuted g o flip inc :
  s_dir g ≠ ∅ → s_mutilated g o flip None inc = Raise TypeError.
Proof.
  intros Hne. unfold s_mutilated. destruct (oa o [126] (s_dir g)) as [|e l] eqn:He; [|done].
  destruct Hne. apply set_eq. intros a. rewrite <-(elem_of_oa o [126]), He. set_solver.
Qed.

Definition ex_sm : sm := sm_make {[9]} [(1, 2); (2, 3); (1, 4)] [(1, 3); (4, 3)].
Example C74_example :
  sm_wf ex_sm ∧ (∀ x, upair x x ∉ s_bi ex_sm) ∧ acyclic (s_dir ex_sm) ∧
  s_nodes ex_sm = {[1; 2; 3; 4; 9]} ∧ s_bi ex_sm = {[(1, 3); (3, 4)]} ∧
  match s_components ex_sm oracle0 with Ok cs => bool_decide (cs ≡ₚ [{[1; 3; 4]}; {[2]}; {[9]}]) | _ => false end = true ∧
  match s_induced ex_sm oracle0 (λ _, true) {[1; 2; 3]} with Ok h => bool_decide (s_dir h = {[(1, 2); (2, 3)]} ∧ s_bi h = {[(1, 3)]}) | _ => false end = true ∧
  match s_mutilated ex_sm oracle0 (λ _, true) (Some {[2]}) (Some {[4]}) with Ok h => bool_decide (s_dir h = {[(1, 2)]}) | _ => false end = true.
Proof.
  split; [apply sm_make_spec|]. split_and!; [|by_vm..].
  intros x. destruct (sm_make_spec {[9]} [(1, 2); (2, 3); (1, 4)] [(1, 3); (4, 3)]) as (_ & _ & H & _). fold ex_sm in H. rewrite H. set_solver by lia.
Qed.

(** ** C52: [ancestors_of] *)

Lemma s_parents_of_spec g (X : nset) :
  sm_wf g → X ≠ ∅ → ∃ ps, s_parents_of g X = Ok ps ∧ ∀ x, x ∈ ps ↔ ∃ v, v ∈ X ∧ (x, v) ∈ s_dir g.
Proof.
  intros (_ & H2 & _) HX. unfold s_parents_of. rewrite decide_False by done. eexists. split; [done|].
  revert HX. intros _. apply (set_fold_ind_L (λ (acc X : nset), ∀ x, x ∈ acc ↔ ∃ v, v ∈ X ∧ (x, v) ∈ s_dir g)).
  - set_solver.
  - intros v Y acc _ IH x. rewrite elem_of_union, IH, H2. set_solver.
Qed.

Lemma s_add_ancestors_spec g fuel (X anc : nset) :
  sm_wf g → size (s_nodes g ∖ anc) + 1 < fuel →
  ∃ anc', s_add_ancestors g fuel X anc = (anc', Raise TypeError) ∧
    (∀ x, x ∈ anc' → x ∈ anc ∨ ∃ v, v ∈ X ∧ tc (edge (s_dir g)) x v) ∧ anc ⊆ anc' ∧
    (∀ x v, v ∈ X ∨ v ∈ anc' ∧ v ∉ anc → (x, v) ∈ s_dir g → x ∈ anc').
Proof.
  intros Hg. revert X anc. induction fuel as [|fuel IH]; intros X anc Hf; [lia|]. cbn [s_add_ancestors].
  destruct (decide (X = ∅)) as [->|HX].
  { unfold s_parents_of. rewrite decide_True by done. exists anc. split_and!; [done|by left|done|]. intros x v [?|[??]]; [set_solver|done]. }
  destruct (s_parents_of_spec g X Hg HX) as (ps & -> & Hps). set (new := ps ∖ anc).
  assert (ps ⊆ s_nodes g) as Hsub. { intros x (v & _ & Hxv)%Hps. destruct Hg as (_ & _ & _ & _ & H5 & _). by apply H5 in Hxv as [? _]. }
  destruct (decide (new = ∅)) as [Hnew|Hnew].
  - destruct fuel as [|fuel]; [lia|]. cbn [s_add_ancestors]. unfold s_parents_of. rewrite Hnew, decide_True by done.
    exists (∅ ∪ anc). split_and!; [done|set_solver|set_solver|]. intros x v Hv Hxv.
    assert (x ∈ ps) as Hx. { apply Hps. exists v. split; [|done]. clear -Hv. set_solver. } unfold new in Hnew. clear -Hnew Hx. destruct (decide (x ∈ anc)); set_solver.
  - destruct (IH new (new ∪ anc)) as (anc' & -> & I1 & I2 & I3).
    { assert (size (s_nodes g ∖ (new ∪ anc)) < size (s_nodes g ∖ anc)); [|lia]. apply subset_size. split; [clear; set_solver|].
      apply set_choose_L in Hnew as [x Hx]. intros H. specialize (H x). unfold new in *. clear -H Hx Hsub. set_solver. }
    exists anc'. split; [done|]. split_and!.
    + intros x [[Hx|Hx]%elem_of_union|(v & Hv & Hxv)]%I1; [|by left|].
      * right. unfold new in Hx. apply elem_of_difference in Hx as [(v & Hv & Hxv)%Hps _]. exists v. split; [done|]. by apply tc_once.
      * right. unfold new in Hv. apply elem_of_difference in Hv as [(w & Hw & Hvw)%Hps _]. exists w. split; [done|].
        eapply tc_r; [exact Hxv|done].
    + clear -I2. set_solver.
    + intros x v [Hv|[Hv1 Hv2]] Hxv.
      * apply I2. assert (x ∈ ps) as Hx by (apply Hps; by exists v). unfold new. clear -Hx. destruct (decide (x ∈ anc)); set_solver.
      * destruct (decide (v ∈ new)) as [Hn|Hn]; [by apply (I3 x v); [left|]|]. apply (I3 x v); [right|done]. clear -Hv1 Hv2 Hn. set_solver.
Qed.

(** The claim fails for every graph and every set: the recursion ends with
    [set.union] of nothing.  By then the set passed in has been filled with the
    ancestors, unless [include_argument=False]. *)
Theorem C52_ancestors_of_refuted g (X : nset) include :
  sm_wf g →
  let r := s_ancestors_of g X include in
  r.2 = Raise TypeError ∧
  if include then ∀ x, x ∈ r.1 ↔ x ∈ X ∨ ∃ v, v ∈ X ∧ ancestor (s_dir g) x v else r.1 = X.
Proof.
  intros Hg. cbn zeta. unfold s_ancestors_of. set (a0 := if include then X else ∅).
  destruct (s_add_ancestors_spec g (S (S (S (size (s_nodes g))))) X a0 Hg) as (anc & -> & H1 & H2 & H3).
  { assert (size (s_nodes g ∖ a0) ≤ size (s_nodes g)) by (apply subseteq_size; clear; set_solver). lia. }
  cbn [fst snd]. split; [done|]. destruct include; [|done]. unfold a0 in *. intros x. split; [by apply H1|].
  intros [Hx|(v & Hv & Hxv)]; [by apply H2|]. unfold ancestor in Hxv.
  assert (∀ w, w ∈ anc → w ∈ X ∨ w ∈ anc ∧ w ∉ X) as Hc. { intros w Hw. destruct (decide (w ∈ X)); tauto. }
  revert Hv. induction Hxv as [x v Hxv|x y v Hxy _ IH]; intros Hv.
  - apply (H3 x v); [by left|done].
  - apply (H3 x y); [apply Hc; by apply IH|done].
Qed.

Example C52_example :
  sm_wf ex_sm ∧ s_ancestors_of ex_sm {[3]} true = ({[1; 2; 3]}, Raise TypeError) ∧
  s_ancestors_of ex_sm {[3]} false = ({[3]}, Raise TypeError).
Proof. split; [apply sm_make_spec|]. split; by_vm. Qed.

(** ** C75: [general_identification] *)

(** A result is only ever a non-empty listed experiment that fixes exactly [x]
    among the nodes; otherwise the call fails and [y] has been filled with
    ancestors. *)
Theorem C75_general_identification rest g (y x : nset) es :
  sm_wf g →
  let r := s_identify rest g y x es in
  match r.2 with
  | Ok (v, e) => v = y ∧ e ∈ es ∧ e ≠ ∅ ∧ x = e ∩ s_nodes g ∧ r.1 = y
  | Raise exn => exn = TypeError ∧ ∀ z, z ∈ r.1 ↔ z ∈ y ∨ ∃ v, v ∈ y ∧ ancestor (s_dir g) z v
  end.
Proof.
  intros Hg. cbn zeta. unfold s_identify.
  pose proof (C52_ancestors_of_refuted g y true Hg) as [H1 H2]. cbn zeta in H1, H2.
  destruct (list_find (λ e : nset, x = e ∩ s_nodes g) es) as [[k e]|] eqn:Hf.
  - apply list_find_Some in Hf as (Hk & Hx & _). case_decide as He.
    + cbn [fst snd]. rewrite H1. done.
    + cbn. split_and!; [done|by eapply elem_of_list_lookup_2|done..].
  - cbn [fst snd]. rewrite H1. done.
Qed.

(** Unless such an experiment is listed the call fails; [P(y)] is not even found
    from the observational distribution. *)
Theorem C75_not_identified rest g (y x : nset) es :
  sm_wf g → (∀ e, e ∈ es → e ≠ ∅ → x ≠ e ∩ s_nodes g) → (s_identify rest g y x es).2 = Raise TypeError.
Proof.
  intros Hg Hno. pose proof (C75_general_identification rest g y x es Hg) as H. cbn zeta in H.
  destruct (s_identify rest g y x es).2 as [[v e]|exn]; [|by destruct H as [-> _]].
  destruct H as (_ & He & Hne & Hx & _). by destruct (Hno e He Hne).
Qed.
Theorem C75_observational_refuted :
  ∃ g y, sm_wf g ∧ y ⊆ s_nodes g ∧ ∀ rest, (s_identify rest g y ∅ [∅]).2 = Raise TypeError.
Proof.
  exists ex_sm, {[3]}. split; [apply sm_make_spec|]. split; [by_vm|]. intros rest. apply C75_not_identified; [apply sm_make_spec|].
  intros e ->%elem_of_list_singleton. done.
Qed.

Example C75_example :
  s_identify (λ _, Raise ValueError) ex_sm {[3]} {[1]} [{[2]}; {[1; 7]}] = ({[3]}, Ok ({[3]}, {[1; 7]})) ∧
  s_identify (λ _, Raise ValueError) ex_sm {[3]} {[1; 2]} [{[2]}; {[1; 7]}] = ({[1; 2; 3]}, Raise TypeError).
Proof. split; by_vm. Qed.

Print Assumptions C74_new.
Print Assumptions C74_c_components.
Print Assumptions C74_topological_sort.
Print Assumptions C74_induced_subgraph.
Print Assumptions C74_removed_nodes.
Print Assumptions C74_mutilated_graph.
Print Assumptions C74_mutilated_default_refuted.
Print Assumptions C52_ancestors_of_refuted.
Print Assumptions C75_general_identification.
Print Assumptions C75_not_identified.
Print Assumptions C75_observational_refuted.
Print Assumptions C74_self_loop.
