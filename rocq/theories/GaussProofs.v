(** The attributes of a [GaussDAG] stay consistent. *)
From Coq Require Import QArith.Qcanon.
From Verif Require Import Py Spec DagModel QMatModel GaussModel TopoProofs StateProofs ReachProofs QMatProofs PropertiesDag.
#[local] Open Scope Qc_scope.

(** The weight of [i -> j] as stored. *)
Definition weight (g : gauss) (i j : node) : Qc :=
  match g_ix g !! i, g_ix g !! j with Some a, Some b => g_w g a b | _, _ => 0 end.
(** The attributes describe the same graph: one row per node and a non-zero weight
    exactly on the arcs. *)
Definition gauss_wf (g : gauss) : Prop :=
  views_agree (g_dag g) ∧ NoDup (g_list g) ∧ (∀ v, v ∈ d_nodes (g_dag g) ↔ v ∈ g_list g) ∧
  (∀ v a, g_ix g !! v = Some a ↔ g_list g !! a = Some v) ∧
  ∀ i j, (i, j) ∈ d_arcs (g_dag g) ↔ weight g i j ≠ 0.

(** Everything but the graph and the weights is unchanged. *)
Definition gframe (g g' : gauss) : Prop :=
  g_list g' = g_list g ∧ g_ix g' = g_ix g ∧ g_var g' = g_var g ∧ g_bias g' = g_bias g ∧ g_prec g' = g_prec g ∧ g_cov g' = g_cov g.
#[global] Instance gframe_pre : PreOrder gframe.
Proof. split; [intros g; by split_and!|intros g1 g2 g3 (?&?&?&?&?&?) (?&?&?&?&?&?); split_and!; congruence]. Qed.

Lemma ix_map_spec l v a : NoDup l → ix_map l !! v = Some a ↔ l !! a = Some v.
Proof.
  intros Hnd. unfold ix_map. rewrite <-elem_of_list_to_map; cycle 1.
  { rewrite fmap_reverse, reverse_Permutation, fst_zip; [done|by rewrite seq_length]. }
  rewrite elem_of_reverse, elem_of_list_lookup. setoid_rewrite lookup_zip_with_Some. split.
  - intros (k & x & y & [= -> ->] & Hk & Hy). apply lookup_seq in Hy as [-> ?]. done.
  - intros H. exists a, v, a. split_and!; [done..|]. apply lookup_seq. split; [done|]. by eapply lookup_lt_Some.
Qed.

Definition ix_inj (g : gauss) : Prop := ∀ i j a, g_ix g !! i = Some a → g_ix g !! j = Some a → i = j.

Lemma weight_mupd g i j val : ix_inj g → is_Some (g_ix g !! i) → is_Some (g_ix g !! j) →
  ∀ a b, g_ix g !! i = Some a → g_ix g !! j = Some b →
  ∀ x y, weight (with_w (mupd (g_w g) a b val) g) x y = if decide (x = i ∧ y = j) then val else weight g x y.
Proof.
  intros Hinj _ _ a b Ha Hb x y. unfold weight, mupd. cbn. destruct (decide (x = i ∧ y = j)) as [[-> ->]|Hne].
  - rewrite Ha, Hb. by rewrite decide_True.
  - destruct (g_ix g !! x) as [a'|] eqn:Ea; [|done]. destruct (g_ix g !! y) as [b'|] eqn:Eb; [|done].
    rewrite decide_False; [done|]. intros [-> ->]. apply Hne. split; eauto.
Qed.

Lemma put_weight_spec i j val g : ix_inj g → is_Some (g_ix g !! i) → is_Some (g_ix g !! j) →
  ∃ g', put_weight i j val g = (g', Ok tt) ∧ gframe g g' ∧ g_dag g' = g_dag g ∧
    ∀ x y, weight g' x y = if decide (x = i ∧ y = j) then val else weight g x y.
Proof.
  intros Hinj Hi Hj. unfold put_weight. pose proof Hi as [a Ha]. pose proof Hj as [b Hb]. rewrite Ha, Hb.
  eexists. split; [done|]. split_and!; [by split_and!|done|]. by apply weight_mupd.
Qed.

Definition known (g : gauss) (arcs : list (arc * Qc)) : Prop :=
  Forall (λ a : arc * Qc, is_Some (g_ix g !! a.1.1) ∧ is_Some (g_ix g !! a.1.2)) arcs.
(** The weight that a dictionary gives to an arc. *)
Definition given (arcs : list (arc * Qc)) (e : arc) : option Qc := (list_to_map arcs : gmap arc Qc) !! e.

Lemma given_cons e w arcs x : given ((e, w) :: arcs) x = if decide (e = x) then Some w else given arcs x.
Proof. unfold given. cbn. case_decide; subst; [by rewrite lookup_insert|by rewrite lookup_insert_ne]. Qed.
Lemma given_Some arcs e w : NoDup (arcs.*1) → given arcs e = Some w ↔ (e, w) ∈ arcs.
Proof. intros H. symmetry. by apply elem_of_list_to_map. Qed.
Lemma given_None arcs e : given arcs e = None ↔ e ∉ arcs.*1.
Proof. symmetry. apply not_elem_of_list_to_map. Qed.

Lemma put_all arcs g : ix_inj g → NoDup (arcs.*1) → known g arcs →
  ∃ g', mfor arcs (λ a, put_weight a.1.1 a.1.2 a.2) g = (g', Ok tt) ∧ gframe g g' ∧ g_dag g' = g_dag g ∧
    ∀ x y, weight g' x y = default (weight g x y) (given arcs (x, y)).
Proof.
  revert g. induction arcs as [|[[i j] w] arcs IH]; intros g Hinj Hnd Hk; cbn [mfor].
  { exists g. by split_and!. }
  apply Forall_cons in Hk as [[Hi Hj] Hk]. cbn in Hnd. apply list.NoDup_cons in Hnd as [Hni Hnd]. cbn in Hi, Hj.
  unfold mthen, mbind'. cbn [fst snd]. destruct (put_weight_spec i j w g Hinj Hi Hj) as (g1 & -> & Hf1 & Hd1 & Hw1).
  pose proof Hf1 as (_ & Hix & _). destruct (IH g1) as (g2 & -> & Hf2 & Hd2 & Hw2).
  { unfold ix_inj. by rewrite Hix. } { done. } { unfold known. by rewrite Hix. }
  exists g2. split_and!; [done|by etrans|congruence|]. intros x y. rewrite Hw2, Hw1, given_cons.
  destruct (decide ((i, j) = (x, y))) as [E|E].
  - injection E as -> ->. apply given_None in Hni. rewrite Hni. cbn. by rewrite decide_True.
  - destruct (given arcs (x, y)); cbn; [done|]. rewrite decide_False; [done|]. intros [-> ->]. done.
Qed.

Lemma set_arc_weight_spec o i j val g :
  ix_inj g → is_Some (g_ix g !! i) → is_Some (g_ix g !! j) → wf (g_dag g) → (val = 0 → oriented (d_arcs (g_dag g))) →
  ∃ g', set_arc_weight o i j val g = (g', Ok tt) ∧ gframe g g' ∧ wf (g_dag g') ∧
    d_nodes (g_dag g') = (if decide (val ≠ 0 ∧ (i, j) ∉ d_arcs (g_dag g)) then {[i; j]} else ∅) ∪ d_nodes (g_dag g) ∧
    d_arcs (g_dag g') = (if decide (val = 0) then d_arcs (g_dag g) ∖ {[(i, j)]} else {[(i, j)]} ∪ d_arcs (g_dag g)) ∧
    ∀ x y, weight g' x y = if decide (x = i ∧ y = j) then val else weight g x y.
Proof.
  intros Hinj Hi Hj Hwf Hor. unfold set_arc_weight, mthen, mbind'.
  destruct (put_weight_spec i j val g Hinj Hi Hj) as (g1 & -> & Hf1 & Hd1 & Hw1). rewrite Hd1.
  destruct (decide (val = 0)) as [->|Hv].
  - destruct (decide ((i, j) ∈ d_arcs (g_dag g))) as [Hin|Hin].
    + rewrite decide_True by done. unfold on_dag. rewrite Hd1.
      pose proof (remove_arc_spec i j false (g_dag g) Hwf (Hor eq_refl)) as (R1 & R2 & R3 & R4 & R5).
      rewrite decide_True in R5 by done. destruct (remove_arc i j false (g_dag g)) as [d r]. cbn in *. subst r.
      rewrite decide_False by tauto. rewrite decide_False by tauto. unfold mret. eexists. split; [done|].
      split_and!; [etrans; [exact Hf1|]; by split_and!|done|cbn; rewrite R3; clear; set_solver|done|exact Hw1].
    + rewrite (decide_False (P := 0 = 0 ∧ _)) by tauto. unfold mret. rewrite Hd1. rewrite !decide_False by tauto. exists g1.
      split; [done|]. rewrite Hd1. split_and!; [done|done|clear; set_solver|clear -Hin; set_solver|done].
  - rewrite (decide_False (P := val = 0 ∧ _)) by tauto. unfold mret. rewrite Hd1. destruct (decide ((i, j) ∈ d_arcs (g_dag g))) as [Hin|Hin].
    + rewrite !decide_False by tauto. exists g1. rewrite Hd1. split_and!; [done|done|done|clear; set_solver|clear -Hin; set_solver|done].
    + rewrite !decide_True by tauto. unfold on_dag, add_arc. rewrite Hd1. eexists. split; [done|].
      split_and!; [etrans; [exact Hf1|]; by split_and!|by apply insert_arc_wf|cbn; clear; set_solver|done|exact Hw1].
Qed.

Lemma zero_all o l g :
  ix_inj g → Forall (λ a : arc * Qc, is_Some (g_ix g !! a.1.1) ∧ is_Some (g_ix g !! a.1.2)) l → wf (g_dag g) → oriented (d_arcs (g_dag g)) →
  ∃ g', mfor l (λ a : arc * Qc, set_arc_weight o a.1.1 a.1.2 0) g = (g', Ok tt) ∧ gframe g g' ∧ wf (g_dag g') ∧
    d_nodes (g_dag g') = d_nodes (g_dag g) ∧ d_arcs (g_dag g') = d_arcs (g_dag g) ∖ list_to_set (l.*1) ∧
    ∀ x y, weight g' x y = if decide ((x, y) ∈ l.*1) then 0 else weight g x y.
Proof.
  revert g. induction l as [|[[i j] w] l IH]; intros g Hinj Hk Hwf Hor; cbn [mfor].
  { exists g. unfold mret. split_and!; [done|done|done|done|cbn; clear; set_solver|].
    intros x y. rewrite decide_False; [done|]. cbn. apply not_elem_of_nil. }
  apply Forall_cons in Hk as [[Hi Hj] Hk]. cbn in Hi, Hj. unfold mthen, mbind'. cbn [fst snd].
  destruct (set_arc_weight_spec o i j 0 g Hinj Hi Hj Hwf (λ _, Hor)) as (g1 & -> & Hf1 & Hwf1 & Hn1 & Ha1 & Hw1).
  rewrite decide_True in Ha1 by done. rewrite decide_False in Hn1 by tauto. pose proof Hf1 as (_ & Hix & _).
  destruct (IH g1) as (g2 & -> & Hf2 & Hwf2 & Hn2 & Ha2 & Hw2).
  { unfold ix_inj. by rewrite Hix. } { by rewrite Hix. } { done. }
  { rewrite Ha1. intros x y H1 H2. apply (Hor x y); clear -H1 H2; set_solver. }
  exists g2. split_and!; [done|by etrans|done|rewrite Hn2, Hn1; clear; set_solver|rewrite Ha2, Ha1; cbn; clear; set_solver|].
  intros x y. rewrite Hw2, Hw1. cbn. destruct (decide ((x, y) ∈ l.*1)) as [H|H].
  - rewrite decide_True; [done|by right].
  - destruct (decide (x = i ∧ y = j)) as [[-> ->]|Hne].
    + rewrite decide_True; [done|by left].
    + rewrite decide_False; [done|]. intros [[= -> ->]|?]%elem_of_cons; [by apply Hne|done].
Qed.

Lemma set_arc_weights_spec o arcs g :
  ix_inj g → NoDup (arcs.*1) → known g arcs → wf (g_dag g) → oriented (d_arcs (g_dag g)) →
  (∀ v a, g_ix g !! v = Some a → v ∈ d_nodes (g_dag g)) →
  ∃ g', set_arc_weights o arcs g = (g', Ok tt) ∧ gframe g g' ∧ wf (g_dag g') ∧ d_nodes (g_dag g') = d_nodes (g_dag g) ∧
    (∀ e, e ∈ d_arcs (g_dag g') ↔ match given arcs e with Some w => w ≠ 0 | None => e ∈ d_arcs (g_dag g) end) ∧
    ∀ x y, weight g' x y = default (weight g x y) (given arcs (x, y)).
Proof.
  intros Hinj Hnd Hk Hwf Hor HN. unfold set_arc_weights. destruct (decide (arcs = [])) as [->|Hne].
  { exists g. split_and!; [done|done|done|done|done|done]. }
  rewrite decide_True by done. unfold mthen, mbind'.
  destruct (put_all arcs g Hinj Hnd Hk) as (g1 & -> & Hf1 & Hd1 & Hw1). pose proof Hf1 as (_ & Hix1 & _).
  set (Z := filter (λ a : arc * Qc, a.2 = 0) arcs). set (NZ := filter (λ a : arc * Qc, a.2 ≠ 0) arcs).
  assert (∀ l, l ⊆ arcs → Forall (λ a : arc * Qc, is_Some (g_ix g !! a.1.1) ∧ is_Some (g_ix g !! a.1.2)) l) as Hsub.
  { intros l Hl. apply Forall_forall. intros a Ha. unfold known in Hk. rewrite Forall_forall in Hk. auto. }
  destruct (zero_all o Z g1) as (g2 & -> & Hf2 & Hwf2 & Hn2 & Ha2 & Hw2).
  { unfold ix_inj. by rewrite Hix1. } { rewrite Hix1. apply Hsub. intros a [_ ?]%elem_of_list_filter. done. } { by rewrite Hd1. } { by rewrite Hd1. }
  pose proof Hf2 as (_ & Hix2 & _).
  assert (∀ e, e ∈ Z.*1 ↔ given arcs e = Some 0) as HZ.
  { intros e. unfold Z. rewrite elem_of_list_fmap, given_Some by done. setoid_rewrite elem_of_list_filter. split.
    - intros ([e' w] & -> & Hw & H). cbn in *. by subst w.
    - intros H. by exists (e, 0). }
  assert (∀ e, e ∈ NZ.*1 ↔ ∃ w, given arcs e = Some w ∧ w ≠ 0) as HNZ.
  { intros e. unfold NZ. rewrite elem_of_list_fmap. setoid_rewrite given_Some; [|done]. setoid_rewrite elem_of_list_filter. split.
    - intros ([e' w] & -> & Hw & H). by exists w.
    - intros (w & H & Hw). by exists (e, w). }
  unfold on_dag, add_arcs_from. rewrite Hd1 in *.
  assert (∀ e, e ∈ d_arcs (g_dag g2) ∨ e ∈ NZ.*1 ↔ match given arcs e with Some w => w ≠ 0 | None => e ∈ d_arcs (g_dag g) end) as HA.
  { intros e. rewrite Ha2, HNZ, elem_of_difference, elem_of_list_to_set, HZ. destruct (given arcs e) as [w|].
    - split.
      + intros [[_ H]|(w' & [= <-] & ?)]; [|done]. intros ->. done.
      + intros Hw. right. eauto.
    - split; [intros [[? _]|(w & ? & _)]; done|]. intros H. left. done. }
  assert (∀ x y, weight g2 x y = default (weight g x y) (given arcs (x, y))) as HW.
  { intros x y. rewrite Hw2. destruct (decide ((x, y) ∈ Z.*1)) as [H|H].
    - apply HZ in H. by rewrite H.
    - by rewrite Hw1. }
  case_decide as HNZe.
  - exists g2. cbn. split_and!; [by destruct g2|etrans; done|done|done| |done].
    intros e. rewrite <-HA. split; [by left|]. intros [?|H]; [done|]. apply (elem_of_list_to_set (C := arcset)) in H. clear -H HNZe. set_solver.
  - eexists. split; [done|]. split_and!.
    + etrans; [exact Hf1|]. etrans; [exact Hf2|]. by split_and!.
    + cbn. by apply insert_arcs_wf.
    + cbn. rewrite insert_arcs_nodes, Hn2. apply set_eq. intros v. rewrite !elem_of_union, !elem_of_list_to_set, !elem_of_list_fmap.
      split; [|by auto]. assert (∀ e, e ∈ NZ.*1 → e.1 ∈ d_nodes (g_dag g) ∧ e.2 ∈ d_nodes (g_dag g)) as Hend.
      { intros e (a & -> & [_ Ha]%elem_of_list_filter)%elem_of_list_fmap. unfold known in Hk. rewrite Forall_forall in Hk.
        destruct (Hk a Ha) as [[? ?] [? ?]]. split; by eapply HN. }
      intros [[(e & -> & He)|(e & -> & He)]|?]; [..|done]; apply elem_of_oa, elem_of_list_to_set in He; by apply Hend in He as [? ?].
    + cbn. intros e. rewrite insert_arcs_arcs, elem_of_union, elem_of_list_to_set, elem_of_oa, elem_of_list_to_set, <-HA. tauto.
    + exact HW.
Qed.

Lemma gauss_new_spec o nodes arcs bs vs :
  NoDup nodes → NoDup (arcs.*1) → (∀ e w, (e, w) ∈ arcs → e.1 ∈ nodes ∧ e.2 ∈ nodes) →
  ∃ g, gauss_make o nodes arcs bs vs = Ok g ∧ gauss_wf g ∧ g_list g = nodes ∧
    (∀ i j, weight g i j = default 0 (given arcs (i, j))) ∧
    g_var g = default (replicate (length nodes) 1) vs ∧ g_bias g = default (replicate (length nodes) 0) bs ∧
    g_prec g = None ∧ g_cov g = None.
Proof.
  intros Hnd Hk Hin. unfold gauss_make, gauss_new, mthen, mbind'.
  set (g0 := Gauss _ _ _ _ _ _ _ _).
  assert (∀ v a, g_ix g0 !! v = Some a ↔ nodes !! a = Some v) as Hix by (intros v a; by apply ix_map_spec).
  assert (∀ v, v ∈ nodes → is_Some (g_ix g0 !! v)) as Hsome. { intros v [a Ha]%elem_of_list_lookup. exists a. by apply Hix. }
  assert (known g0 arcs) as Hkn.
  { apply Forall_forall. intros [e w] H. apply Hin in H as [? ?]. cbn. split; by apply Hsome. }
  assert (ix_inj g0) as Hinj. { intros i j a Hi%Hix Hj%Hix. congruence. }
  destruct (set_arc_weights_spec o arcs g0 Hinj Hk Hkn) as (g1 & -> & Hf1 & Hwf1 & Hn1 & Ha1 & Hw1).
  { apply wf_init. } { cbn. intros x y H. by apply elem_of_empty in H. }
  { intros v a H%Hix. cbn. apply elem_of_list_to_set. by eapply elem_of_list_lookup_2. }
  pose proof Hf1 as (_ & Hix1 & _).
  destruct (put_all arcs g1) as (g2 & -> & Hf2 & Hd2 & Hw2). { unfold ix_inj. by rewrite Hix1. } { done. } { unfold known. by rewrite Hix1. }
  assert (∀ x y, weight g0 x y = 0) as H0. { intros x y. unfold weight. by repeat case_match. }
  assert (∀ i j, weight g2 i j = default 0 (given arcs (i, j))) as HW. { intros i j. rewrite Hw2, Hw1, H0. by destruct (given arcs (i, j)). }
  assert (gframe g0 g2) as (F1 & F2 & F3 & F4 & F5 & F6) by (by etrans). exists g2. split; [done|]. split_and!; [|done..].
  split_and!.
  - apply wf_views_agree. by rewrite Hd2.
  - by rewrite F1.
  - intros v. rewrite Hd2, Hn1, F1. cbn. by rewrite elem_of_list_to_set.
  - intros v a. rewrite F2, F1. apply Hix.
  - intros i j. rewrite Hd2, Ha1, HW. destruct (given arcs (i, j)); cbn; [done|]. clear. set_solver.
Qed.

Lemma gauss_new_keyerror o nodes arcs bs vs :
  (∃ e w, (e, w) ∈ arcs ∧ (e.1 ∉ nodes ∨ e.2 ∉ nodes)) → gauss_make o nodes arcs bs vs = Raise KeyError.
Proof.
  intros (e & w & Hin & Hno). unfold gauss_make, gauss_new, mthen, mbind', set_arc_weights.
  rewrite decide_False; [|by intros ->; apply elem_of_nil in Hin]. rewrite decide_False; [done|].
  intros Hf. rewrite Forall_forall in Hf. apply Hf in Hin as [[a Ha] [b Hb]]. cbn in Ha, Hb.
  assert (∀ v a, ix_map nodes !! v = Some a → v ∈ nodes) as Hix.
  { intros v c H. unfold ix_map in H. apply elem_of_list_to_map_2 in H. rewrite elem_of_reverse in H. by apply elem_of_zip_l in H. }
  apply Hix in Ha, Hb. tauto.
Qed.
