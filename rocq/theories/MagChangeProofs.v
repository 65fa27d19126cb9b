(** The graphs built by [get_all_mec] from a legitimate mark change. *)
From Verif Require Import Py Spec SpecDsep SpecMixed SpecMagMec DagModel UGraphModel CompareModel AncestralModel MagModel MagMecModel AncestralState AncestralProofs AncestralCopy
  PropertiesAncestral TopoProofs StateProofs ReachProofs QueryProofs PdagProofs UGraphProofs CompareProofs ShdProofs MWalkProofs MsepProofs InduceProofs MagProofs MaxProofs
  MagMecProofs MagMecCore MagMecMain MagMecNec MagMarkProofs MagLegitProofs MagDiscProofs MagEquivProofs.

Lemma un_no_neighbor g x : gok g → g_un g = ∅ → g_neighbors g x = ∅.
Proof. intros Hg E. apply set_eq. intros y. rewrite (gok_nei _ Hg), E. split; by intros ?%not_elem_of_empty. Qed.

Lemma swap_of (g h : ag) a b : gok g → gok h → g_un g = ∅ → g_un h = ∅ → (a, b) ∈ g_dir g →
  g_dir h = g_dir g ∖ {[(a, b)]} → g_bi h = {[upair a b]} ∪ g_bi g → swap (gmix g) (gmix h) a b.
Proof.
  intros Hg Hh Ug Uh Hab HD HB. pose proof (gok_dir1 _ Hg a b Hab) as (Hne & _ & Hnb & _). split.
  - done.
  - apply spouse_upair; [done|]. rewrite HB. apply elem_of_union_l. by apply elem_of_singleton.
  - intros x y. cbn [mx_dir gmix]. rewrite HD, elem_of_difference, elem_of_singleton. done.
  - intros x y. rewrite !spouse_upair, HB, elem_of_union, elem_of_singleton by done. split.
    + intros Hs. split; [by right|]. split; intros E; injection E as -> ->; apply Hnb; [done|]. by rewrite upair_comm.
    + intros ([E|?] & H1 & H2); [|done]. apply upair_eq_or in E as [[-> ->]|[-> ->]]; done.
  - intros x y. rewrite !neighbor_upair by done. by rewrite Ug, Uh.
Qed.

Definition keyed (h : ag) (N : nset) (D B : arcset) : Prop := gok h ∧ stored h N D B ∅.

Lemma changed_dir g o flip a b : gok g → g_un g = ∅ → (a, b) ∈ g_dir g →
  ∃ h, changed o flip g (dir_to_bi a b) = Ok h ∧ keyed h (g_nodes g) (g_dir g ∖ {[(a, b)]}) (g_bi g ∪ {[upair a b]}) ∧ swap (gmix g) (gmix h) a b.
Proof.
  intros Hg HU Hab. pose proof (gok_dir1 _ Hg a b Hab) as (Hne & Hba & Hnb & Hnu). unfold changed.
  destruct (C67_copy g o flip (proj1 (gok_ag_wf g) Hg)) as (k & -> & Hk & HN & HG & _). cbn [res_bind]. apply gok_ag_wf in Hk.
  injection HG as HD HB HUk. unfold dir_to_bi, mthen, mbind'.
  pose proof (remove_directed_spec a b false k Hk) as Hr. cbn zeta in Hr. rewrite decide_True in Hr by (by rewrite HD).
  destruct (remove_directed a b false k) as [k1 r1]. cbn [fst snd] in Hr. destruct Hr as (Hk1 & (HN1 & HD1 & HB1 & HU1) & ->).
  pose proof (add_bidirected_spec a b k1 Hk1 Hne) as Ha. cbn zeta in Ha. destruct (add_bidirected a b k1) as [k2 r2]. cbn [fst snd] in Ha. destruct Ha as (Hk2 & Ha).
  assert (g_un k1 = ∅) as U1 by (by rewrite HU1, HUk). destruct r2 as [[]|e].
  - destruct Ha as (HN2 & HD2 & HB2 & HU2). rewrite HB1, HB in HB2. rewrite HD1, HD in HD2. rewrite U1 in HU2.
    assert (g_nodes k2 = g_nodes g) as HN'.
    { rewrite HN2, HN1, HN. destruct (gok_dirN _ Hg a b Hab) as [? ?]. clear -H H0. set_solver. }
    exists k2. split; [done|]. split.
    + split; [done|]. split_and!; [done|done|rewrite HB2; apply (comm_L (∪))|done].
    + by apply swap_of.
  - exfalso. destruct e; try done.
    + destruct Ha as (_ & _ & Ha). apply (gok_adj _ Hk1) in Ha. rewrite HD1, HD, HB1, HB, U1 in Ha. rewrite !elem_of_difference, !elem_of_singleton in Ha.
      destruct Ha as [[_ Ha]|[[Ha _]|[Ha|Ha]]]; [done|done|done|]. by apply not_elem_of_empty in Ha.
    + destruct Ha as (_ & _ & [Ha|Ha]); apply Ha, un_no_neighbor; done.
Qed.

Lemma changed_bi g o flip a b : gok g → ancestral (gmix g) → g_un g = ∅ → spouse (gmix g) a b → legit (gmix g) a b →
  ∃ h, changed o flip g (bi_to_dir o a b) = Ok h ∧ keyed h (g_nodes g) (g_dir g ∪ {[(a, b)]}) (g_bi g ∖ {[upair a b]}) ∧ swap (gmix h) (gmix g) a b.
Proof.
  intros Hg Han HU Hab Hlg. pose proof (gmix_simple g Hg) as Hsi.
  assert (a ≠ b) as Hne by (intros ->; apply (simple_irr _ Hsi b), into_adj; by right).
  assert ((a, b) ∉ g_dir g) as Nab by (intros H; by apply (simple_dir _ Hsi) in H as (_ & H & _)).
  assert ((b, a) ∉ g_dir g) as Nba by (intros H; apply (simple_dir _ Hsi) in H as (_ & H & _); by apply H, spouse_sym).
  pose proof Hab as Hup. apply spouse_upair in Hup; [|done].
  assert (swap (Mixed ({[(a, b)]} ∪ g_dir g) (g_bi g ∖ {[upair a b]}) ∅) (gmix g) a b) as Hsw0.
  { split; cbn [mx_dir].
    - apply elem_of_union_l. by apply elem_of_singleton.
    - done.
    - intros x y. cbn. rewrite elem_of_union, elem_of_singleton. split; [|tauto]. intros H. split; [by right|]. intros E. by injection E as -> ->.
    - intros x y. unfold spouse. cbn. rewrite !elem_of_difference, !elem_of_singleton. unfold upair. pose proof (gok_bilt _ Hg) as Hlt. split.
      + intros [[H Hn]|[H Hn]]; (split; [tauto|]); apply Hlt in H; (split; intros E; injection E as -> ->; apply Hn).
        * by rewrite Nat.min_l, Nat.max_r by lia.
        * by rewrite Nat.min_r, Nat.max_l by lia.
        * by rewrite Nat.min_r, Nat.max_l by lia.
        * by rewrite Nat.min_l, Nat.max_r by lia.
      + intros ([H|H] & N1 & N2); [left|right]; (split; [done|]); intros E; destruct (decide (a ≤ b)) as [Hle|Hle];
          first [rewrite Nat.min_l, Nat.max_r in E by lia|rewrite Nat.min_r, Nat.max_l in E by lia]; injection E as -> ->; done.
    - intros x y. unfold neighbor. cbn. rewrite HU. done. }
  assert (ancestral (Mixed ({[(a, b)]} ∪ g_dir g) (g_bi g ∖ {[upair a b]}) ∅)) as Han'.
  { eapply swap_anc_D; [exact Hsw0|done|]. apply Hlg. }
  unfold changed.
  destruct (C67_copy g o flip (proj1 (gok_ag_wf g) Hg)) as (k & -> & Hk & HN & HG & _). cbn [res_bind]. apply gok_ag_wf in Hk.
  injection HG as HD HB HUk. unfold bi_to_dir, mthen, mbind'.
  pose proof (remove_bidirected_spec a b false k Hk) as Hr. cbn zeta in Hr. rewrite decide_True in Hr by (by rewrite HB).
  destruct (remove_bidirected a b false k) as [k1 r1]. cbn [fst snd] in Hr. destruct Hr as (Hk1 & (HN1 & HD1 & HB1 & HU1) & ->).
  pose proof (add_directed_spec o a b k1 Hk1 Hne) as Ha. cbn zeta in Ha. destruct (add_directed o a b k1) as [k2 r2]. cbn [fst snd] in Ha. destruct Ha as (Hk2 & Ha).
  assert (g_un k1 = ∅) as U1 by (by rewrite HU1, HUk). destruct r2 as [[]|e].
  - destruct Ha as ((HN2 & HD2 & HB2 & HU2) & _). rewrite HB1, HB in HB2. rewrite HD1, HD in HD2. rewrite U1 in HU2.
    assert (g_nodes k2 = g_nodes g) as HN'.
    { rewrite HN2, HN1, HN. destruct (madj_nodes g Hg a b) as [? ?]; [apply into_adj; by right|]. clear -H H0. set_solver. }
    exists k2. split; [done|]. split.
    + split; [done|]. split_and!; [done|rewrite HD2; apply (comm_L (∪))|done|done].
    + unfold gmix at 1. rewrite HD2, HB2, HU2. done.
  - exfalso. rewrite HD1, HD in Ha. destruct e; try done.
    + destruct Ha as [_ Ha]. apply Ha. apply Han'.
    + destruct Ha as ((HN2 & HD2 & HB2 & HU2) & x & y & Hs & Hr). destruct Han' as [_ Hsp]. apply (Hsp x y); [|done].
      rewrite HB1, HB in HB2. unfold spouse in *. cbn in *. by rewrite HB2 in Hs.
    + destruct Ha as (_ & _ & Ha). apply (gok_adj _ Hk1) in Ha. rewrite HD1, HD, HB1, HB, U1 in Ha. rewrite !elem_of_difference, !elem_of_singleton in Ha.
      destruct Ha as [Ha|[Ha|[[_ Ha]|Ha]]]; [done|done|done|]. by apply not_elem_of_empty in Ha.
    + destruct Ha as (_ & _ & Ha). apply Ha, un_no_neighbor; done.
Qed.
