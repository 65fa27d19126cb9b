(** Markov equivalence of ancestral graphs: C94 - C97. *)
From Verif Require Import Py Spec SpecDsep SpecMixed SpecMagMec DagModel UGraphModel CompareModel AncestralModel MagModel MagMecModel AncestralState AncestralProofs AncestralCopy
  PropertiesAncestral TopoProofs StateProofs ReachProofs QueryProofs PdagProofs UGraphProofs CompareProofs ShdProofs MWalkProofs MsepProofs InduceProofs MagProofs MaxProofs
  MagMecProofs MagMecCore MagMecMain MagMecNec MagMarkProofs MagLegitProofs MagDiscProofs MagEquivProofs MagChangeProofs MagAllProofs InterveneModel MsepModel DsepModel PropertiesMsep PropertiesMag.

(** Example graphs: [0 -> 1 <-> 2]; the collider [0 -> 1 <- 2]; the chain [0 -> 1 -> 2]; a graph with a
    discriminating path and the same with the last edge turned. *)
Definition ma_ag : ag := (ag_new ∅ [(0, 1)] [(1, 2)] []).1.
Definition mb_ag : ag := (ag_new ∅ [(0, 1); (2, 1)] [] []).1.
Definition mc_ag : ag := (ag_new ∅ [(0, 1); (1, 2)] [] []).1.
Definition md_ag : ag := (ag_new ∅ [(0, 1); (1, 3)] [(1, 2); (2, 3)] []).1.
Definition me_ag : ag := (ag_new ∅ [(0, 1); (1, 3); (2, 3)] [(1, 2)] []).1.
Lemma example_wf g : g ∈ [ma_ag; mb_ag; mc_ag; md_ag; me_ag] → ag_wf g ∧ ancestral (gmix g) ∧ maximal (g_nodes g) (gmix g) ∧ g_un g = ∅.
Proof.
  intros H. assert (ag_wf g) as Hw.
  { repeat (apply elem_of_cons in H as [->|H]; [by apply new_gok_wf|]). by apply elem_of_nil in H. }
  assert (ancestral (gmix g)) as Ha.
  { apply ancestralb_spec; [by apply gok_ag_wf|]. clear Hw. repeat (apply elem_of_cons in H as [->|H]; [by vm_compute|]). by apply elem_of_nil in H. }
  split; [done|]. split; [done|]. split.
  - apply is_maximal_maximal; [done|done|]. clear Hw Ha. repeat (apply elem_of_cons in H as [->|H]; [by vm_compute|]). by apply elem_of_nil in H.
  - clear Hw Ha. apply (bool_decide_unpack _). repeat (apply elem_of_cons in H as [->|H]; [by vm_compute|]). by apply elem_of_nil in H.
Qed.
Ltac ex_wf := apply example_wf; rewrite ?elem_of_cons; tauto.
(** A maximal graph and one that is not, over the same nodes. *)
Definition mf_ag : ag := (ag_new ∅ [(2, 1); (3, 1); (0, 3); (2, 3); (0, 2)] [] []).1.
Definition mg_ag : ag := (ag_new ∅ [(2, 1); (3, 0)] [(2, 3); (0, 2); (1, 3)] []).1.
Lemma mf_wf : ag_wf mf_ag ∧ ancestral (gmix mf_ag) ∧ ag_wf mg_ag ∧ ancestral (gmix mg_ag).
Proof.
  assert (ag_wf mf_ag) by (by apply new_gok_wf). assert (ag_wf mg_ag) by (by apply new_gok_wf).
  split_and!; [done| |done|]; (apply ancestralb_spec; [by apply gok_ag_wf|by vm_compute]).
Qed.

(** ** C94: [skeleton], [vstructures] and [discriminating_paths] *)
Theorem C94_skeleton g x y : ag_wf g → upair x y ∈ g_skeleton g ↔ madj (gmix g) x y.
Proof. rewrite <-gok_ag_wf. apply g_skeleton_spec. Qed.
Theorem C94_vstructures g o x z y :
  ag_wf g → (x, z, y) ∈ g_vstructures g o ↔ x < y ∧ mvstruct (gmix g) x z y.
Proof. rewrite <-gok_ag_wf. apply g_vstructures_spec. Qed.
Theorem C94_discriminating_paths g o :
  ag_wf g → ancestral (gmix g) →
  ∃ m, discriminating_paths g o = Ok m ∧
    ∀ l c, m !! l = Some c ↔ discriminating (gmix g) l ∧ (c = true ↔ discr_collider (gmix g) l).
Proof. rewrite <-gok_ag_wf. intros Hg Ha. by apply discriminating_paths_spec. Qed.

Example C94_example :
  ag_wf md_ag ∧ ancestral (gmix md_ag) ∧
  bool_decide (g_skeleton md_ag = {[(0, 1); (1, 3); (1, 2); (2, 3)]}) = true ∧ bool_decide (g_vstructures md_ag oracle0 = {[(0, 1, 2)]}) = true ∧
  match discriminating_paths md_ag oracle_rev with Ok m => bool_decide (m = {[ [0; 1; 2; 3] := true ]}) | _ => false end = true ∧
  match discriminating_paths me_ag oracle0 with Ok m => bool_decide (m = {[ [0; 1; 2; 3] := false ]}) | _ => false end = true.
Proof. split_and!; [ex_wf|ex_wf|by vm_compute..]. Qed.

(** ** C95: [markov_equivalent] *)
Theorem C95_markov_equivalent g h o o' :
  ag_wf g → ag_wf h → ancestral (gmix g) → ancestral (gmix h) → g_nodes g = g_nodes h →
  maximal (g_nodes g) (gmix g) → maximal (g_nodes h) (gmix h) →
  ∃ b, markov_equivalent g h o o' = Ok b ∧ (b = true ↔ same_mseps (g_nodes g) (gmix g) (gmix h)).
Proof.
  rewrite <-!gok_ag_wf. intros Hg Hh Hag Hah HN Hmg Hmh.
  destruct (markov_equivalent_spec g h o o' Hg Hag Hh Hah) as (b & E & Hb). exists b. split; [done|].
  rewrite Hb. by apply agree_same_mseps.
Qed.

Example C95_example :
  (∀ g, g ∈ [ma_ag; mb_ag; mc_ag; md_ag; me_ag] → ag_wf g ∧ ancestral (gmix g) ∧ maximal (g_nodes g) (gmix g) ∧ g_un g = ∅) ∧
  bool_decide (g_nodes ma_ag = g_nodes mb_ag ∧ g_nodes ma_ag = g_nodes mc_ag ∧ g_nodes md_ag = g_nodes me_ag) = true ∧
  markov_equivalent ma_ag mb_ag oracle0 oracle_rev = Ok true ∧ markov_equivalent ma_ag mc_ag oracle0 oracle_rev = Ok false ∧
  bool_decide (g_skeleton md_ag = g_skeleton me_ag ∧ g_vstructures md_ag oracle0 = g_vstructures me_ag oracle0) = true ∧
  markov_equivalent md_ag me_ag oracle0 oracle0 = Ok false.
Proof. split; [apply example_wf|]. split_and!; by vm_compute. Qed.
(** Without maximality [True] may be returned for graphs that are not equivalent, *)
Theorem C95_true_nonmaximal_refuted :
  ∃ g h o o', ag_wf g ∧ ag_wf h ∧ ancestral (gmix g) ∧ ancestral (gmix h) ∧ g_nodes g = g_nodes h ∧
    markov_equivalent g h o o' = Ok true ∧ ¬ same_mseps (g_nodes g) (gmix g) (gmix h).
Proof.
  destruct mf_wf as (W1 & A1 & W2 & A2). exists mf_ag, mg_ag, oracle0, oracle0. split_and!; [done..| |by vm_compute|].
  - by apply (bool_decide_unpack _); vm_compute.
  - intros Hs. destruct (C38_msep_decides mf_ag oracle0 popper0 {[0]} {[1]} {[2; 3]} W1) as (b & E & Hb); [clear; set_solver|].
    destruct (C38_msep_decides mg_ag oracle0 popper0 {[0]} {[1]} {[2; 3]} W2) as (b' & E' & Hb'); [clear; set_solver|].
    assert (b = true) as -> by (revert E; vm_compute; congruence). assert (b' = false) as -> by (revert E'; vm_compute; congruence).
    apply diff_true_false. symmetry. apply Hb'. apply Hs; [by apply (bool_decide_unpack _); vm_compute..|split_and!; clear; set_solver|]. by apply Hb.
Qed.
(** and [False] for graphs that are: every graph that is not maximal and its maximal closure. *)
Theorem C95_false_nonmaximal g o o' o'' h :
  ag_wf g → ancestral (gmix g) → ¬ maximal (g_nodes g) (gmix g) → to_maximal o g = (h, Ok tt) →
  markov_equivalent g h o' o'' = Ok false ∧ same_mseps (g_nodes g) (gmix g) (gmix h).
Proof.
  intros Hg Ha Hn E. destruct (C70_to_maximal g o Hg Ha) as (h' & E' & Hm). rewrite E in E'. injection E' as <-. split.
  - destruct Hm as [M1 M2 M3 M4 M5 M6 M7 M8].
    destruct (markov_equivalent_spec g h o' o'') as (b & Eb & Hb); [by apply gok_ag_wf|done|by apply gok_ag_wf|done|].
    rewrite Eb. f_equal. destruct b; [exfalso|done]. destruct (proj1 Hb eq_refl) as [Hadj _ _]. apply Hn. intros x y Hx Hy Hne Hna.
    destruct (M8 x y) as (C & HC & Hs); [by rewrite M3..|done|by rewrite <-Hadj|]. exists C. rewrite M3 in HC. split; [done|]. apply M7; [clear -HC; set_solver|done].
  - intros A B C _ _ _ (_ & HAC & _). by apply Hm.
Qed.
Example C95_false_nonmaximal_example :
  ag_wf mg_ag ∧ ancestral (gmix mg_ag) ∧ is_maximal mg_ag oracle0 (λ _, false) = Ok false ∧
  match to_maximal oracle0 mg_ag with (h, Ok _) => match markov_equivalent mg_ag h oracle0 oracle0 with Ok b => negb b | _ => false end | _ => false end = true.
Proof. destruct mf_wf as (W1 & A1 & W2 & A2). split_and!; [done|done|by vm_compute..]. Qed.
(** Isolated nodes are not compared. *)
Theorem C95_nodes_refuted :
  ∃ g h o o', ag_wf g ∧ ag_wf h ∧ ancestral (gmix g) ∧ ancestral (gmix h) ∧ maximal (g_nodes g) (gmix g) ∧ maximal (g_nodes h) (gmix h) ∧
    markov_equivalent g h o o' = Ok true ∧ g_nodes g ≠ g_nodes h.
Proof.
  assert (ag_wf (ag_new {[7]} [(0, 1)] [] []).1) as W1 by (by apply new_gok_wf). assert (ag_wf (ag_new ∅ [(1, 0)] [] []).1) as W2 by (by apply new_gok_wf).
  assert (ancestral (gmix (ag_new {[7]} [(0, 1)] [] []).1)) as A1 by ((apply ancestralb_spec; [by apply gok_ag_wf|by vm_compute])).
  assert (ancestral (gmix (ag_new ∅ [(1, 0)] [] []).1)) as A2 by ((apply ancestralb_spec; [by apply gok_ag_wf|by vm_compute])).
  exists (ag_new {[7]} [(0, 1)] [] []).1, (ag_new ∅ [(1, 0)] [] []).1, oracle0, oracle0.
  split_and!; [done..|by apply is_maximal_maximal; [..|vm_compute]|by apply is_maximal_maximal; [..|vm_compute]|by vm_compute|].
  by apply (bool_decide_unpack _); vm_compute.
Qed.

(** ** C96: [legitimate_mark_changes] *)
Lemma swap_maximal N D B a b : simple B → swap D B a b → same_mseps N D B → maximal N D ↔ maximal N B.
Proof.
  intros HsB Hsw Hs. pose proof (mr_adj _ _ _ _ (swap_rel _ _ _ _ Hsw HsB)) as Ha.
  split; intros Hm x y Hx Hy Hne Hna.
  - destruct (Hm x y Hx Hy Hne) as (C & HC & H); [by rewrite Ha|]. exists C. split; [done|]. apply Hs; [..|done]; [set_solver..|]. split_and!; set_solver.
  - destruct (Hm x y Hx Hy Hne) as (C & HC & H); [by rewrite <-Ha|]. exists C. split; [done|]. apply Hs; [..|done]; [set_solver..|]. split_and!; set_solver.
Qed.
Lemma change_legit N D B a b : simple D → separate D → ancestral D → simple B → separate B → ancestral B →
  (∀ x y, madj D x y → x ∈ N ∧ y ∈ N) → maximal N D ∨ maximal N B → same_mseps N D B → swap D B a b → legit D a b ∧ legit B a b.
Proof.
  intros S1 S2 S3 B1 B2 B3 HN Hm Hs Hsw. pose proof (swap_rel _ _ _ _ Hsw B1) as Hmr.
  assert (maximal N D ∧ maximal N B) as [HmD HmB] by (destruct Hm; (split; [|]); try done; by apply (swap_maximal N D B a b)).
  assert (agree D B) as Hag.
  { apply (agree_nec N); try done. intros x y H. apply HN. by apply (mr_adj _ _ _ _ Hmr). }
  pose proof (swap_legit D B a b S1 S2 S3 B1 B2 B3 Hsw Hag) as HL. split; [done|]. split.
  - apply (shadowed_mark D B); [done|done|done|apply HL].
  - intros c Hc Hcb Hr. destruct B3 as [_ B3]. apply (B3 a b); [apply Hsw|]. by eapply rtc_l.
Qed.
Lemma same_mseps_sym N G H : same_mseps N G H → same_mseps N H G.
Proof. intros Hs A B C HA HB HC Hd. symmetry. by apply Hs. Qed.
Lemma same_mseps_trans N G H K : same_mseps N G H → same_mseps N H K → same_mseps N G K.
Proof. intros H1 H2 A B C HA HB HC Hd. etrans; [by apply H1|by apply H2]. Qed.
Lemma gmix_full g : gok g → simple (gmix g) ∧ separate (gmix g).
Proof. intros Hg. split; [by apply gmix_simple|by apply gmix_separate]. Qed.

(** Every change that is returned gives an ancestral graph that is Markov equivalent. *)
Theorem C96_mark_changes_sound g o flip :
  ag_wf g → ancestral (gmix g) → g_un g = ∅ →
  ∃ X Y, legitimate_mark_changes g o flip = Ok (X, Y) ∧
    (∀ a b, (a, b) ∈ X → ∃ h, ag_wf h ∧ g_nodes h = g_nodes g ∧ swap (gmix g) (gmix h) a b ∧ ancestral (gmix h) ∧ same_mseps (g_nodes g) (gmix g) (gmix h)) ∧
    (∀ a b, (a, b) ∈ Y → ∃ h, ag_wf h ∧ g_nodes h = g_nodes g ∧ swap (gmix h) (gmix g) a b ∧ ancestral (gmix h) ∧ same_mseps (g_nodes g) (gmix g) (gmix h)).
Proof.
  rewrite <-gok_ag_wf. intros Hg Ha HU. destruct (lmc_spec g o flip Hg Ha HU) as (X & Y & E & HX & HY). exists X, Y. split; [done|].
  destruct (gmix_full g Hg) as [Gs Ge]. split; intros a b Hab.
  - apply HX in Hab as [Hab Hl]. destruct (changed_dir g o flip a b) as (h & _ & [Hh (HN & HD & HB & HUh)] & Hsw); [done..|].
    destruct (gmix_full h Hh) as [Hs He]. assert (ancestral (gmix h)) as Hah by (eapply swap_anc_B; [exact Hsw|done|apply Hl]).
    exists h. rewrite <-gok_ag_wf. split_and!; try done. apply (mark_sep _ _ a b); [done..|by apply swap_rel|apply Hl].
  - apply HY in Hab as [Hab Hl]. destruct (changed_bi g o flip a b) as (h & _ & [Hh (HN & HD & HB & HUh)] & Hsw); [done..|].
    destruct (gmix_full h Hh) as [Hs He]. assert (ancestral (gmix h)) as Hah by (eapply swap_anc_D; [exact Hsw|done|apply Hl]).
    exists h. rewrite <-gok_ag_wf. split_and!; try done. apply (mark_sep _ _ a b); [done..|by apply mark_rel_sym, swap_rel|apply Hl].
Qed.
(** For maximal graphs these are all such changes of one mark. *)
Theorem C96_mark_changes g o flip :
  ag_wf g → ancestral (gmix g) → maximal (g_nodes g) (gmix g) → g_un g = ∅ →
  ∃ X Y, legitimate_mark_changes g o flip = Ok (X, Y) ∧
    (∀ a b, (a, b) ∈ X ↔ ∃ h, ag_wf h ∧ g_nodes h = g_nodes g ∧ swap (gmix g) (gmix h) a b ∧ ancestral (gmix h) ∧ same_mseps (g_nodes g) (gmix g) (gmix h)) ∧
    (∀ a b, (a, b) ∈ Y ↔ ∃ h, ag_wf h ∧ g_nodes h = g_nodes g ∧ swap (gmix h) (gmix g) a b ∧ ancestral (gmix h) ∧ same_mseps (g_nodes g) (gmix g) (gmix h)).
Proof.
  intros Hw Ha Hm HU. destruct (C96_mark_changes_sound g o flip Hw Ha HU) as (X & Y & E & HX & HY). exists X, Y. split; [done|].
  apply gok_ag_wf in Hw. destruct (lmc_spec g o flip Hw Ha HU) as (X' & Y' & E' & HX' & HY'). rewrite E in E'. injection E' as <- <-.
  destruct (gmix_full g Hw) as [Gs Ge]. split; intros a b; (split; [auto|]).
  - intros (h & Hh & HN & Hsw & Hah & Hs). apply gok_ag_wf in Hh. destruct (gmix_full h Hh) as [Hhs Hhe]. apply HX'. split; [apply Hsw|].
    apply (change_legit (g_nodes g) (gmix g) (gmix h) a b); try done; [apply (madj_nodes g Hw)|by left].
  - intros (h & Hh & HN & Hsw & Hah & Hs). apply gok_ag_wf in Hh. destruct (gmix_full h Hh) as [Hhs Hhe]. apply HY'. split; [apply Hsw|].
    apply (change_legit (g_nodes g) (gmix h) (gmix g) a b); try done; [rewrite <-HN; apply (madj_nodes h Hh)|by right|by apply same_mseps_sym].
Qed.
Example C96_example :
  ag_wf ma_ag ∧ ancestral (gmix ma_ag) ∧ maximal (g_nodes ma_ag) (gmix ma_ag) ∧ g_un ma_ag = ∅ ∧
  match legitimate_mark_changes ma_ag oracle0 (λ _, true) with Ok (X, Y) => bool_decide (X = {[(0, 1)]} ∧ Y = {[(2, 1)]}) | _ => false end = true ∧
  match legitimate_mark_changes md_ag oracle0 (λ _, false) with Ok (X, Y) => bool_decide (X = {[(0, 1)]} ∧ Y = ∅) | _ => false end = true.
Proof. split_and!; [ex_wf..|by vm_compute|by vm_compute]. Qed.
Theorem C96_undirected g o flip : g_un g ≠ ∅ → legitimate_mark_changes g o flip = Raise ValueError ∧ legitimate_mark_changes_lax g o = Raise ValueError.
Proof. intros H. unfold legitimate_mark_changes, legitimate_mark_changes_lax. by rewrite !decide_False. Qed.
(** With [strict=False] the method always fails when there are bidirected edges. *)
Theorem C96_lax_raises g o :
  ag_wf g → ancestral (gmix g) → g_un g = ∅ → g_bi g ≠ ∅ → legitimate_mark_changes_lax g o = Raise TypeError.
Proof.
  intros Hg Ha HU HB. unfold legitimate_mark_changes_lax. rewrite decide_True by done.
  destruct (C68_ancestor_dict g o Hg Ha) as (anc & -> & _). cbn [res_bind]. by rewrite decide_False.
Qed.
Example C96_lax_raises_example :
  ag_wf ma_ag ∧ ancestral (gmix ma_ag) ∧ g_un ma_ag = ∅ ∧ g_bi ma_ag ≠ ∅.
Proof. split_and!; [ex_wf..|by apply (bool_decide_unpack _); vm_compute]. Qed.
(** Without bidirected edges it agrees with the strict version. *)
Theorem C96_lax_dag g o o' flip :
  ag_wf g → ancestral (gmix g) → g_un g = ∅ → g_bi g = ∅ →
  ∃ X, legitimate_mark_changes_lax g o = Ok (X, ∅) ∧ legitimate_mark_changes g o' flip = Ok (X, ∅).
Proof.
  intros Hw Ha HU HB. pose proof Hw as Hg. apply gok_ag_wf in Hg.
  destruct (lmc_spec g o' flip Hg Ha HU) as (X & Y & E & HX & HY).
  assert (∀ x y, ¬ spouse (gmix g) x y) as Hns by (intros x y; unfold spouse; cbn; rewrite HB; by intros [?%not_elem_of_empty|?%not_elem_of_empty]).
  assert (Y = ∅) as ->. { apply set_eq. intros [a b]. split; [|by intros ?%not_elem_of_empty]. intros [H _]%HY. by apply Hns in H. }
  exists X. split; [|done]. unfold legitimate_mark_changes_lax. rewrite decide_True by done.
  destruct (C68_ancestor_dict g o Hw Ha) as (anc & -> & Hanc). cbn [res_bind]. rewrite decide_True by done. f_equal. f_equal.
  pose proof (gmix_simple g Hg) as Hsi. pose proof Ha as [Hac _].
  assert (∀ x, g_spouses g x = ∅) as Hs0.
  { intros x. apply set_eq. intros y. rewrite (gok_spo _ Hg), HB. split; by intros ?%not_elem_of_empty. }
  apply set_eq. intros [a b]. rewrite elem_of_filter, HX. cbn [fst snd]. rewrite Hs0, !andb_true_iff, !bool_decide_eq_true. unfold no_other_path. rewrite bool_decide_eq_true. split.
  - intros [[[H1 _] H2] Hab]. split; [done|].
    assert (∀ c, (a, c) ∈ g_dir g → c ≠ b → ¬ rtc (edge (g_dir g)) c b) as Hp.
    { intros c Hc Hcb Hr. apply (not_elem_of_empty (C := nset) c). rewrite <-H2. apply elem_of_intersection. split; [|by apply (gok_chi _ Hg)].
      apply elem_of_difference. split; [|intros ->%elem_of_singleton; apply (simple_irr _ Hsi a); by left].
      apply (Hanc b); [apply (gok_dirN _ Hg a b Hab)|]. apply rtc_tc in Hr as [?|?]; done. }
    split; [|exact Hp]. split; [by left| | |].
    + intros c Hc. destruct (decide ((c, b) ∈ mx_dir (gmix g))) as [|Hn]; [done|]. exfalso. apply (not_elem_of_empty (C := nset) c). rewrite <-H1.
      apply elem_of_difference. by rewrite !(gok_par _ Hg).
    + intros d _ Hd. by apply Hns in Hd.
    + intros l p (Hnd & Ht & x & q & m & b' & y & El & Hna & Hin) Ep.
      destruct (last_two x q m) as (p1 & w & u & E1). rewrite El in Ep. change (x :: q :: m ++ [b'; y]) with ((x :: q :: m) ++ [b'; y]) in Ep.
      apply app_inj_2 in Ep as [_ E2]; [|done]. injection E2 as -> ->.
      destruct (Hin p1 w u a [b]) as [[_ Hau] Hub]; [|done|].
      { rewrite El. change (x :: q :: m ++ [a; b]) with ((x :: q :: m) ++ [a; b]). rewrite E1. by rewrite <-(assoc_L app). }
      destruct Hau as [Hau|Hau]; [|by apply Hns in Hau]. apply (Hp u Hau); [|by apply rtc_once].
      intros ->. apply (simple_irr _ Hsi b). by left.
  - intros [Hab [[_ H1 _ _] Hp]]. split_and!; [|clear; set_solver| |done].
    + apply set_eq. intros c. split; [|by intros ?%not_elem_of_empty]. rewrite elem_of_difference, !(gok_par _ Hg). intros [H2 H3]. by apply H1 in H2.
    + apply set_eq. intros c. split; [|by intros ?%not_elem_of_empty]. intros [[Hc _]%elem_of_difference Hc']%elem_of_intersection. exfalso.
      apply (Hanc b) in Hc; [|apply (gok_dirN _ Hg a b Hab)]. apply (gok_chi _ Hg) in Hc'. apply (Hp c Hc'); [|by apply tc_rtc]. intros ->. by apply (Hac b).
Qed.

Example C96_lax_dag_example :
  ag_wf mb_ag ∧ ancestral (gmix mb_ag) ∧ g_un mb_ag = ∅ ∧ g_bi mb_ag = ∅ ∧
  match legitimate_mark_changes_lax mb_ag oracle0 with Ok (X, _) => bool_decide (X = {[(0, 1); (2, 1)]}) | _ => false end = true.
Proof. split_and!; [ex_wf..|by apply (bool_decide_unpack _); vm_compute|by vm_compute]. Qed.

(** ** C97: [get_all_mec] *)
Lemma kstep_swap h h' : gok h → gok h' → g_un h = ∅ → g_un h' = ∅ → kstep (mec_key h) (mec_key h') →
  ∃ a b, legit (gmix h) a b ∧ (swap (gmix h) (gmix h') a b ∨ swap (gmix h') (gmix h) a b).
Proof.
  intros Hg Hg' HU HU' (a & b & Hl & Hc). rewrite kmix_key in Hl, Hc by done. exists a, b. split; [done|].
  destruct Hc as [[Hab E]|[Hab E]]; injection E as HD HB.
  - left. apply swap_of; try done. by rewrite HB, (comm_L (∪)).
  - right. apply swap_of; try done.
    + rewrite HD. apply elem_of_union_r. by apply elem_of_singleton.
    + rewrite HD. pose proof (gok_dir1 _ Hg a b) as Hn. apply spouse_upair in Hab; [|done]. apply set_eq. intros e.
      rewrite elem_of_difference, elem_of_union, elem_of_singleton. split; [|tauto]. intros He. split; [by left|]. intros ->. by apply Hn in He as (_ & _ & He & _).
    + rewrite HB. apply spouse_upair in Hab; [|done]. apply set_eq. intros e. rewrite elem_of_union, elem_of_difference, elem_of_singleton.
      split; [|intros [->|[? _]]; done]. intros He. destruct (decide (e = upair a b)); tauto.
Qed.
(** All graphs that are returned are ancestral, over the same nodes and Markov equivalent to the first, which
    is the graph itself; each is reached by changes of single marks that preserve this. *)
Theorem C97_get_all_mec_sound g o flip :
  ag_wf g → ancestral (gmix g) → g_un g = ∅ →
  ∃ l, get_all_mec g o flip = Ok (g :: l) ∧
    ∀ h, h ∈ g :: l → ag_wf h ∧ g_nodes h = g_nodes g ∧ g_un h = ∅ ∧ ancestral (gmix h) ∧ same_mseps (g_nodes g) (gmix g) (gmix h) ∧
      rtc (mark_step (g_nodes g)) (gmix g) (gmix h) ∧ (maximal (g_nodes g) (gmix g) → maximal (g_nodes g) (gmix h)).
Proof.
  rewrite <-gok_ag_wf. intros Hg Ha HU. destruct (get_all_mec_spec g o flip Hg Ha HU) as (l & E & HA & HB). exists l. split; [done|].
  set (N := g_nodes g). intros h Hh. pose proof (HA h Hh) as [Hgd Hr]. pose proof Hgd as [G1 G2 G3 G4 _ _]. rewrite <-gok_ag_wf. do 4 (split; [done|]).
  assert (∀ k, rtc kstep (mec_key g) k → ∃ h, h ∈ g :: l ∧ mec_key h = k ∧ same_mseps N (gmix g) (gmix h) ∧ rtc (mark_step N) (gmix g) (gmix h) ∧
    (maximal N (gmix g) → maximal N (gmix h))) as Hall.
  { apply (rtc_ind_r (λ k, ∃ h, h ∈ g :: l ∧ mec_key h = k ∧ same_mseps N (gmix g) (gmix h) ∧ rtc (mark_step N) (gmix g) (gmix h) ∧
      (maximal N (gmix g) → maximal N (gmix h)))).
    - exists g. split_and!; [by left|done|done|done|done].
    - intros k k' Hk Hs (h1 & H1 & <- & Hse & Hrt & Hmx). assert (rtc kstep (mec_key g) k') as Hk' by (by eapply rtc_r).
      apply HB, elem_of_list_fmap in Hk' as (h2 & -> & H2). exists h2. split; [done|]. split; [done|].
      destruct (HA h1 H1) as [[P1 P2 P3 _ _ _] _]. destruct (HA h2 H2) as [[Q1 Q2 Q3 _ _ _] _]. destruct (gmix_full h1 P1) as [Ps Pe]. destruct (gmix_full h2 Q1) as [Qs Qe].
      destruct (kstep_swap h1 h2 P1 Q1 P3 Q3 Hs) as (a & b & Hl & Hsw).
      assert (same_mseps N (gmix h1) (gmix h2)) as Hse2.
      { apply (mark_sep _ _ a b); [done..| |apply Hl]. destruct Hsw; [by apply swap_rel|by apply mark_rel_sym, swap_rel]. }
      split_and!; [by eapply same_mseps_trans| |].
      + eapply rtc_r; [exact Hrt|]. split_and!; [by exists a, b|done|done].
      + intros Hm. apply Hmx in Hm. destruct Hsw as [Hsw|Hsw].
        * by apply (swap_maximal N _ _ a b Qs Hsw).
        * by apply (swap_maximal N _ _ a b Ps Hsw (same_mseps_sym _ _ _ Hse2)). }
  destruct (Hall _ Hr) as (h' & Hh' & Ek & H). assert (gmix h' = gmix h) as Em.
  { destruct (HA h' Hh') as [[_ _ Q3 _ _ _] _]. by rewrite <-(kmix_key h' Q3), <-(kmix_key h G3), Ek. }
  by rewrite <-Em.
Qed.

Lemma same_marks_swap G G' H a b : same_marks G G' → swap G H a b → swap G' H a b.
Proof.
  intros Hm [S1 S2 S3 S4 S5]. split; [by apply Hm|done|..]; intros x y; destruct (Hm x y) as (M1 & M2 & M3).
  - by rewrite S3, M1.
  - by rewrite <-M2, S4.
  - by rewrite <-M3, S5.
Qed.
Lemma same_marks_swap' G G' H a b : same_marks G G' → swap H G a b → swap H G' a b.
Proof.
  intros Hm [S1 S2 S3 S4 S5]. split; [done|by apply Hm|..]; intros x y; destruct (Hm x y) as (M1 & M2 & M3).
  - by rewrite <-S3, M1.
  - by rewrite S4, M2.
  - by rewrite S5, M3.
Qed.
Lemma swap_marks D B B' a b : simple B → swap D B a b → swap D B' a b → same_marks B B'.
Proof.
  intros Hs H1 H2 x y. split_and!.
  - by rewrite (sw_dir _ _ _ _ H1), (sw_dir _ _ _ _ H2).
  - by rewrite (swap_spo_B _ _ _ _ H1), (swap_spo_B _ _ _ _ H2).
  - by rewrite <-(sw_nei _ _ _ _ H1), (sw_nei _ _ _ _ H2).
Qed.
Lemma swap_marks' D D' B a b : swap D B a b → swap D' B a b → same_marks D D'.
Proof.
  intros H1 H2 x y. split_and!.
  - by rewrite (swap_dir_D _ _ _ _ H1), (swap_dir_D _ _ _ _ H2).
  - by rewrite (sw_spo _ _ _ _ H1), (sw_spo _ _ _ _ H2).
  - by rewrite (sw_nei _ _ _ _ H1), (sw_nei _ _ _ _ H2).
Qed.
Lemma same_marks_sym G H : same_marks G H → same_marks H G.
Proof. intros Hm x y. destruct (Hm x y) as (M1 & M2 & M3). done. Qed.

Lemma same_marks_mseps N G H : same_marks G H → same_mseps N G H.
Proof.
  intros Hm. assert (mx_dir G = mx_dir H) as ED by (apply set_eq; intros [x y]; apply Hm).
  assert (∀ x y, madj G x y ↔ madj H x y) as Hadj.
  { intros x y. unfold madj. destruct (Hm x y) as (_ & -> & ->). by rewrite ED. }
  assert (∀ x y, into G x y ↔ into H x y) as Hin.
  { intros x y. unfold into. destruct (Hm x y) as (_ & -> & _). by rewrite ED. }
  assert (∀ C x y l, mpath G C x y l ↔ mpath H C x y l) as Hp.
  { intros C x y l. unfold mpath, mtrail, mactive, mactive_at, mcollider. setoid_rewrite Hadj. setoid_rewrite Hin. by rewrite ED. }
  intros A B C _ _ _ _. unfold msepd. by setoid_rewrite Hp.
Qed.

(** For maximal graphs every graph that can be reached by such changes is returned. *)
Theorem C97_get_all_mec_closed g o flip :
  ag_wf g → ancestral (gmix g) → maximal (g_nodes g) (gmix g) → g_un g = ∅ →
  ∃ l, get_all_mec g o flip = Ok l ∧ ∀ H, rtc (mark_step (g_nodes g)) (gmix g) H → ∃ h, h ∈ l ∧ same_marks (gmix h) H.
Proof.
  intros Hw Ha Hm HU. pose proof Hw as Hg. apply gok_ag_wf in Hg.
  destruct (get_all_mec_spec g o flip Hg Ha HU) as (l & E & HA & HB). destruct (C97_get_all_mec_sound g o flip Hw Ha HU) as (l' & E' & HC).
  rewrite E in E'. injection E' as <-. exists (g :: l). split; [done|]. set (N := g_nodes g) in *.
  apply (rtc_ind_r (λ H, ∃ h, h ∈ g :: l ∧ same_marks (gmix h) H)); [exists g; split; [by left|done]|].
  intros G H _ ((a & b & Hsw) & Hah & Hse) (h & Hh & Hmk). destruct (HC h Hh) as (Wh & Nh & Uh & Ah & _ & _ & Mh). specialize (Mh Hm). apply gok_ag_wf in Wh.
  destruct (gmix_full h Wh) as [Ps Pe]. apply same_marks_sym in Hmk as Hmk'.
  assert (same_mseps N (gmix h) H) as Hse'.
  { eapply same_mseps_trans; [|exact Hse]. by apply same_marks_mseps. }
  assert (∀ x y, ¬ neighbor (gmix h) x y) as Hnn by (intros x y; unfold neighbor; cbn; rewrite Uh; by intros [?%not_elem_of_empty|?%not_elem_of_empty]).
  destruct Hsw as [Hsw|Hsw].
  - apply (same_marks_swap _ _ _ _ _ Hmk') in Hsw. assert (simple H) as Hs by (eapply swap_simple_B; [exact Hsw|done]).
    assert (separate H) as He by (intros x y z _ Hn; by apply (sw_nei _ _ _ _ Hsw), Hnn in Hn).
    destruct (change_legit N (gmix h) H a b) as [Hl _]; [done..|rewrite <-Nh; apply (madj_nodes h Wh)|by left|done|done|].
    assert (kstep (mec_key h) (g_dir h ∖ {[(a, b)]}, g_bi h ∪ {[upair a b]})) as Hk.
    { exists a, b. rewrite kmix_key by done. split; [done|]. left. split; [apply Hsw|done]. }
    assert (rtc kstep (mec_key g) (g_dir h ∖ {[(a, b)]}, g_bi h ∪ {[upair a b]})) as Hr by (eapply rtc_r; [by apply (HA h Hh)|done]).
    apply HB, elem_of_list_fmap in Hr as (h' & Ek & Hh'). exists h'. split; [done|]. injection Ek as HD HBi. symmetry in HD, HBi.
    destruct (HC h' Hh') as (Wh' & _ & Uh' & _). apply gok_ag_wf in Wh'.
    apply (swap_marks (gmix h) _ _ a b); [by apply gmix_simple| |done]. apply swap_of; try done; [apply Hsw|by rewrite HBi, (comm_L (∪))].
  - apply (same_marks_swap' _ _ _ _ _ Hmk') in Hsw. assert (simple H) as Hs by (eapply swap_simple_D; [exact Hsw|done]).
    assert (separate H) as He by (intros x y z _ Hn; by apply (sw_nei _ _ _ _ Hsw), Hnn in Hn).
    destruct (change_legit N H (gmix h) a b) as [_ Hl]; [done..| |by right|by apply same_mseps_sym|done|].
    { intros x y Hxy. rewrite <-Nh. apply (madj_nodes h Wh). by apply (mr_adj _ _ _ _ (swap_rel _ _ _ _ Hsw Ps)). }
    assert (spouse (gmix h) a b) as Hab by apply Hsw.
    assert (kstep (mec_key h) (g_dir h ∪ {[(a, b)]}, g_bi h ∖ {[upair a b]})) as Hk.
    { exists a, b. rewrite kmix_key by done. split; [done|]. right. done. }
    assert (rtc kstep (mec_key g) (g_dir h ∪ {[(a, b)]}, g_bi h ∖ {[upair a b]})) as Hr by (eapply rtc_r; [by apply (HA h Hh)|done]).
    apply HB, elem_of_list_fmap in Hr as (h' & Ek & Hh'). exists h'. split; [done|]. injection Ek as HD HBi. symmetry in HD, HBi.
    destruct (HC h' Hh') as (Wh' & _ & Uh' & _). apply gok_ag_wf in Wh'.
    apply (swap_marks' _ _ (gmix h) a b); [|done]. apply swap_of; try done.
    + rewrite HD. apply elem_of_union_r. by apply elem_of_singleton.
    + rewrite HD. pose proof (gok_dir1 _ Wh a b) as Hn. apply spouse_upair in Hab; [|done]. apply set_eq. intros e.
      rewrite elem_of_difference, elem_of_union, elem_of_singleton. split; [|tauto]. intros He'. split; [by left|]. intros ->. by apply Hn in He' as (_ & _ & He' & _).
    + rewrite HBi. apply spouse_upair in Hab; [|done]. apply set_eq. intros e. rewrite elem_of_union, elem_of_difference, elem_of_singleton.
      split; [|intros [->|[? _]]; done]. intros He'. destruct (decide (e = upair a b)); tauto.
Qed.
Theorem C97_undirected g o flip : g_un g ≠ ∅ → get_all_mec g o flip = Raise ValueError.
Proof. intros H. unfold get_all_mec, mec_fuel. cbn [mec_loop]. rewrite (proj1 (C96_undirected _ _ _ H)). done. Qed.

Example C97_example :
  ag_wf ma_ag ∧ ancestral (gmix ma_ag) ∧ maximal (g_nodes ma_ag) (gmix ma_ag) ∧ g_un ma_ag = ∅ ∧
  match get_all_mec ma_ag oracle0 (λ _, true) with
  | Ok l => bool_decide ((list_to_set (mec_key <$> l) : gset (arcset * arcset)) =
      {[({[(0, 1)]}, {[(1, 2)]}); ({[(0, 1); (2, 1)]}, ∅); ({[(2, 1)]}, {[(0, 1)]}); (∅, {[(0, 1); (1, 2)]})]})
  | _ => false end = true.
Proof. split_and!; [ex_wf..|by vm_compute]. Qed.
(** The same graph may be returned twice. *)
Theorem C97_duplicates_refuted :
  ∃ g o flip l, ag_wf g ∧ ancestral (gmix g) ∧ maximal (g_nodes g) (gmix g) ∧ g_un g = ∅ ∧ get_all_mec g o flip = Ok l ∧ ¬ NoDup (mec_key <$> l).
Proof.
  assert (match get_all_mec ma_ag oracle0 (λ _, true) with Ok l => bool_decide (¬ NoDup (mec_key <$> l)) | _ => false end = true) as H by (by vm_compute).
  destruct (get_all_mec ma_ag oracle0 (λ _, true)) as [l|] eqn:E; [|done]. apply bool_decide_eq_true in H.
  exists ma_ag, oracle0, (λ _, true), l. split_and!; [ex_wf..|done|done].
Qed.

Print Assumptions C94_skeleton.
Print Assumptions C94_vstructures.
Print Assumptions C94_discriminating_paths.
Print Assumptions C95_markov_equivalent.
Print Assumptions C95_true_nonmaximal_refuted.
Print Assumptions C95_false_nonmaximal.
Print Assumptions C95_nodes_refuted.
Print Assumptions C96_mark_changes_sound.
Print Assumptions C96_mark_changes.
Print Assumptions C96_undirected.
Print Assumptions C96_lax_raises.
Print Assumptions C96_lax_dag.
Print Assumptions C97_get_all_mec_sound.
Print Assumptions C97_get_all_mec_closed.
Print Assumptions C97_undirected.
Print Assumptions C97_duplicates_refuted.
