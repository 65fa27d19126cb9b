(** [markov_equivalent], [legitimate_mark_changes] and the changed graphs. *)
From Verif Require Import Py Spec SpecDsep SpecMixed SpecMagMec DagModel UGraphModel CompareModel AncestralModel MagModel MagMecModel AncestralState AncestralProofs AncestralCopy
  PropertiesAncestral TopoProofs StateProofs ReachProofs QueryProofs PdagProofs UGraphProofs CompareProofs ShdProofs MWalkProofs MsepProofs InduceProofs MagProofs MaxProofs
  MagMecProofs MagMecCore MagMecMain MagMecNec MagMarkProofs MagLegitProofs MagDiscProofs.

Lemma g_skeleton_spec g x y : gok g → upair x y ∈ g_skeleton g ↔ madj (gmix g) x y.
Proof.
  intros Hg. unfold g_skeleton, madj. rewrite spouse_upair, neighbor_upair, elem_of_as_edges by done. split.
  - intros ([a b] & He & E). cbn in E. apply elem_of_union in He as [[He|He]%elem_of_union|He].
    + right. right. left. rewrite E. apply upair_in_lt; [apply Hg|by left].
    + right. right. right. rewrite E. apply upair_in_lt; [apply Hg|by left].
    + apply upair_eq_or in E as [[-> ->]|[-> ->]]; [by left|by right; left].
  - intros [H|[H|[H|H]]].
    + exists (x, y). split; [set_solver|done].
    + exists (y, x). split; [set_solver|apply upair_comm].
    + exists (upair x y). split; [set_solver|]. unfold upair. cbn. f_equal; lia.
    + exists (upair x y). split; [set_solver|]. unfold upair. cbn. f_equal; lia.
Qed.
Lemma g_skeleton_eq g h : gok g → gok h → g_skeleton g = g_skeleton h ↔ ∀ x y, madj (gmix g) x y ↔ madj (gmix h) x y.
Proof.
  intros Hg Hh. split.
  - intros E x y. by rewrite <-!g_skeleton_spec, E.
  - intros H. assert (∀ k k', gok k → gok k' → (∀ x y, madj (gmix k) x y ↔ madj (gmix k') x y) → g_skeleton k ⊆ g_skeleton k') as Hgo.
    { clear. intros k k' Hk Hk' H e He. pose proof He as ([a b] & _ & ->)%elem_of_as_edges. cbn [fst snd] in *.
      apply g_skeleton_spec; [done|]. apply H. by apply g_skeleton_spec. }
    apply (anti_symm (⊆)); [by apply Hgo|apply Hgo; [done..|]]. intros x y. symmetry. apply H.
Qed.

Lemma mvstruct_sym G x z y : mvstruct G x z y ↔ mvstruct G y z x.
Proof.
  unfold mvstruct. rewrite (mcollider_sym G x z y). split; intros (H1 & H2 & H3); (split_and!; [done|done|]); intros H%madj_sym; done.
Qed.
Lemma g_vstructures_spec g o x z y : gok g → (x, z, y) ∈ g_vstructures g o ↔ x < y ∧ mvstruct (gmix g) x z y.
Proof.
  intros Hg. unfold g_vstructures. rewrite elem_of_list_to_set, elem_of_list_bind.
  assert (∀ a v, a ∈ g_parents g v ∪ g_spouses g v ↔ into (gmix g) a v) as HX.
  { intros a v. rewrite elem_of_union, (gok_par _ Hg), (gok_spo _ Hg), <-(spouse_upair g v a Hg). unfold into. split; intros [?|?]; (by left) || (right; by apply spouse_sym). }
  setoid_rewrite elem_of_list_bind. split.
  - intros (v & ([p1 p2] & He & Hp) & Hv). destruct (has_any_edge g p1 p2) eqn:Eh; [by apply elem_of_nil in He|].
    apply elem_of_list_singleton in He. injection He as -> -> ->. apply combinations2_ne in Hp as (Hne & H1 & H2); [|apply NoDup_on].
    rewrite elem_of_on, HX in H1, H2. assert (¬ madj (gmix g) p1 p2) as Hna by (rewrite <-has_any_edge_spec, Eh by done; done).
    split; [lia|]. destruct (decide (p1 ≤ p2)).
    + rewrite Nat.min_l, Nat.max_r by lia. done.
    + rewrite Nat.min_r, Nat.max_l by lia. apply mvstruct_sym. done.
  - intros (Hlt & (H1 & H2) & Hne & Hna). exists z. split; [|apply elem_of_on; apply (madj_nodes g Hg x z); by apply into_adj].
    assert (¬ madj (gmix g) y x) as Hna' by (intros H%madj_sym; done).
    destruct (combinations2_total (on o [152; z] (g_parents g z ∪ g_spouses g z)) x y) as [[H _]|[H _]];
      [apply NoDup_on|by apply elem_of_on, HX..|done|exists (x, y)|exists (y, x)]; (split; [|done]).
    + destruct (has_any_edge g x y) eqn:Eh; [by apply has_any_edge_spec in Eh|]. rewrite Nat.min_l, Nat.max_r by lia. by apply elem_of_list_singleton.
    + destruct (has_any_edge g y x) eqn:Eh; [by apply has_any_edge_spec in Eh|]. rewrite Nat.min_r, Nat.max_l by lia. by apply elem_of_list_singleton.
Qed.
Lemma g_vstructures_eq g h o o' : gok g → gok h → g_vstructures g o = g_vstructures h o' ↔ ∀ x z y, mvstruct (gmix g) x z y ↔ mvstruct (gmix h) x z y.
Proof.
  intros Hg Hh. split.
  - intros E. assert (∀ x z y, x < y → mvstruct (gmix g) x z y ↔ mvstruct (gmix h) x z y) as Hlt.
    { intros x z y Hxy. pose proof (g_vstructures_spec g o x z y Hg). pose proof (g_vstructures_spec h o' x z y Hh). rewrite E in *. tauto. }
    intros x z y. destruct (lt_eq_lt_dec x y) as [[?| ->]|?]; [by apply Hlt|unfold mvstruct; naive_solver|].
    rewrite (mvstruct_sym (gmix g)), (mvstruct_sym (gmix h)). by apply Hlt.
  - intros H. apply set_eq. intros [[x z] y]. by rewrite !g_vstructures_spec, H.
Qed.

Lemma markov_equivalent_spec g h o o' : gok g → ancestral (gmix g) → gok h → ancestral (gmix h) →
  ∃ b, markov_equivalent g h o o' = Ok b ∧ (b = true ↔ agree (gmix g) (gmix h)).
Proof.
  intros Hg Hag Hh Hah. unfold markov_equivalent.
  destruct (discriminating_paths_spec g o Hg Hag) as (a & -> & Ha). destruct (discriminating_paths_spec h o' Hh Hah) as (b & -> & Hb). cbn [res_bind].
  eexists. split; [reflexivity|]. rewrite !andb_true_iff, !bool_decide_eq_true, g_skeleton_eq, g_vstructures_eq by done.
  split.
  - intros [[H1 H2] H3]. split; [done|done|]. intros l Hlg Hlh.
    assert (l ∈ dom a) as HA.
    { destruct (decide (l ∈ dom a)) as [|Hn]; [done|]. exfalso. apply not_elem_of_dom in Hn.
      assert (¬ lab g l true) as N1 by (intros H%Ha; congruence). assert (¬ lab g l false) as N2 by (intros H%Ha; congruence).
      apply N2. split; [done|]. split; [done|]. intros Hc. exfalso. apply N1. split; [done|]. done. }
    assert (l ∈ dom b) as HB.
    { destruct (decide (l ∈ dom b)) as [|Hn]; [done|]. exfalso. apply not_elem_of_dom in Hn.
      assert (¬ lab h l true) as N1 by (intros H%Hb; congruence). assert (¬ lab h l false) as N2 by (intros H%Hb; congruence).
      apply N2. split; [done|]. split; [done|]. intros Hc. exfalso. apply N1. split; [done|]. done. }
    pose proof (H3 l ltac:(by apply elem_of_intersection)) as E. cbn in E. apply elem_of_dom in HA as [c Hc]. rewrite Hc in E. symmetry in E.
    apply Ha in Hc as [_ Hc]. apply Hb in E as [_ E]. by rewrite <-Hc, <-E.
  - intros [H1 H2 H3]. split; [done|]. intros l [Hla Hlb]%elem_of_intersection. apply elem_of_dom in Hla as [c Hc]. apply elem_of_dom in Hlb as [c' Hc'].
    cbn. rewrite Hc, Hc'. f_equal. apply Ha in Hc as [D1 Hc]. apply Hb in Hc' as [D2 Hc']. specialize (H3 l D1 D2). clear -Hc Hc' H3. destruct c, c'; [done| | |done]; exfalso; intuition congruence.
Qed.

(** The criterion decides Markov equivalence of maximal graphs. *)
Lemma maximal_madj g : gok g → ancestral (gmix g) → maximal (g_nodes g) (gmix g) → ∀ x y, x ≠ y → binduced (gmix g) x y → madj (gmix g) x y.
Proof.
  intros Hg Ha Hm x y Hne Hb. destruct (madj_dec (gmix g) x y) as [|Hna]; [done|]. exfalso.
  assert (x ∈ g_nodes g ∧ y ∈ g_nodes g) as [Hx Hy].
  { destruct Hb as (a & b & H1 & H2 & _). split; [apply (madj_nodes g Hg x a)|apply (madj_nodes g Hg y b)]; right; right; by left. }
  destruct (Hm x y Hx Hy Hne Hna) as (C & HC & Hs). revert Hs. apply binduced_no_sep; try done. clear -HC. set_solver.
Qed.
Lemma agree_same_mseps g h : gok g → ancestral (gmix g) → gok h → ancestral (gmix h) → g_nodes g = g_nodes h →
  maximal (g_nodes g) (gmix g) → maximal (g_nodes h) (gmix h) → agree (gmix g) (gmix h) ↔ same_mseps (g_nodes g) (gmix g) (gmix h).
Proof.
  intros Hg Hag Hh Hah EN Hmg Hmh. split.
  - intros Hag' A B C _ _ _ _. split.
    + apply (msepd_agree (gmix h) (gmix g)); try (by apply gmix_simple || by apply gmix_separate || done); [by apply agree_sym|by apply maximal_madj].
    + apply (msepd_agree (gmix g) (gmix h)); try (by apply gmix_simple || by apply gmix_separate || done). by apply maximal_madj.
  - intros Hs. apply (agree_nec (g_nodes g)); try (by apply gmix_simple || by apply gmix_separate || done).
    + apply (madj_nodes g Hg).
    + rewrite EN. apply (madj_nodes h Hh).
    + by rewrite EN.
Qed.

(** ** Mark changes *)
Lemma lmc_spec g o flip : gok g → ancestral (gmix g) → g_un g = ∅ →
  ∃ X Y, legitimate_mark_changes g o flip = Ok (X, Y) ∧ (∀ a b, (a, b) ∈ X ↔ (a, b) ∈ g_dir g ∧ legit (gmix g) a b) ∧
    (∀ a b, (a, b) ∈ Y ↔ spouse (gmix g) a b ∧ legit (gmix g) a b).
Proof.
  intros Hg Ha Hun. unfold legitimate_mark_changes. rewrite decide_True by done.
  destruct (discriminating_paths_spec g o Hg Ha) as (dp & -> & Hdp). cbn [res_bind].
  destruct (C68_ancestor_dict g o (proj1 (gok_ag_wf g) Hg) Ha) as (anc & -> & Hanc). cbn [res_bind].
  pose proof (gmix_simple g Hg) as Hsi. pose proof Ha as [Hac _].
  assert (∀ a b, into (gmix g) a b → no_other_path g a b anc = true ↔ ∀ c, (a, c) ∈ g_dir g → c ≠ b → ¬ rtc (edge (g_dir g)) c b) as Hpath.
  { intros a b Hab. assert (b ∈ g_nodes g) as Hb by (apply (madj_nodes g Hg a b); by apply into_adj).
    unfold no_other_path. rewrite bool_decide_eq_true. split.
    - intros E c Hc Hcb Hr. apply (not_elem_of_empty (C := nset) c). rewrite <-E. apply elem_of_intersection. split; [|by apply (gok_chi _ Hg)].
      apply elem_of_difference. split; [|intros ->%elem_of_singleton; apply (simple_irr _ Hsi a); by left].
      apply (Hanc b Hb). apply rtc_tc in Hr as [?|?]; done.
    - intros H. apply set_eq. intros c. split; [|by intros ?%not_elem_of_empty]. intros [[Hc _]%elem_of_difference Hc']%elem_of_intersection. exfalso.
      apply (Hanc b Hb) in Hc. apply (gok_chi _ Hg) in Hc'. apply (H c Hc'); [|by apply tc_rtc]. intros ->. by apply (Hac b). }
  assert (∀ a b, no_disc_path dp a b = true ↔ ∀ l p, discriminating (gmix g) l → l ≠ p ++ [a; b]) as Hdisc.
  { intros a b. unfold no_disc_path. rewrite bool_decide_eq_true. split.
    - intros H l p Hl E. assert (l ∈ dom dp) as Hd.
      { destruct (decide (l ∈ dom dp)) as [|Hn]; [done|]. exfalso. apply not_elem_of_dom in Hn.
        assert (¬ lab g l true) as N1 by (intros H'%Hdp; congruence). assert (¬ lab g l false) as N2 by (intros H'%Hdp; congruence).
        apply N2. split; [done|]. split; [done|]. intros Hc. exfalso. apply N1. split; [done|]. done. }
      apply (H l Hd). rewrite E, reverse_app. cbn. by eexists.
    - intros H l [c Hc]%elem_of_dom [r E]. apply Hdp in Hc as [Hl _]. apply (H l (reverse r) Hl). rewrite <-(reverse_involutive l), E, reverse_app. done. }
  assert (∀ a b, g_parents g a ∖ g_parents g b = ∅ ↔ ∀ c, (c, a) ∈ g_dir g → (c, b) ∈ g_dir g) as Hpar.
  { intros a b. split.
    - intros E c Hc. destruct (decide ((c, b) ∈ g_dir g)) as [|Hn]; [done|]. exfalso. apply (not_elem_of_empty (C := nset) c). rewrite <-E.
      apply elem_of_difference. by rewrite !(gok_par _ Hg).
    - intros H. apply set_eq. intros c. split; [|by intros ?%not_elem_of_empty]. rewrite elem_of_difference, !(gok_par _ Hg). intros [H1 H2]. by apply H in H1. }
  assert (∀ a b (X : nset), (∀ d, d ∈ X ↔ d ≠ b ∧ spouse (gmix g) d a ∧ ¬ spouse (gmix g) d b ∧ (d, b) ∉ g_dir g) → X = ∅ ↔
    ∀ d, d ≠ b → spouse (gmix g) d a → (d, b) ∈ g_dir g ∨ spouse (gmix g) d b) as Hspo.
  { intros a b X HX. split.
    - intros -> d Hd Hs. destruct (decide ((d, b) ∈ g_dir g)) as [|N1]; [by left|]. destruct (decide (spouse (gmix g) d b)) as [|N2]; [by right|].
      exfalso. apply (not_elem_of_empty (C := nset) d). by apply HX.
    - intros H. apply set_eq. intros d. split; [|by intros ?%not_elem_of_empty]. intros (H1 & H2 & H3 & H4)%HX. exfalso. by destruct (H d H1 H2). }
  assert (∀ x d, d ∈ g_spouses g x ↔ spouse (gmix g) d x) as Hs.
  { intros x d. rewrite (gok_spo _ Hg), <-(spouse_upair g x d Hg). split; apply spouse_sym. }
  eexists _, _. split; [reflexivity|]. split; intros a b.
  - rewrite elem_of_filter. cbn [fst snd]. rewrite !andb_true_iff, !bool_decide_eq_true, Hpar, Hdisc. split.
    + intros [(((H1 & H2) & H3) & H4) Hd]. rewrite Hpath in H3 by (by left). split; [done|]. split; [|done]. split; [by left|done| |done].
      apply (Hspo a b (g_spouses g a ∖ g_spouses g b ∖ g_parents g b)); [|done]. intros d. rewrite !elem_of_difference, !Hs, (gok_par _ Hg).
      split; [|tauto]. intros ((? & ?) & ?). split_and!; try done. intros ->. by apply (simple_dir _ Hsi) in Hd as (_ & Hd & _); apply Hd, spouse_sym.
    + intros [Hd [[S1 S2 S3 S4] Hp]]. split; [|done]. rewrite Hpath by done. split_and!; [done| |done|done].
      apply (Hspo a b (g_spouses g a ∖ g_spouses g b ∖ g_parents g b)); [|done]. intros d. rewrite !elem_of_difference, !Hs, (gok_par _ Hg).
      split; [|tauto]. intros ((? & ?) & ?). split_and!; try done. intros ->. by apply (simple_dir _ Hsi) in Hd as (_ & Hd & _); apply Hd, spouse_sym.
  - assert ((a, b) ∈ both_ways g flip ↔ spouse (gmix g) a b) as Hbw.
    { unfold both_ways. rewrite elem_of_union, elem_of_rev_arcs, !elem_of_map. unfold spouse. cbn. unfold unpack. split.
      - intros [([x y] & E & He)|([x y] & E & He)]; destruct (flip (x, y)); cbn in E; injection E as -> ->; tauto.
      - intros [H|H].
        + destruct (flip (a, b)) eqn:Ef; [right|left]; exists (a, b); by rewrite Ef.
        + destruct (flip (b, a)) eqn:Ef; [left|right]; exists (b, a); by rewrite Ef. }
    rewrite elem_of_filter, Hbw. unfold mark_ok. cbn [fst snd]. rewrite !andb_true_iff, !bool_decide_eq_true, Hpar, Hdisc.
    assert (∀ d, d ∈ g_spouses g a ∖ {[b]} ∖ g_spouses g b ∖ g_parents g b ↔ d ≠ b ∧ spouse (gmix g) d a ∧ ¬ spouse (gmix g) d b ∧ (d, b) ∉ g_dir g) as HX.
    { intros d. rewrite !elem_of_difference, !Hs, (gok_par _ Hg), elem_of_singleton. tauto. }
    rewrite (Hspo a b _ HX). split.
    + intros [(((H1 & H2) & H3) & H4) Hd]. rewrite Hpath in H3 by (by right). split; [done|]. split; [|done]. split; [by right|done..].
    + intros [Hd [[S1 S2 S3 S4] Hp]]. split; [|done]. rewrite Hpath by done. done.
Qed.
