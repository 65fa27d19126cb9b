(** Minimality tests of ancestral graphs: C105. *)
From Verif Require Import Py Spec SpecDsep SpecMixed SpecMagImap DagModel DsepModel UGraphModel PdagModel InterveneModel AncestralModel MsepModel MagModel MagImapModel.
From Verif Require Import TopoProofs StateProofs ReachProofs WalkProofs MWalkProofs AncestralState AncestralProofs MsepProofs InduceProofs GlobalProofs MaxProofs MagRemoveProofs MagImapProofs.
From Verif Require Import PropertiesAncestral PropertiesMsep PropertiesMag.

(** [G'] is [G] without the edge between [i] and [j]. *)
Definition one_less (G G' : mixed) (i j : node) : Prop :=
  sub_mixed G' G ∧ madj G i j ∧ ¬ madj G' i j ∧ (∀ x y, madj G x y → madj G' x y ∨ (x, y) = (i, j) ∨ (x, y) = (j, i)).
Definition is_mag (N : nset) (G : mixed) : Prop := ancestral G ∧ maximal N G.
(** What the answer says for a maximal graph [G]. *)
Definition min_answer (N : nset) (G H : mixed) (certify : bool) (a : answer) : Prop :=
  (¬ mag_imap N G H ∧ a = Tuple false None) ∨
  (mag_imap N G H ∧ minimal_in (is_mag N) N G H ∧ a = if certify then Tuple true None else Bare true) ∨
  (mag_imap N G H ∧ ¬ minimal_in (is_mag N) N G H ∧ ∃ i j, a = (if certify then Tuple false (Some (i, j)) else Bare false) ∧
    ∃ G', one_less G G' i j ∧ is_mag N G' ∧ mag_imap N G' H).

(** ** The loop *)
Lemma first_edge_spec (test : arc → res bool) (Q : arc → Prop) l :
  (∀ e, e ∈ l → ∃ b, test e = Ok b ∧ (b = true ↔ Q e)) →
  ∃ r, first_edge test l = Ok r ∧ match r with Some e => e ∈ l ∧ Q e | None => ∀ e, e ∈ l → ¬ Q e end.
Proof.
  induction l as [|e l IH]; intros Ht; [exists None; split; [done|]; intros e H; by apply elem_of_nil in H|].
  cbn [first_edge]. destruct (Ht e) as (b & -> & Hb); [apply elem_of_list_here|]. cbn [res_bind]. destruct b.
  - exists (Some e). split; [done|]. split; [apply elem_of_list_here|by apply Hb].
  - destruct IH as (r & -> & Hr); [intros e' He'; apply Ht; by apply elem_of_list_further|]. exists r. split; [done|].
    destruct r as [e'|].
    + destruct Hr as [H1 H2]. split; [by apply elem_of_list_further|done].
    + intros e' [->|He']%elem_of_cons; [|by apply Hr]. intros HQ. by apply Hb in HQ.
Qed.

Section alg.
  Context (g : ag) (o : oracle) (flip : arc → bool) (sh : list arc → list arc).
  Context (Hg : gok g) (Han : ancestral (gmix g)) (HU : g_un g = ∅) (Hsh : ∀ l, sh l ≡ₚ l).
  Notation N := (g_nodes g).
  Notation G := (gmix g).

  Local Lemma Gmag : mag N G.
  Proof using Hg Han HU. split; [by apply gmix_simple|done|done|by apply madj_nodes]. Qed.

  Definition less (e : arc) : mixed := if decide (e ∈ g_dir g) then less_dir G e.1 e.2 else less_bi G e.1 e.2.
  Local Lemma less_sub e : sub_mixed (less e) G.
  Proof using. unfold less. destruct (decide _); [apply less_dir_sub|apply less_bi_sub]. Qed.
  Local Lemma less_mag e : mag N (less e).
  Proof using Hg Han HU. eapply sub_mag; [apply Gmag|apply less_sub]. Qed.

  Local Lemma sample_edge e : e ∈ edge_sample g o flip sh → e ∈ g_dir g ∨ spouse G e.1 e.2.
  Proof using Hsh.
    unfold edge_sample. rewrite (Hsh _), elem_of_app, elem_of_oa, elem_of_list_fmap. intros [H|(f & -> & Hf)]; [by left|right].
    apply elem_of_oa in Hf. unfold unpack. destruct f as [x y]. destruct (flip _); [by right|by left].
  Qed.
  Local Lemma sample_dir i j : (i, j) ∈ g_dir g → (i, j) ∈ edge_sample g o flip sh.
  Proof using Hsh. intros H. unfold edge_sample. rewrite (Hsh _), elem_of_app, elem_of_oa. by left. Qed.
  Local Lemma sample_bi i j : spouse G i j → (i, j) ∈ edge_sample g o flip sh ∨ (j, i) ∈ edge_sample g o flip sh.
  Proof using Hsh.
    intros H. unfold edge_sample. rewrite !(Hsh _), !elem_of_app, !elem_of_list_fmap.
    destruct H as [H|H]; cbn in H.
    - destruct (flip (i, j)) eqn:E; [right|left]; right; exists (i, j); unfold unpack; rewrite E; (split; [done|by apply elem_of_oa]).
    - destruct (flip (j, i)) eqn:E; [left|right]; right; exists (j, i); unfold unpack; rewrite E; (split; [done|by apply elem_of_oa]).
  Qed.
  Local Lemma dir_not_spouse i j : (i, j) ∈ g_dir g → ¬ spouse G i j.
  Proof using Hg. intros H. by apply (simple_dir _ (gmix_simple g Hg)) in H as (_ & ? & _). Qed.
  Local Lemma spouse_not_dir i j : spouse G i j → (i, j) ∉ g_dir g.
  Proof using Hg. intros H H'. by apply (dir_not_spouse i j). Qed.
  Local Lemma less_one e : e ∈ g_dir g ∨ spouse G e.1 e.2 → one_less G (less e) e.1 e.2.
  Proof using Hg HU.
    clear flip sh Hsh. intros He. split; [apply less_sub|]. destruct e as [i j]. cbn [fst snd] in *. pose proof (gmix_simple g Hg) as Hsi.
    assert (madj G i j) as Ha by (destruct He; [by left|right; right; by left]). split; [done|].
    assert (∀ x y, ¬ neighbor G x y) as Hnn by (intros x y; unfold neighbor; cbn; rewrite HU; clear; set_solver).
    unfold less. cbn. destruct (decide ((i, j) ∈ g_dir g)) as [Hd|Hd].
    - apply (simple_dir _ Hsi) in Hd as (D1 & D2 & D3). split.
      + intros [H|[H|[H|H]]]; cbn in H; [clear -H; set_solver| |done|done]. apply D1. cbn. clear -H. set_solver.
      + intros x y [H|[H|H]].
        * destruct (decide ((x, y) = (i, j))) as [?|Hn]; [auto|]. left. left. cbn. cbn in H. clear -H Hn. set_solver.
        * destruct (decide ((y, x) = (i, j))) as [[= -> ->]|Hn]; [auto|]. left. right. left. cbn. cbn in H. clear -H Hn. set_solver.
        * left. right. right. done.
    - destruct He as [?|He]; [done|]. split.
      + intros [H|[H|[H|H]]].
        * done.
        * apply (simple_dir _ Hsi) in H as (_ & H & _). apply H. by apply spouse_sym.
        * apply less_bi_spouse in H. tauto.
        * by apply Hnn in H.
      + intros x y [H|[H|[H|H]]]; [left; by left|left; right; by left| |by apply Hnn in H].
        destruct (decide ((x, y) = (i, j))) as [?|N1]; [auto|]. destruct (decide ((x, y) = (j, i))) as [?|N2]; [auto|].
        left. right. right. left. by rewrite less_bi_spouse.
  Qed.

  Local Lemma run_dir (h : ag) i j : gok h → gmix h = G → g_nodes h = N → (i, j) ∈ g_dir g →
    ∃ h', run_on (remove_directed i j false) h = Ok h' ∧ gok h' ∧ g_nodes h' = N ∧ gmix h' = less_dir G i j.
  Proof using.
    intros Hh E EN Hij. destruct (remove_directed_spec i j false h Hh) as (H1 & (H2 & H3 & H4 & H5) & H6).
    injection E as ED EB EU. rewrite decide_True in H6 by (by rewrite ED).
    exists (remove_directed i j false h).1. unfold run_on. destruct (remove_directed i j false h) as [h' r] eqn:E'. cbn in *. subst r.
    split; [done|]. split; [done|]. split; [by rewrite H2|]. unfold gmix, less_dir. cbn. by rewrite H3, H4, H5, ED, EB, EU.
  Qed.
  Local Lemma run_bi (h : ag) i j : gok h → gmix h = G → g_nodes h = N → spouse G i j →
    ∃ h', run_on (remove_bidirected i j false) h = Ok h' ∧ gok h' ∧ g_nodes h' = N ∧ gmix h' = less_bi G i j.
  Proof using Hg.
    intros Hh E EN Hij. destruct (remove_bidirected_spec i j false h Hh) as (H1 & (H2 & H3 & H4 & H5) & H6).
    injection E as ED EB EU. rewrite spouse_upair in Hij by done. rewrite decide_True in H6 by (by rewrite EB).
    exists (remove_bidirected i j false h).1. unfold run_on. destruct (remove_bidirected i j false h) as [h' r] eqn:E'. cbn in *. subst r.
    split; [done|]. split; [done|]. split; [by rewrite H2|]. unfold gmix, less_bi. cbn. rewrite H3, H4, H5, ED, EB, EU. f_equal.
    apply set_eq. intros [x y]. rewrite !elem_of_difference, not_elem_of_union, !not_elem_of_singleton. split; intros [Hx Hn]; (split; [done|]).
    - pose proof (gok_bilt _ Hg _ _ Hx) as Hlt. unfold upair in Hn. split; intros [= -> ->]; apply Hn; f_equal; lia.
    - intros E2. unfold upair in E2. destruct Hn as [N1 N2]. injection E2 as -> ->. destruct (decide (i ≤ j)) as [Hle|Hle].
      + apply N1. f_equal; lia.
      + apply N2. f_equal; lia.
  Qed.
  Local Lemma drop_spec e : e ∈ g_dir g ∨ spouse G e.1 e.2 →
    ∃ h', drop_edge g o flip e = Ok h' ∧ gok h' ∧ g_nodes h' = N ∧ gmix h' = less e.
  Proof using Hg Han HU.
    intros He. unfold drop_edge. pose proof Hg as Hw. rewrite gok_ag_wf in Hw. destruct (C67_copy g o flip Hw) as (h & -> & Hh & HN & HM & _). cbn [res_bind].
    rewrite <-gok_ag_wf in Hh. unfold less. destruct e as [i j]. cbn [fst snd] in *. unfold has_bidirected, has_directed.
    destruct (decide ((i, j) ∈ g_dir g)) as [Hd|Hd].
    - rewrite bool_decide_eq_false_2 by (rewrite <-spouse_upair by done; by apply dir_not_spouse). cbn [res_bind]. rewrite bool_decide_eq_true_2 by done.
      destruct (run_dir h i j Hh HM HN Hd) as (h' & -> & ?). by exists h'.
    - destruct He as [?|He]; [done|]. rewrite bool_decide_eq_true_2 by (by rewrite <-spouse_upair).
      destruct (run_bi h i j Hh HM HN He) as (h' & -> & ?). cbn [res_bind]. rewrite bool_decide_eq_false_2 by done. by exists h'.
  Qed.
  Local Lemma drop2_spec e : e ∈ g_dir g ∨ spouse G e.1 e.2 →
    ∃ h', drop_edge2 g o flip e = Ok h' ∧ gok h' ∧ g_nodes h' = N ∧ gmix h' = less e.
  Proof using Hg Han HU.
    intros He. unfold drop_edge2. pose proof Hg as Hw. rewrite gok_ag_wf in Hw. destruct (C67_copy g o flip Hw) as (h & -> & Hh & HN & HM & _). cbn [res_bind].
    rewrite <-gok_ag_wf in Hh. unfold less. destruct e as [i j]. cbn [fst snd] in *. unfold has_bidirected.
    destruct (decide ((i, j) ∈ g_dir g)) as [Hd|Hd].
    - rewrite bool_decide_eq_false_2 by (rewrite <-spouse_upair by done; by apply dir_not_spouse).
      destruct (run_dir h i j Hh HM HN Hd) as (h' & -> & ?). by exists h'.
    - destruct He as [?|He]; [done|]. rewrite bool_decide_eq_true_2 by (by rewrite <-spouse_upair).
      destruct (run_bi h i j Hh HM HN He) as (h' & -> & ?). by exists h'.
  Qed.

  Context (h : ag) (p : popper (node * bool)) (Hh : gok h).
  Notation H := (gmix h).
  Notation Q := (λ e : arc, maximal N (less e) ∧ mag_imap N (less e) H).

  Local Lemma imap_of h' e : gok h' → g_nodes h' = N → gmix h' = less e → maximal N (less e) →
    ∃ b, mag_is_imap h' h o p flip = Ok b ∧ (b = true ↔ mag_imap N (less e) H).
  Proof using Hg Han HU Hh.
    intros Hh' HN HM Hm. pose proof Hh as Hw. rewrite gok_ag_wf in Hw. rewrite gok_ag_wf in Hh'.
    destruct (C73_is_imap h' h o p flip Hh') as [[_ Hx]|(_ & b & E & Hb)]; [rewrite HM; apply (less_mag e)|done| | |].
    - change (g_un h') with (mx_un (gmix h')). rewrite HM. apply (less_mag e).
    - rewrite HN, HM in Hx. done.
    - exists b. split; [done|]. rewrite HN, HM in Hb. exact Hb.
  Qed.
  Local Lemma test_spec e : e ∈ edge_sample g o flip sh →
    ∃ b, res_bind (drop_edge g o flip e) (λ h', res_bind (is_maximal h' o flip) (λ m, if m then mag_is_imap h' h o p flip else Ok false)) = Ok b ∧
      (b = true ↔ Q e).
  Proof using Hg Han HU Hh Hsh.
    intros He%sample_edge. destruct (drop_spec e He) as (h' & -> & Hh' & HN & HM). cbn [res_bind].
    pose proof Hh' as Hw'. rewrite gok_ag_wf in Hw'.
    destruct (C71_is_maximal h' o flip Hw') as (m & -> & Hm); [rewrite HM; apply (less_mag e)|]. cbn [res_bind]. rewrite HN, HM in Hm.
    destruct m.
    - destruct (imap_of h' e Hh' HN HM) as (b & E & Hb); [by apply Hm|]. exists b. split; [done|]. rewrite Hb. split; [|tauto]. intros ?. split; [by apply Hm|done].
    - exists false. split; [done|]. split; [done|]. intros [Hx _]. by apply Hm in Hx.
  Qed.

  Local Lemma sub_dec G' : sub_mixed G G' ∨ ¬ sub_mixed G G'.
  Proof using HU.
    destruct (decide (set_Forall (λ e : arc, e ∈ mx_dir G') (g_dir g))) as [D1|D1]; [|right; intros (S1 & _); apply D1; intros [x y] Hx; by apply S1].
    destruct (decide (set_Forall (λ e : arc, spouse G' e.1 e.2) (g_bi g))) as [D2|D2]; [|right; intros (_ & S2 & _); apply D2; intros [x y] Hx; apply S2; by left].
    left. split; [intros x y Hx; by apply (D1 _ Hx)|]. split.
    - intros x y [Hx|Hx]; apply D2 in Hx; [done|by apply spouse_sym].
    - intros x y [Hx|Hx]; cbn in Hx; rewrite HU in Hx; clear -Hx; set_solver.
  Qed.
  Local Lemma smaller_Q : maximal N G → mag_imap N G H → (∃ e, e ∈ edge_sample g o flip sh ∧ Q e) ↔ ¬ minimal_in (is_mag N) N G H.
  Proof using Hg Han HU Hh Hsh p.
    intros Hm Him. pose proof Gmag as HG. split.
    - intros (e & He%sample_edge & Q1 & Q2) Hmin. pose proof (less_one e He) as (L1 & L2 & L3 & _).
      destruct (Hmin (less e)) as (S1 & S2 & S3); [split; [apply (less_mag e)|done]|done|done|].
      apply L3. destruct L2 as [L|[L|[L|L]]]; [left; by apply S1|right; left; by apply S1|right; right; left; by apply S2|right; right; right; by apply S3].
    - intros Hnm. destruct (first_edge_spec _ _ _ test_spec) as ([e|] & _ & Hr); [exists e; tauto|]. exfalso. rename Hr into Hnone'.
      assert (¬ ∃ e, e ∈ edge_sample g o flip sh ∧ Q e) as Hnone by (intros (e & He & HQ); by apply (Hnone' e)).
      apply Hnm. intros G' [_ HmG'] Hsub HimG'. 
      pose proof (sub_dec G') as Hdec.
      destruct Hdec as [?|Hns]; [done|]. exfalso. apply Hnone.
      assert (noind N G) as Hno by by apply maximal_noind.
      destruct (smaller_single N G H HG Hno (gmix_simple h Hh) (gmix_separate h Hh)) with G' as [(i & j & Hij & R)|(i & j & Hij & R)]; [|done|done|done|done| |].
      + apply imap_pwise; [done|by apply gmix_simple|by apply gmix_separate|done|done].
      + exists (i, j). split; [by apply sample_dir|]. unfold less. rewrite decide_True by done. exact R.
      + assert (less_bi G i j = less_bi G j i) as Esym by (unfold less_bi; f_equal; clear; set_solver).
        destruct (sample_bi i j Hij) as [Hs|Hs].
        * exists (i, j). split; [done|]. unfold less. rewrite decide_False by (by apply spouse_not_dir). exact R.
        * exists (j, i). split; [done|]. unfold less. rewrite decide_False by (apply spouse_not_dir; by apply spouse_sym). cbn. rewrite <-Esym. exact R.
  Qed.

  Local Lemma test2_spec validate e : maximal N G → mag_imap N G H → e ∈ edge_sample g o flip sh →
    ∃ b, res_bind (g_ancestors_of g o e.1) (λ a, res_bind (g_ancestors_of g o e.2) (λ b,
      res_bind (msep h o p {[e.1]} {[e.2]} (a ∪ (b ∖ {[e.1; e.2]}))) (λ s,
      if s then
        res_bind (drop_edge2 g o flip e) (λ h',
        res_bind (is_maximal h' o flip) (λ m,
        if m then
          if (validate : bool) then res_bind (mag_is_imap h' h o p flip) (λ b, if b then Ok true else Raise RuntimeError) else Ok true
        else Ok false))
      else Ok false))) = Ok b ∧ (b = true ↔ Q e).
  Proof using Hg Han HU Hh Hsh p.
    intros Hmax Him He%sample_edge. pose proof Hg as Hw. rewrite gok_ag_wf in Hw. pose proof Hh as Hhw. rewrite gok_ag_wf in Hhw.
    pose proof Gmag as HG. assert (noind N G) as Hno by by apply maximal_noind.
    pose proof (imap_pwise N G HG H (gmix_simple h Hh) (gmix_separate h Hh) Hno Him) as Hpw.
    destruct (C68_ancestors_of g o e.1 Hw) as (X & -> & HX). destruct (C68_ancestors_of g o e.2 Hw) as (Y & -> & HY). cbn [res_bind].
    set (P := X ∪ Y ∖ {[e.1; e.2]}).
    assert (¬ rtc (edge (g_dir g)) e.2 e.1) as Hnr.
    { destruct e as [i j]. cbn in *. destruct He as [He|He]; [intros Hr; apply (acyclic_rtc _ i j (proj1 Han) He Hr)|]. apply (proj2 Han). by apply spouse_sym. }
    assert (e.1 ≠ e.2) as Hne by (intros E; apply Hnr; rewrite E; apply rtc_refl).
    assert (pset (g_dir g) e.1 e.2 P) as HP.
    { intros x. unfold P. rewrite elem_of_union, elem_of_difference, not_elem_of_union, !not_elem_of_singleton, HX, HY. unfold ancestor. split.
      - intros [Hx|(Hx & ? & ?)]; [|split; [right; by apply tc_rtc|done]]. split; [left; by apply tc_rtc|]. split.
        + intros ->. by apply (proj1 Han e.1).
        + intros ->. apply Hnr. by apply tc_rtc.
      - intros ([Hx|Hx] & H1 & H2); apply rtc_tc in Hx as [?|Hx]; try done; tauto. }
    assert (({[e.1]} : nset) ## P) as Hdj.
    { intros u ->%elem_of_singleton Hu. apply HP in Hu. tauto. }
    destruct (C38_msep_decides h o p {[e.1]} {[e.2]} P Hhw Hdj) as (s & -> & Hs). cbn [res_bind].
    rewrite msepd_reach in Hs; [|by apply gmix_simple|by apply gmix_separate|done].
    assert (s = true ↔ ¬ mreach H P e.1 e.2) as Hs'.
    { rewrite Hs. split; [intros Hx; apply Hx; by apply elem_of_singleton|]. by intros Hx a b ->%elem_of_singleton ->%elem_of_singleton. }
    assert (maximal N (less e) → mag_imap N (less e) H ↔ s = true) as Hiff.
    { intros Hml. rewrite Hs'. unfold less in *. destruct (decide (e ∈ g_dir g)) as [Hd|Hd].
      - apply (less_dir_tests N G H HG Hno (gmix_simple h Hh) (gmix_separate h Hh) Hpw); [by destruct e|done].
      - destruct He as [?|He]; [done|]. by apply (less_bi_tests N G H HG Hno (gmix_simple h Hh) (gmix_separate h Hh) Hpw). }
    destruct s.
    - destruct (drop2_spec e He) as (h' & -> & Hh' & HN & HM). cbn [res_bind]. pose proof Hh' as Hw'. rewrite gok_ag_wf in Hw'.
      destruct (C71_is_maximal h' o flip Hw') as (m & -> & Hm); [rewrite HM; apply (less_mag e)|]. cbn [res_bind]. rewrite HN, HM in Hm.
      destruct m.
      + assert (maximal N (less e)) as Hml by by apply Hm. exists true. split; [|split; [|done]; intros _; split; [done|by apply Hiff]].
        destruct validate; [|done]. destruct (imap_of h' e Hh' HN HM Hml) as (b & -> & Hb). cbn [res_bind].
        destruct b; [done|]. assert (false = true) by (apply Hb; by apply Hiff). done.
      + exists false. split; [done|]. split; [done|]. intros [Hx _]. by apply Hm in Hx.
    - exists false. split; [done|]. split; [done|]. intros [Hx Hy]. by apply Hiff in Hy.
  Qed.

  Local Lemma answer_spec certify r : maximal N G → mag_imap N G H →
    match r with Some e => e ∈ edge_sample g o flip sh ∧ Q e | None => ∀ e, e ∈ edge_sample g o flip sh → ¬ Q e end →
    min_answer N G H certify (verdict certify r).
  Proof using Hg Han HU Hh Hsh p.
    intros Hm Him Hr. pose proof (smaller_Q Hm Him) as HQ. right. destruct r as [e|]; cbn [verdict].
    - destruct Hr as [He HQe]. right. split; [done|]. split; [apply HQ; by exists e|]. exists e.1, e.2. split; [by destruct e, certify|].
      exists (less e). split; [by apply less_one, sample_edge|]. split; [|apply HQe]. split; [apply (less_mag e)|apply HQe].
    - left. split; [done|]. split; [|by destruct certify]. assert (¬ ¬ minimal_in (is_mag N) N G H) as Hnn.
      { intros Hn. apply HQ in Hn as (e & He & HQe). by apply (Hr e). }
      intros G' HG' Hsub Him'. 
      pose proof (sub_dec G') as Hdec.
      destruct Hdec as [?|Hns]; [done|]. exfalso. apply Hnn. intros Hmin. apply Hns. by apply Hmin.
  Qed.

  Local Lemma check_spec :
    (mag_is_imap g h o p flip = Raise RuntimeError ∧ ¬ maximal N G) ∨
    (maximal N G ∧ ∃ b, mag_is_imap g h o p flip = Ok b ∧ (b = true ↔ mag_imap N G H)).
  Proof using Hg Han HU Hh p. apply C73_is_imap; [by apply gok_ag_wf|done|by apply gok_ag_wf|done]. Qed.
End alg.

(** ** C105: [is_minimal_imap] and [is_minimal_imap2] *)

(** The exception is raised exactly on non-maximal graphs.  On maximal graphs
    without undirected edges the answer says whether the graph is an I-map of the
    other one and whether no maximal ancestral graph with fewer edges is, although
    only graphs with one edge less are tried.  A returned edge can be removed. *)
Theorem C105_is_minimal_imap g h o p flip sh certify :
  ag_wf g → ancestral (gmix g) → g_un g = ∅ → ag_wf h → (∀ l, sh l ≡ₚ l) →
  (is_minimal_imap g h o p flip sh certify true = Raise RuntimeError ∧ ¬ maximal (g_nodes g) (gmix g)) ∨
  (maximal (g_nodes g) (gmix g) ∧
   ∃ a, is_minimal_imap g h o p flip sh certify true = Ok a ∧ min_answer (g_nodes g) (gmix g) (gmix h) certify a).
Proof.
  rewrite <-!gok_ag_wf. intros Hg Han HU Hh Hsh. unfold is_minimal_imap.
  destruct (check_spec g o flip Hg Han HU h p Hh) as [[-> Hn]|(Hm & b & -> & Hb)]; [by left|]. right. split; [done|]. cbn [res_bind].
  destruct b; [|eexists; split; [reflexivity|]; left; split; [intros Hx; by apply Hb in Hx|done]].
  destruct (first_edge_spec _ _ _ (test_spec g o flip sh Hg Han HU Hsh h p Hh)) as (r & -> & Hr). cbn [res_bind].
  eexists. split; [reflexivity|]. apply (answer_spec g o flip sh Hg Han HU Hsh h p Hh certify r Hm); [by apply Hb|done].
Qed.
(** Without the check the answer is the same if the graph is an I-map. *)
Theorem C105_unchecked g h o p flip sh certify :
  ag_wf g → ancestral (gmix g) → g_un g = ∅ → ag_wf h → (∀ l, sh l ≡ₚ l) →
  maximal (g_nodes g) (gmix g) → mag_imap (g_nodes g) (gmix g) (gmix h) →
  is_minimal_imap g h o p flip sh certify false = is_minimal_imap g h o p flip sh certify true.
Proof.
  rewrite <-!gok_ag_wf. intros Hg Han HU Hh Hsh Hm Him. unfold is_minimal_imap.
  destruct (check_spec g o flip Hg Han HU h p Hh) as [[-> Hn]|(_ & b & -> & Hb)]; [done|]. cbn [res_bind].
  destruct b; [done|]. apply Hb in Him. done.
Qed.
(** The second test gives the same kind of answer, and never raises the exception
    of [validate]. *)
Theorem C105_is_minimal_imap2 g h o p flip sh certify validate :
  ag_wf g → ancestral (gmix g) → g_un g = ∅ → ag_wf h → (∀ l, sh l ≡ₚ l) →
  (is_minimal_imap2 g h o p flip sh certify true validate = Raise RuntimeError ∧ ¬ maximal (g_nodes g) (gmix g)) ∨
  (maximal (g_nodes g) (gmix g) ∧
   ∃ a, is_minimal_imap2 g h o p flip sh certify true validate = Ok a ∧ min_answer (g_nodes g) (gmix g) (gmix h) certify a).
Proof.
  rewrite <-!gok_ag_wf. intros Hg Han HU Hh Hsh. unfold is_minimal_imap2.
  destruct (check_spec g o flip Hg Han HU h p Hh) as [[-> Hn]|(Hm & b & -> & Hb)]; [by left|]. right. split; [done|]. cbn [res_bind].
  destruct b; [|eexists; split; [reflexivity|]; left; split; [intros Hx; by apply Hb in Hx|done]].
  assert (mag_imap (g_nodes g) (gmix g) (gmix h)) as Him by by apply Hb.
  destruct (first_edge_spec _ _ _ (λ e, test2_spec g o flip sh Hg Han HU Hsh h p Hh validate e Hm Him)) as (r & -> & Hr). cbn [res_bind].
  eexists. split; [reflexivity|]. by apply (answer_spec g o flip sh Hg Han HU Hsh h p Hh certify r Hm).
Qed.
(** The answers agree up to the edge, for any two orders in which the edges are
    tried. *)
Theorem C105_tests_agree g h o o' p p' flip flip' sh sh' validate :
  ag_wf g → ancestral (gmix g) → g_un g = ∅ → ag_wf h → (∀ l, sh l ≡ₚ l) → (∀ l, sh' l ≡ₚ l) →
  is_minimal_imap g h o p flip sh false true = is_minimal_imap2 g h o' p' flip' sh' false true validate.
Proof.
  intros Hg Han HU Hh Hsh Hsh'.
  destruct (C105_is_minimal_imap g h o p flip sh false Hg Han HU Hh Hsh) as [[-> Hn]|(Hm & a & -> & Ha)];
    destruct (C105_is_minimal_imap2 g h o' p' flip' sh' false validate Hg Han HU Hh Hsh') as [[-> Hn']|(Hm' & a' & -> & Ha')]; try done.
  f_equal. destruct Ha as [[A1 ->]|[(A1 & A2 & ->)|(A1 & A2 & i & j & -> & _)]];
    destruct Ha' as [[B1 ->]|[(B1 & B2 & ->)|(B1 & B2 & i' & j' & -> & _)]]; done.
Qed.

(** 1 -> 2 -> 3 with 1 -> 3, against 1 -> 2 -> 3; and 1 <-> 2 with 3 against the
    empty graph. *)
Definition tri_ag : ag := (ag_new ∅ [(1, 2); (2, 3); (1, 3)] [] []).1.
Definition bi_ag : ag := (ag_new {[3]} [] [(1, 2)] []).1.
Definition emp_ag : ag := (ag_new {[1; 2; 3]} [] [] []).1.
Lemma tri_wf : ag_wf tri_ag. Proof. by apply new_gok_wf. Qed.
Lemma bi_wf : ag_wf bi_ag. Proof. by apply new_gok_wf. Qed.
Lemma emp_wf : ag_wf emp_ag. Proof. by apply new_gok_wf. Qed.
Example C105_example :
  ag_wf tri_ag ∧ ancestral (gmix tri_ag) ∧ g_un tri_ag = ∅ ∧ maximal (g_nodes tri_ag) (gmix tri_ag) ∧
  is_minimal_imap tri_ag ch_ag oracle0 popper0 (λ _, false) (λ l, l) true true = Ok (Tuple false (Some (1, 3))) ∧
  is_minimal_imap2 tri_ag ch_ag oracle0 popper0 (λ _, false) reverse true true true = Ok (Tuple false (Some (1, 3))) ∧
  is_minimal_imap tri_ag ch_ag oracle0 popper0 (λ _, false) (λ l, l) false true = Ok (Bare false) ∧
  is_minimal_imap ch_ag ch_ag oracle0 popper0 (λ _, false) (λ l, l) true true = Ok (Tuple true None) ∧
  is_minimal_imap ch_ag tri_ag oracle0 popper0 (λ _, false) (λ l, l) true true = Ok (Tuple false None) ∧
  is_minimal_imap2 bi_ag emp_ag oracle0 popper0 (λ _, true) (λ l, l) true true true = Ok (Tuple false (Some (2, 1))) ∧
  is_minimal_imap nm_ag ch_ag oracle0 popper0 (λ _, false) (λ l, l) true true = Raise RuntimeError.
Proof.
  assert (ancestral (gmix tri_ag)) as Han by (apply ancestralb_spec; [by apply gok_ag_wf, tri_wf|by vm_compute]).
  split; [apply tri_wf|]. split; [done|]. split; [by apply (bool_decide_unpack _); vm_compute|].
  split; [apply is_maximal_maximal; [apply tri_wf|done|by vm_compute]|]. split_and!; by vm_compute.
Qed.

(** With [certify=False] a graph that is not an I-map gets the answer
    [(False, None)], which counts as true. *)
Theorem C105_truth_value_refuted :
  ∃ g h o p flip sh a, ag_wf g ∧ ancestral (gmix g) ∧ g_un g = ∅ ∧ ag_wf h ∧ (∀ l, sh l ≡ₚ l) ∧ maximal (g_nodes g) (gmix g) ∧
    is_minimal_imap g h o p flip sh false true = Ok a ∧ truthy a = true ∧ ¬ mag_imap (g_nodes g) (gmix g) (gmix h).
Proof.
  exists ch_ag, tri_ag, oracle0, popper0, (λ _, false), (λ l, l), (Tuple false None).
  split; [apply ch_wf|]. split; [apply ch_anc|]. split; [by apply (bool_decide_unpack _); vm_compute|]. split; [apply tri_wf|]. split; [done|].
  assert (maximal (g_nodes ch_ag) (gmix ch_ag)) as Hm by (apply is_maximal_maximal; [apply ch_wf|apply ch_anc|by vm_compute]).
  split; [done|]. split; [by vm_compute|]. split; [done|].
  destruct (C73_is_imap ch_ag tri_ag oracle0 popper0 (λ _, false) ch_wf ch_anc tri_wf) as [[_ Hn]|(_ & b & E & Hb)]; [by apply (bool_decide_unpack _); vm_compute|done|].
  intros Him. apply Hb in Him. subst b. by vm_compute in E.
Qed.
(** Undirected edges are never tried: 1 - 2 is reported to be a minimal I-map of
    the graph without edges. *)
Definition ue_ag : ag := (ag_new ∅ [] [] [(1, 2)]).1.
Definition ee_ag : ag := (ag_new {[1; 2]} [] [] []).1.
Lemma ue_wf : ag_wf ue_ag. Proof. by apply new_gok_wf. Qed.
Lemma ee_wf : ag_wf ee_ag. Proof. by apply new_gok_wf. Qed.
Theorem C105_undirected_refuted :
  ∃ g h o p flip sh, ag_wf g ∧ ancestral (gmix g) ∧ ag_wf h ∧ (∀ l, sh l ≡ₚ l) ∧ maximal (g_nodes g) (gmix g) ∧
    is_minimal_imap g h o p flip sh false true = Ok (Bare true) ∧ ¬ minimal_in (is_mag (g_nodes g)) (g_nodes g) (gmix g) (gmix h).
Proof.
  assert (ancestral (gmix ue_ag)) as Han by (apply ancestralb_spec; [by apply gok_ag_wf, ue_wf|by vm_compute]).
  assert (ancestral (gmix ee_ag)) as Han' by (apply ancestralb_spec; [by apply gok_ag_wf, ee_wf|by vm_compute]).
  exists ue_ag, ee_ag, oracle0, popper0, (λ _, false), (λ l, l). split; [apply ue_wf|]. split; [done|]. split; [apply ee_wf|]. split; [done|].
  split; [apply is_maximal_maximal; [apply ue_wf|done|by vm_compute]|]. split; [by vm_compute|]. intros Hmin.
  assert (g_nodes ue_ag = g_nodes ee_ag) as EN by (by apply (bool_decide_unpack _); vm_compute).
  destruct (Hmin (gmix ee_ag)) as (_ & _ & Hn).
  - split; [done|]. rewrite EN. apply is_maximal_maximal; [apply ee_wf|done|by vm_compute].
  - assert (mx_dir (gmix ee_ag) = ∅ ∧ mx_bi (gmix ee_ag) = ∅ ∧ mx_un (gmix ee_ag) = ∅) as (E1 & E2 & E3) by (split_and!; by apply (bool_decide_unpack _); vm_compute).
    unfold sub_mixed, spouse, neighbor. rewrite E1, E2, E3. clear. set_solver.
  - intros A B C _ _ _ Hs. done.
  - assert (neighbor (gmix ue_ag) 1 2) as H by (left; by apply (bool_decide_unpack _); vm_compute). apply Hn in H.
    assert (¬ neighbor (gmix ee_ag) 1 2) as Hno by (by apply (bool_decide_unpack _); vm_compute). done.
Qed.

Print Assumptions C105_is_minimal_imap.
Print Assumptions C105_unchecked.
Print Assumptions C105_is_minimal_imap2.
Print Assumptions C105_tests_agree.
Print Assumptions C105_truth_value_refuted.
Print Assumptions C105_undirected_refuted.
