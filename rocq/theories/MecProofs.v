(** [cpdag], [cpdag_new], [interventional_cpdag] and [markov_equivalent]. *)
From Verif Require Import Py Spec SpecDsep SpecMec DagModel DsepModel UGraphModel PdagModel TopoProofs StateProofs ReachProofs OrderProofs QueryProofs UGraphProofs MarkovProofs ImapProofs PdagProofs ProtProofs CpdagProofs EquivProofs MeekProofs.

(** The arcs that are known at the start: those of a v-structure and those cut
    by an intervention. *)
Definition known_spec (E : arcset) (Is : list nset) (K0 : arcset) : Prop :=
  ∀ p q, (p, q) ∈ K0 ↔ (p, q) ∈ E ∧ ((∃ r, vstruct E p q r) ∨ ∃ I, I ∈ Is ∧ cut I p q).

Lemma cut_sym I p q : cut I p q → cut I q p.
Proof. unfold cut. tauto. Qed.

Section known.
  Context (E : arcset) (Is : list nset) (K0 : arcset) (Hac : acyclic E) (HK0 : known_spec E Is K0).

  Lemma known_sub : K0 ⊆ E.
  Proof. intros [p q]. rewrite (HK0 p q). tauto. Qed.
  Lemma known_vs : vs_known E K0.
  Proof. intros x z y Hv. apply HK0. split; [by apply Hv|]. left. by exists y. Qed.

  Lemma known_closed K : (∀ i j, (i, j) ∈ K ↔ prot E K0 i j) →
    ∀ p q v, (p, q) ∈ K0 → und E K q v → und E K p v → False.
  Proof.
    intros HK p q v Hpq Hqv Hpv. pose proof known_sub as Hsub. pose proof known_vs as HV.
    apply HK0 in Hpq as [HpqE [(r & Hv)|(I & HI & Hcut)]].
    - pose proof (K_v E K0 K HV HK p q r Hv) as [HpqK HrqK]. destruct Hv as (_ & HrqE & Hpr & Hna).
      assert (∀ a, (a, q) ∈ K → adjacent E a v ∧ (v, a) ∉ K) as Hadj by (intros a Ha; by apply (K_und_adj E K0 K Hac Hsub HV HK a q v)).
      destruct (Hadj r HrqK) as [Hrv HvrK].
      destruct (decide ((r, v) ∈ K)) as [HrvK|HrvK].
      + destruct Hpv as ([Hpv|Hvp] & Hn1 & Hn2).
        * apply Hn1. apply (K_v E K0 K HV HK p v r). split_and!; [done|by apply (K_sub E K0 K Hsub HK)|done|done].
        * apply Hn2. apply (K_a E K0 K HK r); [done..|]. by rewrite adjacent_sym.
      + destruct Hqv as (Hqv & Hn1 & Hn2). destruct Hpv as (Hpv & Hn3 & Hn4).
        assert (¬ ((p, v) ∈ E ∧ (r, v) ∈ E)) as Hnv.
        { intros [H1 H2]. apply Hn3. apply (K_v E K0 K HV HK p v r). done. }
        destruct Hqv as [Hqv|Hvq].
        * apply Hnv. split; [by apply (rule_b_arc E p q v)|by apply (rule_b_arc E r q v)].
        * apply Hn2, HK. apply (prot_d _ _ v q p r); [done|by apply HK|by apply HK|done|done| | |done]; by rewrite adjacent_sym.
    - assert (∀ a b, adjacent E a b → cut I a b → (a, b) ∈ K ∨ (b, a) ∈ K) as Hc.
      { intros a b [Hab|Hab] Hcab; [left|right]; apply HK, prot_known, HK0; (split; [done|]); right; exists I; [done|].
        split; [done|by apply cut_sym]. }
      destruct Hqv as (Hqv & ? & ?), Hpv as (Hpv & ? & ?).
      assert (cut I q v ∨ cut I p v) as [Hcv|Hcv] by (unfold cut in *; destruct (decide (v ∈ I)); tauto);
        apply Hc in Hcv; tauto.
  Qed.
End known.

Lemma equivalent_known E E' Is K0 K0' : i_equivalent Is E E' → known_spec E Is K0 → known_spec E' Is K0' → K0 = K0'.
Proof.
  intros [[Hs Hv] Hc] H1 H2. apply set_eq. intros [p q]. rewrite (H1 p q), (H2 p q). split.
  - intros [Hpq [(r & Hr)|(I & HI & Hcut)]].
    + apply Hv in Hr as Hr'. split; [by apply Hr'|]. left. by exists r.
    + split; [by apply (Hc I)|]. right. by exists I.
  - intros [Hpq [(r & Hr)|(I & HI & Hcut)]].
    + apply Hv in Hr as Hr'. split; [by apply Hr'|]. left. by exists r.
    + split; [by apply (Hc I)|]. right. by exists I.
Qed.

(** A finished PDAG: what [remove_unprotected_orientations] leaves. *)
Record closed_form (N : nset) (E K0 : arcset) (g : pdag) : Prop := ClosedForm {
  cf_shows : shows E g;
  cf_nodes : p_nodes g = N;
  cf_arcs : ∀ i j, (i, j) ∈ p_arcs g ↔ prot E K0 i j
}.

Lemma edges_ext g h : pok g → pok h → (∀ x y, upair x y ∈ p_edges g ↔ upair x y ∈ p_edges h) → p_edges g = p_edges h.
Proof.
  intros Hg Hh H. apply set_eq. intros [x y]. specialize (H x y).
  assert (∀ g, pok g → (x, y) ∈ p_edges g → x < y) as Hlt by (intros g' Hg' H'; by apply (pok_edge g' Hg') in H').
  destruct (Nat.lt_ge_cases x y) as [Hxy|Hxy].
  - unfold upair in H. by rewrite Nat.min_l, Nat.max_r in H by lia.
  - split; intros H'; apply Hlt in H'; [lia|done|lia|done].
Qed.

Lemma closed_form_equiv N N' E E' Is K0 K0' g g' :
  acyclic E → acyclic E' → known_spec E Is K0 → known_spec E' Is K0' →
  closed_form N E K0 g → closed_form N' E' K0' g' →
  pdag_eqb g g' = true ↔ N = N' ∧ i_equivalent Is E E'.
Proof.
  intros Hac Hac' HK HK' [Hg HN HA] [Hg' HN' HA']. unfold pdag_eqb.
  pose proof (known_sub _ _ _ HK) as Hsub. pose proof (known_sub _ _ _ HK') as Hsub'.
  rewrite !andb_true_iff, !bool_decide_eq_true. split.
  - intros [[Hn Ha] He]. split; [congruence|].
    assert (same_skeleton E E') as Hs.
    { assert (∀ E g, shows E g → ∀ x y, adjacent E x y ↔ adjacent (p_arcs g) x y ∨ upair x y ∈ p_edges g) as H.
      { clear. intros E g Hg x y. rewrite (sh_edge E g Hg). pose proof (sh_sub E g Hg) as Hsub. unfold adjacent.
        rewrite !elem_of_difference. destruct (decide ((x, y) ∈ p_arcs g)), (decide ((y, x) ∈ p_arcs g)); set_solver. }
      intros x y. by rewrite (H E g Hg), (H E' g' Hg'), Ha, He. }
    assert (∀ p q, (p, q) ∈ K0 → (p, q) ∈ E') as HKE.
    { intros p q Hpq. apply (sh_sub E' g' Hg'). rewrite <-Ha. apply HA. by apply prot_known. }
    assert (∀ p q, (p, q) ∈ K0' → (p, q) ∈ E) as HKE'.
    { intros p q Hpq. apply (sh_sub E g Hg). rewrite Ha. apply HA'. by apply prot_known. }
    pose proof (known_vs _ _ _ HK) as HV. pose proof (known_vs _ _ _ HK') as HV'.
    assert (∀ x z y, vstruct E x z y → vstruct E y z x) as Hvsym.
    { intros x z y (?&?&?&?). split_and!; [done..|]. by rewrite adjacent_sym. }
    assert (∀ x z y, vstruct E' x z y → vstruct E' y z x) as Hvsym'.
    { intros x z y (?&?&?&?). split_and!; [done..|]. by rewrite adjacent_sym. }
    split; [split; [done|]|].
    + intros x z y. split; intros Hv.
      * split_and!; [by eapply HKE, HV|by eapply HKE, HV, Hvsym|apply Hv|]. rewrite <-(Hs x y). apply Hv.
      * split_and!; [by eapply HKE', HV'|by eapply HKE', HV', Hvsym'|apply Hv|]. rewrite (Hs x y). apply Hv.
    + intros I i j HI Hcut. split; intros Hij.
      * apply HKE, HK. split; [done|]. right. by exists I.
      * apply HKE', HK'. split; [done|]. right. by exists I.
  - intros [Hn Heq]. pose proof (equivalent_known _ _ _ _ _ Heq HK HK') as HKK. subst K0'.
    assert (p_arcs g = p_arcs g') as Ha.
    { apply set_eq. intros [i j]. rewrite HA, HA'. destruct Heq as [Heq _]. split.
      - by apply prot_equiv.
      - apply prot_equiv; [done|done|by apply equivalent_sym|done..]. }
    split; [split; [congruence|done]|].
    apply edges_ext; [apply Hg|apply Hg'|]. intros x y. rewrite (sh_edge _ _ Hg), (sh_edge _ _ Hg'), Ha.
    destruct Heq as [[Hs _] _]. specialize (Hs x y). pose proof (sh_sub _ _ Hg) as H1. pose proof (sh_sub _ _ Hg') as H2.
    rewrite Ha in H1. specialize (Hs). unfold adjacent in *. rewrite !elem_of_difference.
    assert (∀ a b, (a, b) ∈ p_arcs g' → (b, a) ∈ E → False) as H3 by (intros a b Hab Hba; apply (acyclic_asym E a b); [done|by apply H1|done]).
    assert (∀ a b, (a, b) ∈ p_arcs g' → (b, a) ∈ E' → False) as H4 by (intros a b Hab Hba; apply (acyclic_asym E' a b); [done|by apply H2|done]).
    pose proof (H3 x y). pose proof (H3 y x). pose proof (H4 x y). pose proof (H4 y x). clear -Hs H H0 H5 H6. tauto.
Qed.

Section dags.
  Context (d : dag) (Hwf : wf d) (Hac : acyclic (d_arcs d)).

  Lemma vs_known_spec : known_spec (d_arcs d) [] (arcs_in_vstructures d).
  Proof.
    intros p q. rewrite arcs_in_vstructures_spec by done. split.
    - intros [r Hr]. split; [by apply Hr|]. left. by exists r.
    - intros [_ [Hr|(I & HI & _)]]; [done|by apply elem_of_nil in HI].
  Qed.

  Lemma elem_of_cut_arcs Is p q : (p, q) ∈ cut_arcs d Is ↔ (p, q) ∈ d_arcs d ∧ ∃ I, I ∈ Is ∧ cut I p q.
  Proof.
    assert (∀ I : nset, (p, q) ∈ d_arcs d → size (({[p]} ∪ {[q]}) ∩ I) = 1 ↔ cut I p q) as Hsz.
    { intros I Hpq. assert (p ≠ q) as Hne by (intros ->; by apply (acyclic_irr _ q Hac)). unfold cut.
      destruct (decide (p ∈ I)) as [Hp|Hp], (decide (q ∈ I)) as [Hq|Hq].
      - replace (({[p]} ∪ {[q]}) ∩ I) with ({[p]} ∪ {[q]} : nset) by (apply set_eq; intros u; clear -Hp Hq; set_solver).
        rewrite size_union by (clear -Hne; set_solver). rewrite !size_singleton. split; [lia|tauto].
      - replace (({[p]} ∪ {[q]}) ∩ I) with ({[p]} : nset) by (apply set_eq; intros u; clear -Hp Hq; set_solver).
        rewrite size_singleton. tauto.
      - replace (({[p]} ∪ {[q]}) ∩ I) with ({[q]} : nset) by (apply set_eq; intros u; clear -Hp Hq; set_solver).
        rewrite size_singleton. tauto.
      - replace (({[p]} ∪ {[q]}) ∩ I) with (∅ : nset) by (apply set_eq; intros u; clear -Hp Hq; set_solver).
        rewrite size_empty. split; [lia|tauto]. }
    unfold cut_arcs. induction Is as [|I Is IH]; cbn.
    - split; [intros H; clear -H; set_solver|]. intros (_ & I & HI & _). by apply elem_of_nil in HI.
    - rewrite elem_of_union, elem_of_filter, IH. cbn. setoid_rewrite elem_of_cons. split.
      + intros [[H1 H2]|[H1 (J & HJ & Hc)]]; (split; [done|]); [exists I; split; [by left|by apply Hsz]|exists J; auto].
      + intros [H1 (J & [->|HJ] & Hc)]; [left; split; [by apply Hsz|done]|right; split; [done|by exists J]].
  Qed.

  Lemma icut_known_spec Is : known_spec (d_arcs d) Is (cut_arcs d Is ∪ arcs_in_vstructures d).
  Proof.
    intros p q. rewrite elem_of_union, elem_of_cut_arcs, arcs_in_vstructures_spec by done. split.
    - intros [[H1 H2]|[r Hr]]; [split; [done|by right]|]. split; [by apply Hr|]. left. by exists r.
    - intros [H1 [H2|H2]]; [by right|by left].
  Qed.

  Lemma no_edges_irr : ∀ x : node, (x, x) ∉ (∅ : arcset).
  Proof. intros x. apply not_elem_of_empty. Qed.

  Lemma rup_closed_form o Is K0 : known_spec (d_arcs d) Is K0 →
    ∃ g, returned (remove_unprotected_orientations o (pdag_make o (d_nodes d) (d_arcs d) ∅ K0)) = Ok g ∧
      closed_form (d_nodes d) (d_arcs d) K0 g ∧ p_known g = K0.
  Proof.
    intros HK. destruct (pdag_make_ok o (d_nodes d) (d_arcs d) ∅ K0) as (H1 & H2 & H3 & H4 & H5 & _).
    { intros x y. by apply acyclic_asym. } { apply no_edges_irr. } { intros x y H. by apply not_elem_of_empty in H. }
    set (g0 := pdag_make o (d_nodes d) (d_arcs d) ∅ K0) in *.
    assert (p_edges g0 = ∅) as He.
    { apply set_eq. intros [x y]. rewrite elem_of_empty. split; [|done]. intros H.
      assert (upair x y ∈ p_edges g0) as H'. { pose proof (pok_edge _ H1 _ H) as Hlt. cbn in Hlt. unfold upair. by rewrite Nat.min_l, Nat.max_r by lia. }
      apply H4 in H'. unfold adjacent in H'. clear -H'. set_solver. }
    destruct (rup_spec (d_arcs d) K0 Hac (known_sub _ _ _ HK) (known_vs _ _ _ HK) o g0) as (g & -> & G1 & G2 & G3 & G4); [done..|].
    exists g. split; [done|]. split; [|congruence]. split; [done| |done]. rewrite G2. apply H5; [apply Hwf|].
    intros x y H. by apply not_elem_of_empty in H.
  Qed.

  Lemma cpdag_spec o : ∃ c, cpdag d o = Ok c ∧ closed_form (d_nodes d) (d_arcs d) (arcs_in_vstructures d) c ∧
    p_known c = arcs_in_vstructures d.
  Proof. apply (rup_closed_form o []), vs_known_spec. Qed.

  Lemma interventional_cpdag_spec o o' Is c : cpdag d o' = Ok c →
    ∃ g, interventional_cpdag d o Is c = Ok g ∧ closed_form (d_nodes d) (d_arcs d) (cut_arcs d Is ∪ arcs_in_vstructures d) g.
  Proof.
    intros Hc. destruct (cpdag_spec o') as (c' & Hc' & _ & Hk). rewrite Hc in Hc'. injection Hc' as <-.
    unfold interventional_cpdag. rewrite Hk. destruct (rup_closed_form o Is _ (icut_known_spec Is)) as (g & -> & Hg & _). by exists g.
  Qed.

  Lemma cpdag_new_spec o : ∃ c, cpdag_new d o false = Ok c ∧ closed_form (d_nodes d) (d_arcs d) (arcs_in_vstructures d) c.
  Proof.
    unfold cpdag_new. pose proof vs_known_spec as HK. set (vs := arcs_in_vstructures d) in *. pose proof (known_sub _ _ _ HK) as Hsub.
    destruct (pdag_make_ok o (d_nodes d) vs (d_arcs d ∖ vs) ∅) as (H1 & H2 & H3 & H4 & H5 & _).
    { intros x y Hxy Hyx. apply (acyclic_asym (d_arcs d) x y); [done|by apply Hsub..]. }
    { intros x. rewrite elem_of_difference. intros [H _]. by apply (acyclic_irr _ x Hac). }
    { intros x y. rewrite elem_of_difference. intros [Hxy Hn] [?|Hyx]; [done|]. apply Hsub in Hyx. by apply (acyclic_asym (d_arcs d) x y). }
    set (g0 := pdag_make o (d_nodes d) vs (d_arcs d ∖ vs) ∅) in *.
    destruct (complete_spec (d_arcs d) vs Hac Hsub (known_vs _ _ _ HK) o g0) as (g & -> & G1 & G2 & G3 & G4); [done..|].
    exists g. split; [done|]. split; [done| |done]. rewrite G2. apply H5.
    - intros x y Hxy. by apply (wf_over _ Hwf), Hsub.
    - intros x y Hxy. apply (wf_over _ Hwf). clear -Hxy. set_solver.
  Qed.
End dags.

Section two.
  Context (d1 d2 : dag) (Hwf1 : wf d1) (Hac1 : acyclic (d_arcs d1)) (Hwf2 : wf d2) (Hac2 : acyclic (d_arcs d2)).

  Lemma equivalent_nil E E' : i_equivalent [] E E' ↔ equivalent E E'.
  Proof. split; [by intros [? _]|]. intros H. split; [done|]. intros I i j HI. by apply elem_of_nil in HI. Qed.

  Lemma markov_equivalent_spec o o' Is :
    ∃ b, markov_equivalent d1 d2 o o' Is = Ok b ∧
      (b = true ↔ d_nodes d1 = d_nodes d2 ∧ i_equivalent (default [] Is) (d_arcs d1) (d_arcs d2)).
  Proof.
    destruct (cpdag_spec d1 Hwf1 Hac1 o) as (c1 & Hc1 & F1 & _). destruct (cpdag_spec d2 Hwf2 Hac2 o') as (c2 & Hc2 & F2 & _).
    unfold markov_equivalent. destruct Is as [Is|]; rewrite Hc1, Hc2; cbn [res_bind default].
    - destruct (interventional_cpdag_spec d1 Hwf1 Hac1 o o Is c1 Hc1) as (g1 & -> & G1).
      destruct (interventional_cpdag_spec d2 Hwf2 Hac2 o' o' Is c2 Hc2) as (g2 & -> & G2). cbn [res_bind].
      eexists. split; [done|]. eapply closed_form_equiv; [done|done|by apply icut_known_spec|by apply icut_known_spec|done|done].
    - eexists. split; [done|]. eapply closed_form_equiv; [done|done|by apply vs_known_spec|by apply vs_known_spec|done|done].
  Qed.
End two.
