(** [PDAG.interventional_cpdag] and [assign_parents] complete the essential graph. *)
From Verif Require Import Py Spec SpecDsep SpecMec SpecIntervene DagModel DsepModel UGraphModel PdagModel EnumModel PdagMutModel TopoProofs StateProofs ReachProofs
  OrderProofs QueryProofs UGraphProofs MarkovProofs ImapProofs PdagProofs ProtProofs CpdagProofs EquivProofs MeekProofs MecProofs ShdProofs InterveneProofs ToDagProofs PdagMutProofs.

(** [g] shows the orientations that the interventions [Is] determine. *)
Record ess (d : dag) (Is : list nset) (g : pdag) : Prop := Ess {
  es_shows : shows (d_arcs d) g;
  es_nodes : p_nodes g = d_nodes d;
  es_arcs : ∀ i j, (i, j) ∈ p_arcs g ↔ determined Is (d_arcs d) i j
}.

Lemma prot_idem (E X K : arcset) (i j : node) : (∀ p q, (p, q) ∈ X → prot E K p q) → prot E X i j → prot E K i j.
Proof.
  intros HX. induction 1 as [p q H|k p q HE Hkp IH Hn|p k q HE Hpk IH1 Hkq IH2|p q k1 k2 HE H1 IH1 H2 IH2 Hne Hn Ha1 Ha2 Hnv].
  - by apply HX. - by apply (prot_a _ _ k). - by apply (prot_b _ _ p k q). - by apply (prot_d _ _ p q k1 k2).
Qed.
Lemma determined_mono (Is Js : list nset) (E : arcset) (i j : node) : (∀ I, I ∈ Is → I ∈ Js) → determined Is E i j → determined Js E i j.
Proof. intros H [H1 H2]. split; [done|]. intros E' HE [H3 H4]. apply H2; [done|]. split; [done|]. intros I a b HI. by apply H4, H. Qed.

Section ess.
  Context (d : dag) (Hwf : wf d) (Hac : acyclic (d_arcs d)).

  Lemma icp_exists Is : ∃ h, icp d Is h.
  Proof.
    destruct (icp_cpdag d Hwf Hac oracle0) as (c & _ & Hc). destruct (icp_step d Hwf Hac oracle0 [] Is c Hc) as (h & _ & Hh).
    rewrite app_nil_r in Hh. by exists h.
  Qed.
  Lemma icp_ess Is c : icp d Is c → ess d Is c.
  Proof. intros Hc. constructor; [by eapply icp_shows|by eapply icp_nodes|]. intros i j. by apply icp_determined. Qed.
  Lemma ess_eqb Is g h : ess d Is g → ess d Is h → pdag_eqb g h = true.
  Proof.
    intros [G1 G2 G3] [H1 H2 H3]. assert (p_arcs g = p_arcs h) as HA by (apply set_eq; intros [i j]; by rewrite G3, H3).
    unfold pdag_eqb. rewrite !bool_decide_eq_true_2; [done| |done|congruence].
    apply edges_ext; [apply G1|apply H1|]. intros x y. rewrite (sh_edge _ _ G1), (sh_edge _ _ H1). by rewrite HA.
  Qed.

  (** Completing the essential graph after orienting arcs that the interventions [J] cut. *)
  Lemma ess_complete (o : oracle) (Is J : list nset) (g : pdag) (C : arcset) (g0 : pdag) :
    ess d Is g → (∀ i j, (i, j) ∈ C → determined J (d_arcs d) i j) →
    (∀ I i j, I ∈ J → cut I i j → (i, j) ∈ d_arcs d → (i, j) ∈ p_arcs g ∪ C) →
    pok g0 → p_arcs g0 = p_arcs g ∪ C → p_nodes g0 = d_nodes d →
    (∀ x y, upair x y ∈ p_edges g0 ↔ adjacent (d_arcs d ∖ (p_arcs g ∪ C)) x y) →
    ∃ g', to_complete_pdag o g0 = (g', Ok tt) ∧ ess d (J ++ Is) g' ∧ p_known g' = p_known g0.
  Proof.
    intros [G1 G2 G3] HC1 HC2 H1 H2 H3 H4. destruct (icp_exists (J ++ Is)) as (h & Hh). pose proof Hh as [Hhf HhK].
    assert (∀ x z y, vstruct (d_arcs d) x z y → (x, z) ∈ p_arcs g) as Hvs.
    { intros x z y Hv. apply G3. split; [apply Hv|]. intros E' _ [[_ Hv'] _]. by destruct (proj1 (Hv' x z y) Hv). }
    destruct (complete_spec (d_arcs d) (p_arcs g ∪ C) Hac) with (o := o) (g := g0) as (g' & Hg' & K1 & K2 & K3 & K4).
    - intros [x y] [H|H]%elem_of_union; [by apply (sh_sub _ _ G1)|]. by apply HC1 in H as [].
    - intros x z y Hv. apply elem_of_union. left. by eapply Hvs.
    - done.
    - done.
    - done.
    - exists g'. split; [done|]. split; [|done]. constructor; [done|congruence|]. intros i j. rewrite <-(icp_determined d Hwf Hac _ h) by done. rewrite K4, (cf_arcs _ _ _ _ Hhf).
      split; apply prot_idem; intros p q Hpq.
      + rewrite <-(cf_arcs _ _ _ _ Hhf). apply (icp_determined d Hwf Hac _ h p q Hh). apply elem_of_union in Hpq as [Hpq|Hpq].
        * apply G3 in Hpq. eapply determined_mono; [|done]. intros I HI. apply elem_of_app. by right.
        * apply HC1 in Hpq. eapply determined_mono; [|done]. intros I HI. apply elem_of_app. by left.
      + apply prot_known. apply HhK in Hpq as [HE [(r & Hv)|(I & [HI|HI]%elem_of_app & Hcut)]].
        * apply elem_of_union. left. by eapply Hvs.
        * by eapply HC2.
        * apply elem_of_union. left. apply G3. split; [done|]. intros E' _ [_ Hc]. by apply (Hc I).
  Qed.

  Lemma incident_spec n i j : (i, j) ∈ incident_arcs d n ↔ (i, j) ∈ d_arcs d ∧ (i = n ∨ j = n).
  Proof.
    unfold incident_arcs. rewrite elem_of_union, !elem_of_map. split.
    - intros [(c & [= -> ->] & Hc)|(p & [= -> ->] & Hp)]; [apply (wf_chi d Hwf) in Hc|apply (wf_par d Hwf) in Hp]; auto.
    - intros [H [->| ->]]; [left; exists j; split; [done|]; by apply (wf_chi d Hwf)|right; exists i; split; [done|]; by apply (wf_par d Hwf)].
  Qed.
  Lemma incidents_spec (l : list node) (acc : arcset) (i j : node) :
    (i, j) ∈ foldl (λ acc n, incident_arcs d n ∪ acc) acc l ↔ (i, j) ∈ acc ∨ ((i, j) ∈ d_arcs d ∧ (i ∈ l ∨ j ∈ l)).
  Proof.
    revert acc. induction l as [|n l IH]; intros acc; cbn.
    - rewrite !elem_of_nil. tauto.
    - rewrite IH, elem_of_union, incident_spec, !elem_of_cons. tauto.
  Qed.
  Lemma single_cut v i j : (i, j) ∈ d_arcs d → cut {[v]} i j ↔ i = v ∨ j = v.
  Proof.
    intros H. assert (i ≠ j) by (intros ->; by apply (acyclic_irr (d_arcs d) j)). unfold cut. rewrite !elem_of_singleton.
    destruct (decide (i = v)), (decide (j = v)); naive_solver.
  Qed.

  Lemma p_interventional_cpdag_ess o Is g (l : list node) : ess d Is g →
    ∃ g', p_interventional_cpdag g o d l = Ok g' ∧ ess d (singles l ++ Is) g'.
  Proof.
    intros Hg. pose proof Hg as [G1 G2 G3]. unfold p_interventional_cpdag. set (C := foldl _ ∅ l). set (Ce := set_map _ C : arcset).
    pose proof (pok_over g (sh_ok _ _ G1)) as [Ho1 Ho2]. pose proof (sh_sub _ _ G1) as Hsub.
    assert (∀ i j, (i, j) ∈ C ↔ (i, j) ∈ d_arcs d ∧ (i ∈ l ∨ j ∈ l)) as HC.
    { intros i j. unfold C. rewrite incidents_spec, elem_of_empty. tauto. }
    assert (∀ x y, upair x y ∈ Ce ↔ adjacent C x y) as HCe.
    { intros x y. unfold Ce. rewrite elem_of_map. unfold adjacent. split.
      - intros ([a b] & Hab & H). cbn in Hab. apply upair_eq_or in Hab as [[-> ->]|[-> ->]]; auto.
      - intros [H|H]; [by exists (x, y)|]. exists (y, x). cbn. by rewrite upair_comm. }
    assert (∀ x y, (x, y) ∈ p_edges g → (x, y) = upair x y) as Hup.
    { intros x y H. pose proof (pok_edge _ (sh_ok _ _ G1) _ H) as Hlt. cbn in Hlt. unfold upair. by rewrite Nat.min_l, Nat.max_r by lia. }
    assert (∀ x y, adjacent (p_edges g ∖ Ce) x y ↔ upair x y ∈ p_edges g ∧ ¬ adjacent C x y) as Hadj.
    { intros x y. rewrite <-HCe. unfold adjacent. rewrite !elem_of_difference. split.
      - intros [[H1 H2]|[H1 H2]]; pose proof (Hup _ _ H1) as Hu; rewrite Hu in *; [done|]. by rewrite (upair_comm y x) in *.
      - intros [H1 H2]. destruct (Nat.le_ge_cases x y) as [Hxy|Hxy].
        + left. unfold upair in *. by rewrite Nat.min_l, Nat.max_r in * by lia.
        + right. unfold upair in *. by rewrite Nat.min_r, Nat.max_l in * by lia. }
    destruct (pdag_make_ok o (p_nodes g) (p_arcs g ∪ C) (p_edges g ∖ Ce) ∅) as (M1 & M2 & _ & M4 & M5 & _).
    { intros x y H1 H2. assert (∀ x y, (x, y) ∈ p_arcs g ∪ C → (x, y) ∈ d_arcs d) as HE.
      { intros a b [H|H]%elem_of_union; [by apply Hsub|by apply HC in H as []]. }
      by apply (acyclic_asym (d_arcs d) x y Hac); apply HE. }
    { intros x [H _]%elem_of_difference. apply (pok_edge _ (sh_ok _ _ G1)) in H. cbn in H. lia. }
    { intros x y Hxy. assert (adjacent (p_edges g ∖ Ce) x y) as [He Hn]%Hadj by by left.
      apply (shows_edge_adj _ _ _ _ G1) in He as (_ & Hn1 & Hn2). unfold adjacent in *. rewrite !elem_of_union. tauto. }
    destruct (ess_complete o Is (singles l) g C (pdag_make o (p_nodes g) (p_arcs g ∪ C) (p_edges g ∖ Ce) ∅) Hg) as (g' & Hg' & He & _).
    - intros i j Hij. apply HC in Hij as [HE Hl]. split; [done|]. intros E' _ [_ Hcut].
      assert (∃ v, v ∈ l ∧ (i = v ∨ j = v)) as (v & Hv & Hiv) by (destruct Hl as [H|H]; [by exists i; auto|by exists j; auto]).
      apply (Hcut {[v]}); [unfold singles; apply elem_of_list_fmap; by exists v|by apply single_cut|done].
    - intros I i j HI Hcut HE. unfold singles in HI. apply elem_of_list_fmap in HI as (v & -> & Hv). apply single_cut in Hcut; [|done].
      apply elem_of_union. right. apply HC. split; [done|]. destruct Hcut as [->| ->]; auto.
    - done.
    - done.
    - rewrite <-G2. apply M5.
      + intros x y [H|H]%elem_of_union; [by apply Ho1|]. apply HC in H as [H _]. rewrite G2. by apply (wf_over d Hwf).
      + by apply over_del.
    - intros x y. rewrite M4, Hadj, (sh_edge _ _ G1). unfold adjacent. rewrite !elem_of_difference, !elem_of_union.
      assert ((x, y) ∈ C → (x, y) ∈ d_arcs d) by (intros H; by apply HC in H as []). assert ((y, x) ∈ C → (y, x) ∈ d_arcs d) by (intros H'; by apply HC in H' as []).
      pose proof (acyclic_asym (d_arcs d) x y Hac). pose proof (acyclic_asym (d_arcs d) y x Hac). tauto.
    - exists g'. unfold returned. by rewrite Hg'.
  Qed.

  (** Orienting edges the way [d] has them. *)
  Lemma orient_list (l : list arc) g : shows (d_arcs d) g → NoDup l → (∀ a : arc, a ∈ l → a ∈ d_arcs d ∧ upair a.1 a.2 ∈ p_edges g) →
    ∃ g', mfor l replace_edge_with_arc g = (g', Ok tt) ∧ shows (d_arcs d) g' ∧ p_nodes g' = p_nodes g ∧ p_known g' = p_known g ∧
      p_arcs g' = p_arcs g ∪ list_to_set l.
  Proof.
    revert g. induction l as [|[i j] l IH]; intros g Hg Hnd Hl.
    - exists g. split; [done|]. split_and!; [done..|]. cbn. clear. set_solver.
    - apply NoDup_cons in Hnd as [Hnl Hnd]. destruct (Hl (i, j)) as [HE He]; [left|]. cbn in He.
      destruct (replace_edge_with_arc_ok g i j (sh_ok _ _ Hg) He) as (g1 & Hg1 & K1 & K2 & K3 & K4 & K5).
      destruct (IH g1) as (g' & Hg' & L1 & L2 & L3 & L4).
      + constructor; [done| |].
        * rewrite K4. intros a [->%elem_of_singleton|H]%elem_of_union; [done|]. by apply (sh_sub _ _ Hg).
        * intros x y. rewrite K5, K4, elem_of_difference, elem_of_singleton, (sh_edge _ _ Hg), upair_eq_or. unfold adjacent.
          rewrite !elem_of_difference, !elem_of_union, !elem_of_singleton. pose proof (acyclic_asym (d_arcs d) i j Hac HE).
          pose proof (acyclic_asym (d_arcs d) x y Hac). pose proof (acyclic_asym (d_arcs d) y x Hac).
          destruct (decide ((x, y) = (i, j))) as [[= -> ->]|N1]; [naive_solver|]. destruct (decide ((y, x) = (i, j))) as [[= -> ->]|N2]; [naive_solver|].
          assert (¬ (x = i ∧ y = j ∨ x = j ∧ y = i)) by naive_solver. tauto.
      + done.
      + intros [x y] Hxy. destruct (Hl (x, y)) as [HxyE Hxye]; [by right|]. split; [done|]. cbn in *. rewrite K5, elem_of_difference, elem_of_singleton.
        split; [done|]. intros [[-> ->]|[-> ->]]%upair_eq_or; [done|]. by apply (acyclic_asym (d_arcs d) i j).
      + exists g'. split; [cbn [mfor]; unfold mthen, mbind'; by rewrite Hg1|]. split; [done|]. split; [congruence|]. split; [congruence|].
        rewrite L4, K4. cbn. clear. set_solver.
  Qed.
  Lemma mfor_map {A B} (f : A → B) (h : B → M pdag unit) (l : list A) g : mfor l (λ a, h (f a)) g = mfor (f <$> l) h g.
  Proof. revert g. induction l as [|a l IH]; intros g; [done|]. cbn [mfor fmap list_fmap]. unfold mthen, mbind'. destruct (h (f a) g) as [g1 [[]|e]]; [apply IH|done]. Qed.

  Lemma assign_parents_ess o Is g n (P : nset) : ess d Is g →
    (∀ p, p ∈ P ↔ p ∈ p_unbrs g n ∧ (p, n) ∈ d_arcs d) →
    ∃ g', assign_parents o n P g = (g', Ok tt) ∧ ess d ({[n]} :: Is) g' ∧ p_known g' = p_known g.
  Proof.
    intros Hg HP. pose proof Hg as [G1 G2 G3]. unfold assign_parents.
    destruct (orient_list ((λ p, (p, n)) <$> on o [162] P) g G1) as (g1 & Hg1 & A1 & A2 & A3 & A4).
    { apply NoDup_fmap_2; [by intros x y [= ->]|apply NoDup_on]. }
    { intros a (p & -> & Hp)%elem_of_list_fmap. apply elem_of_on, HP in Hp as [H1 H2]. split; [done|]. cbn.
      apply (pok_unb g (sh_ok _ _ G1)) in H1 as [_ H1]. by rewrite upair_comm. }
    destruct (orient_list ((λ c, (n, c)) <$> on o [163] (p_unbrs g1 n ∖ P)) g1 A1) as (g2 & Hg2 & B1 & B2 & B3 & B4).
    { apply NoDup_fmap_2; [by intros x y [= ->]|apply NoDup_on]. }
    { intros a (c & -> & Hc)%elem_of_list_fmap. apply elem_of_on, elem_of_difference in Hc as [H1 H2].
      apply (pok_unb g1 (sh_ok _ _ A1)) in H1 as [Hne H1]. split; [|done]. cbn.
      apply (sh_edge _ _ A1) in H1 as He. unfold adjacent in He. rewrite !elem_of_difference in He. destruct He as [[He _]|[He He']]; [done|].
      exfalso. apply H2, HP. split; [|done]. apply (pok_unb g (sh_ok _ _ G1)). split; [done|]. apply (sh_edge _ _ G1). right.
      apply elem_of_difference. split; [done|]. intros H. apply He'. rewrite A4. apply elem_of_union. by left. }
    set (C := list_to_set ((λ p, (p, n)) <$> on o [162] P) ∪ list_to_set ((λ c, (n, c)) <$> on o [163] (p_unbrs g1 n ∖ P)) : arcset).
    assert (p_arcs g2 = p_arcs g ∪ C) as H2 by (rewrite B4, A4; unfold C; clear; set_solver).
    assert (C ⊆ d_arcs d) as HCE.
    { pose proof (sh_sub _ _ B1) as H. rewrite H2 in H. clear -H. set_solver. }
    assert (∀ i j, (i, j) ∈ C → i = n ∨ j = n) as HCn.
    { intros i j. unfold C. rewrite elem_of_union, !elem_of_list_to_set, !elem_of_list_fmap. naive_solver. }
    destruct (ess_complete o Is [{[n]}] g C g2 Hg) as (g' & Hg' & He & Hk).
    - intros i j Hij. split; [by apply HCE|]. intros E' _ [_ Hcut].
      apply (Hcut {[n]}); [left|by apply single_cut; [apply HCE|apply HCn]|by apply HCE].
    - intros I i j HI Hcut HE. apply elem_of_list_singleton in HI as ->. apply single_cut in Hcut; [|done].
      rewrite <-H2. destruct (decide ((i, j) ∈ p_arcs g2)) as [|Hn]; [done|exfalso].
      assert (i ≠ j) by (intros ->; by apply (acyclic_irr (d_arcs d) j)).
      assert (upair i j ∈ p_edges g2) as He2 by (apply (sh_edge _ _ B1); left; by apply elem_of_difference).
      assert (upair i j ∈ p_edges g1) as He1.
      { apply (sh_edge _ _ B1) in He2. apply (sh_edge _ _ A1). unfold adjacent in *. rewrite !elem_of_difference in *. rewrite B4, !elem_of_union in He2. tauto. }
      assert (upair i j ∈ p_edges g) as He0.
      { apply (sh_edge _ _ A1) in He1. apply (sh_edge _ _ G1). unfold adjacent in *. rewrite !elem_of_difference in *. rewrite A4, !elem_of_union in He1. tauto. }
      destruct Hcut as [->| ->].
      + apply Hn. rewrite B4. apply elem_of_union. right. apply elem_of_list_to_set, elem_of_list_fmap. exists j. split; [done|].
        apply elem_of_on, elem_of_difference. split; [by apply (pok_unb g1 (sh_ok _ _ A1))|]. intros [_ H']%HP. by apply (acyclic_asym (d_arcs d) n j).
      + apply Hn. rewrite B4, A4. apply elem_of_union. left. apply elem_of_union. right. apply elem_of_list_to_set, elem_of_list_fmap.
        exists i. split; [done|]. apply elem_of_on, HP. split; [|done]. apply (pok_unb g (sh_ok _ _ G1)). by rewrite upair_comm.
    - apply B1.
    - done.
    - congruence.
    - intros x y. rewrite (sh_edge _ _ B1). by rewrite H2.
    - exists g'. split; [|split; [done|congruence]].
      unfold mthen at 1, mbind' at 1. rewrite (mfor_map (λ p, (p, n)) replace_edge_with_arc), Hg1.
      unfold mthen at 1, mbind' at 1. rewrite (mfor_map (λ c, (n, c)) replace_edge_with_arc), Hg2. exact Hg'.
  Qed.
End ess.

(** A node that is no undirected neighbour cannot be assigned as a parent. *)
Lemma assign_parents_error o g n (P : nset) p : pok g → p ∈ P → p ∉ p_unbrs g n →
  ∃ g', assign_parents o n P g = (g', Raise KeyError) ∧ pok g'.
Proof.
  intros Hg Hp Hn. unfold assign_parents.
  assert (∀ (l : list node) g, pok g → p ∈ l → p ∉ p_unbrs g n → ∃ g', mfor l (λ p, replace_edge_with_arc (p, n)) g = (g', Raise KeyError) ∧ pok g') as Hl.
  { clear. induction l as [|q l IH]; intros g Hg Hl Hn; [by apply elem_of_nil in Hl|]. cbn [mfor]. unfold mthen, mbind'.
    destruct (decide (upair q n ∈ p_edges g)) as [He|He].
    - destruct (replace_edge_with_arc_ok g q n Hg He) as (g1 & -> & K1 & K2 & K3 & K4 & K5).
      assert (p ∉ p_unbrs g1 n) as Hn1.
      { rewrite (pok_unb g1 K1), K5, elem_of_difference. intros (H1 & H2 & _). by apply Hn, (pok_unb g Hg). }
      apply elem_of_cons in Hl as [->|Hl]; [|by apply IH]. exfalso. apply Hn, (pok_unb g Hg). rewrite upair_comm. split; [|done].
      intros ->. by apply (upair_edge_ne g q q Hg).
    - rewrite replace_edge_none by done. by exists g. }
  destruct (Hl (on o [162] P) g Hg) as (g' & Hr & Hg'); [by apply elem_of_on|done|]. exists g'. unfold mthen at 1, mbind' at 1. by rewrite Hr.
Qed.
