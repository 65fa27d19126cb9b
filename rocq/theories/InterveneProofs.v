(** Which orientations are fixed by interventions; intervention design. *)
From Verif Require Import Py Spec SpecDsep SpecMec SpecIntervene DagModel DsepModel UGraphModel PdagModel CompareModel InterveneModel TopoProofs StateProofs ReachProofs
  OrderProofs QueryProofs UGraphProofs MarkovProofs ImapProofs PdagProofs ProtProofs CpdagProofs EquivProofs MeekProofs MecProofs ShdProofs CompareProofs.

(** [c] is the essential graph of [d] under the interventions [Is], as produced
    by [cpdag] and [interventional_cpdag]. *)
Definition icp (d : dag) (Is : list nset) (c : pdag) : Prop :=
  closed_form (d_nodes d) (d_arcs d) (p_known c) c ∧ known_spec (d_arcs d) Is (p_known c).

Section icp.
  Context (d : dag) (Hwf : wf d) (Hac : acyclic (d_arcs d)).

  Lemma icp_cpdag o : ∃ c, cpdag d o = Ok c ∧ icp d [] c.
  Proof.
    destruct (cpdag_spec d Hwf Hac o) as (c & Hc & Hcf & Hk). exists c. split; [done|]. unfold icp. rewrite Hk. split; [done|]. by apply vs_known_spec.
  Qed.

  Lemma icp_step o Is J c : icp d Is c → ∃ g, interventional_cpdag d o J c = Ok g ∧ icp d (J ++ Is) g.
  Proof.
    intros [Hcf HK]. assert (known_spec (d_arcs d) (J ++ Is) (cut_arcs d J ∪ p_known c)) as HK'.
    { intros p q. rewrite elem_of_union, elem_of_cut_arcs, (HK p q) by done. setoid_rewrite elem_of_app. naive_solver. }
    destruct (rup_closed_form d Hwf Hac o (J ++ Is) _ HK') as (g & Hg & Hgf & Hgk). exists g. split; [exact Hg|]. split; by rewrite Hgk.
  Qed.

  Lemma icp_determined Is c i j : icp d Is c → (i, j) ∈ p_arcs c ↔ determined Is (d_arcs d) i j.
  Proof.
    intros [Hcf HK]. pose proof (known_sub _ _ _ HK) as Hsub. split.
    - intros Hij. pose proof (sh_sub _ _ (cf_shows _ _ _ _ Hcf) _ Hij) as HijE. apply (cf_arcs _ _ _ _ Hcf) in Hij. split; [done|].
      intros E' Hac' [[Hs Hv] HcE].
      assert (p_known c ⊆ E') as HKE.
      { intros [x z] Hxz. apply HK in Hxz as [HxzE [(y & Hy)|(I & HI & Hxz)]]; [by apply Hv in Hy as []|]. by apply (HcE I). }
      apply (prot_sub E' (p_known c) i j HKE). by apply (prot_equiv (d_arcs d) E' (p_known c)).
    - intros [HijE Hdet]. destruct (decide ((i, j) ∈ p_arcs c)) as [|Hn]; [done|]. exfalso.
      destruct (meek_complete (d_nodes d) (d_arcs d) (p_known c) (p_arcs c) i j Hac) as (E' & H1 & H2 & H3 & H4);
        [apply Hwf|done|by apply (known_vs _ _ _ HK)|apply (cf_arcs _ _ _ _ Hcf)| |done|done|].
      + by apply (known_closed _ _ _ Hac HK), (cf_arcs _ _ _ _ Hcf).
      + apply (acyclic_asym E' j i H1 H4). apply Hdet; [done|]. split; [done|].
        assert (∀ I x y, I ∈ Is → cut I x y → (x, y) ∈ d_arcs d → (x, y) ∈ E') as Hcut.
        { intros I x y HI Hxy HxyE. apply H3, (cf_arcs _ _ _ _ Hcf), prot_known, HK. split; [done|]. right. by exists I. }
        intros I x y HI Hxy. split; [by apply (Hcut I)|]. intros HxyE'.
        assert (adjacent (d_arcs d) x y) as [?|Hyx] by (apply H2; by left); [done|]. exfalso.
        apply (acyclic_asym E' x y H1 HxyE'). apply (Hcut I); [done|by apply cut_sym|done].
  Qed.

  Lemma icp_shows Is c : icp d Is c → shows (d_arcs d) c.
  Proof. intros [H _]. apply H. Qed.
  Lemma icp_nodes Is c : icp d Is c → p_nodes c = d_nodes d.
  Proof. intros [H _]. apply H. Qed.
  Lemma icp_sub Is c : icp d Is c → p_arcs c ⊆ d_arcs d.
  Proof. intros H. apply (sh_sub _ _ (icp_shows _ _ H)). Qed.
  Lemma icp_union Is J c x y : icp d Is c → icp d J x → icp d (J ++ Is) y → p_arcs y = p_arcs c ∪ p_arcs x.
  Proof.
    intros Hc Hx Hy. apply set_eq. intros [i j]. rewrite elem_of_union.
    assert (∀ Is Js g h i j, icp d Is g → icp d Js h → Is ⊆ Js → (i, j) ∈ p_arcs g → (i, j) ∈ p_arcs h) as Hmono.
    { clear -Hwf Hac. intros Is Js g h i j Hg Hh Hsub. rewrite (icp_determined Is g), (icp_determined Js h) by done. intros [HE H].
      split; [done|]. intros E' H1 [H2 H3]. apply H; [done|]. split; [done|]. intros I a b HI. apply H3. by apply Hsub. }
    split; [|intros [H|H]; (eapply (Hmono _ (J ++ Is)); [..|exact H]; try done; clear; set_solver)].
    pose proof Hc as [Hcf HKc]. pose proof Hx as [Hxf HKx]. pose proof Hy as [Hyf HKy].
    assert (∀ Is g p q v, icp d Is g → (p, q) ∈ p_arcs g → und (d_arcs d) (p_arcs g) q v → (p, v) ∈ p_arcs g) as Hund.
    { clear -Hac. intros Is g p q v [Hg HK]. apply (K_und (d_arcs d) (p_known g) (p_arcs g)); try done.
      - by apply (known_sub _ _ _ HK). - by apply (known_vs _ _ _ HK). - apply (cf_arcs _ _ _ _ Hg).
      - by apply (known_closed _ _ _ Hac HK), (cf_arcs _ _ _ _ Hg). }
    assert (∀ Is g p q v, icp d Is g → (p, q) ∈ p_arcs g → (q, v) ∈ d_arcs d → (p, v) ∈ d_arcs d → (p, v) ∈ p_arcs g) as Htri.
    { intros Is' g p q v Hg Hpq Hqv Hpv. destruct (decide ((q, v) ∈ p_arcs g)) as [Hk|Hk].
      - pose proof Hg as [Hgf _]. rewrite (cf_arcs _ _ _ _ Hgf) in *. by apply (prot_b _ _ p q v).
      - apply (Hund Is' g p q v Hg Hpq). split_and!; [by left|done|]. intros Hvq. apply (icp_sub _ _ Hg) in Hvq. by apply (acyclic_asym (d_arcs d) q v). }
    rewrite (cf_arcs _ _ _ _ Hyf). intros Hp.
    assert (∀ p q, prot (d_arcs d) (p_known y) p q → (p, q) ∈ d_arcs d) as HyE by (intros p q; apply prot_sub, (known_sub _ _ _ HKy)).
    induction Hp as [p q H|k p q HpqE Hkp IH Hn|p k q HpqE Hpk IH1 Hkq IH2|p q k1 k2 HpqE H1 IH1 H2 IH2 Hne Hn Ha1 Ha2 Hnv].
    - apply HKy in H as [HE [Hv|(I & HI & Hcut)]].
      + left. apply (cf_arcs _ _ _ _ Hcf), prot_known, HKc. split; [done|by left].
      + apply elem_of_app in HI as [HI|HI].
        * right. apply (cf_arcs _ _ _ _ Hxf), prot_known, HKx. split; [done|]. right. by exists I.
        * left. apply (cf_arcs _ _ _ _ Hcf), prot_known, HKc. split; [done|]. right. by exists I.
    - destruct IH as [IH|IH]; [left; rewrite (cf_arcs _ _ _ _ Hcf) in *|right; rewrite (cf_arcs _ _ _ _ Hxf) in *]; by apply (prot_a _ _ k).
    - apply HyE in Hkq. destruct IH1 as [IH|IH]; [left; by apply (Htri _ _ p k q Hc)|right; by apply (Htri _ _ p k q Hx)].
    - apply HyE in H1. apply HyE in H2. left. apply (cf_arcs _ _ _ _ Hcf).
      assert (vstruct (d_arcs d) k1 q k2) as Hv by by split_and!.
      apply (prot_d _ _ p q k1 k2); try done; apply prot_known, HKc; (split; [done|left]); [by exists k2|].
      exists k1. split_and!; [done|done|done|by rewrite adjacent_sym].
  Qed.

  (** What is left to orient. *)
  Lemma icp_edges Is c : icp d Is c → size (p_edges c) + size (p_arcs c) = size (d_arcs d).
  Proof.
    intros H. pose proof (icp_shows _ _ H) as Hs. pose proof (icp_sub _ _ H) as Hsub.
    assert (p_edges c = as_edges (d_arcs d ∖ p_arcs c)) as ->.
    { apply set_eq. intros e. split.
      - intros He. pose proof (pok_edge _ (sh_ok _ _ Hs) _ He) as Hlt. destruct e as [x y]. cbn in Hlt.
        assert ((x, y) = upair x y) as Hxy by (unfold upair; by rewrite Nat.min_l, Nat.max_r by lia).
        rewrite Hxy in *. apply upair_as_edges. by apply (sh_edge _ _ Hs).
      - intros ([x y] & Hxy & ->)%elem_of_as_edges. cbn. apply (sh_edge _ _ Hs). by left. }
    assert (size (d_arcs d ∖ p_arcs c) = size (as_edges (d_arcs d ∖ p_arcs c))) as <-.
    { apply (size_inj (λ a : arc, upair a.1 a.2)).
      - intros [x y] [u v] H1 H2 Heq. cbn in Heq. apply upair_inj in Heq as [[-> ->]|[-> ->]]; [done|]. exfalso.
        apply elem_of_difference in H1 as [H1 _]. apply elem_of_difference in H2 as [H2 _]. by apply (acyclic_asym (d_arcs d) v u).
      - intros e. rewrite elem_of_as_edges. naive_solver. }
    rewrite <-size_union_arcs by (clear; set_solver). f_equal. apply set_eq. intros a. rewrite elem_of_union, elem_of_difference.
    destruct (decide (a ∈ p_arcs c)) as [Ha|Ha]; [specialize (Hsub _ Ha)|]; tauto.
  Qed.
  Lemma icp_done Is c : icp d Is c → p_edges c = ∅ ↔ p_arcs c = d_arcs d.
  Proof.
    intros H. pose proof (icp_edges _ _ H) as Hsz. pose proof (icp_sub _ _ H) as Hsub. split; intros Heq.
    - rewrite Heq, size_empty in Hsz. apply set_eq. intros a. split; [apply Hsub|]. intros Ha. destruct (decide (a ∈ p_arcs c)) as [|Hn]; [done|].
      pose proof (size_remove_arc _ _ Ha) as Hr. assert (p_arcs c ⊆ d_arcs d ∖ {[a]}) as Hs by (clear -Hsub Hn; set_solver). apply subseteq_size in Hs. lia.
    - rewrite Heq in Hsz. apply leibniz_equiv, size_empty_inv. lia.
  Qed.

  Lemma icp_ext Is Js c : icp d Is c → (∀ I, I ∈ Is ↔ I ∈ Js) → icp d Js c.
  Proof. intros [H1 H2] H. split; [done|]. intros p q. rewrite (H2 p q). by setoid_rewrite H. Qed.
  Lemma icp_exists Is : ∃ c, icp d Is c.
  Proof.
    destruct (icp_cpdag oracle0) as (c & _ & Hc). destruct (icp_step oracle0 [] Is c Hc) as (g & _ & Hg). exists g.
    by rewrite app_nil_r in Hg.
  Qed.
  Lemma icp_mono Is Js c g : icp d Is c → icp d Js g → (∀ i j I, (i, j) ∈ d_arcs d → I ∈ Is → cut I i j → (i, j) ∈ p_arcs g) → p_arcs c ⊆ p_arcs g.
  Proof.
    intros Hc Hg H [i j]. rewrite (icp_determined Is c), (icp_determined Js g) by done. intros [HE Hd]. split; [done|]. intros E' Hac' Heq.
    apply Hd; [done|]. pose proof Heq as [Heq' _]. split; [done|].
    assert (∀ I x y, I ∈ Is → cut I x y → (x, y) ∈ d_arcs d → (x, y) ∈ E') as Hcut.
    { intros I x y HI Hxy HxyE. specialize (H x y I HxyE HI Hxy). rewrite (icp_determined Js g) in H by done. by apply H. }
    intros I x y HI Hxy. split; [by apply (Hcut I)|]. intros HxyE'.
    assert (adjacent (d_arcs d) x y) as [?|Hyx] by (apply Heq'; by left); [done|]. exfalso.
    apply (acyclic_asym E' x y Hac' HxyE'). apply (Hcut I); [done|by apply cut_sym|done].
  Qed.
  Lemma icp_unique Is c g : icp d Is c → icp d Is g → p_arcs c = p_arcs g.
  Proof. intros Hc Hg. apply set_eq. intros [i j]. by rewrite (icp_determined Is c), (icp_determined Is g). Qed.

  (** Interventions that cut nothing new. *)
  Lemma icp_unbrs Is c x y : icp d Is c → y ∈ p_unbrs c x ↔ (adjacent (d_arcs d) x y ∧ (x, y) ∉ p_arcs c ∧ (y, x) ∉ p_arcs c).
  Proof.
    intros H. pose proof (icp_shows _ _ H) as Hs. rewrite (pok_unb _ (sh_ok _ _ Hs)), (sh_edge _ _ Hs). unfold adjacent. rewrite !elem_of_difference.
    pose proof (acyclic_irr _ x Hac). pose proof (acyclic_asym (d_arcs d) x y Hac). pose proof (acyclic_asym (d_arcs d) y x Hac).
    pose proof (icp_sub _ _ H (x, y)). pose proof (icp_sub _ _ H (y, x)).
    assert (x = y → (x, y) ∉ d_arcs d ∧ (y, x) ∉ d_arcs d) by (intros ->; done). destruct (decide (x = y)); tauto.
  Qed.
  Lemma cut_single v i j : cut {[v]} i j ↔ (i = v ∧ j ≠ v) ∨ (i ≠ v ∧ j = v).
  Proof. unfold cut. by rewrite !elem_of_singleton. Qed.
  Lemma icp_arc_at Is c v i j : icp d Is c → (i, j) ∈ d_arcs d → cut {[v]} i j → (i, j) ∈ p_arcs c ∨ ∃ w, w ∈ p_unbrs c v ∧ ((i = v ∧ j = w) ∨ (i = w ∧ j = v)).
  Proof.
    intros H HE Hcut. destruct (decide ((i, j) ∈ p_arcs c)) as [|Hn]; [by left|]. right.
    assert ((j, i) ∉ p_arcs c) as Hn'. { intros H'. apply (icp_sub _ _ H) in H'. by apply (acyclic_asym (d_arcs d) i j). }
    apply cut_single in Hcut as [[-> _]|[_ ->]]; [exists j|exists i]; rewrite (icp_unbrs _ _ _ _ H); unfold adjacent; tauto.
  Qed.

  Lemma elem_of_dominated Is c v : icp d Is c → v ∈ d_nodes d →
    v ∈ dominated_nodes c ↔ p_unbrs c v = ∅ ∨ ∃ w, p_unbrs c v = {[w]} ∧ 1 < size (p_unbrs c w).
  Proof.
    intros Hc Hv. unfold dominated_nodes. rewrite elem_of_filter, (icp_nodes _ _ Hc). unfold is_dominated.
    destruct (elements (p_unbrs c v)) as [|w [|w' l]] eqn:Hel.
    - apply elements_empty_inv in Hel. unfold_leibniz. tauto.
    - assert (p_unbrs c v = {[w]}) as ->. { apply set_eq. intros x. rewrite <-elem_of_elements, Hel. clear. set_solver. }
      rewrite bool_decide_eq_true. split; [intros [H _]; right; by exists w|]. intros [H|(w' & H1 & H2)]; [exfalso; clear -H; set_solver|].
      assert (w = w') as -> by (clear -H1; set_solver). done.
    - split; [by intros [H _]|]. intros [H|(u & H & _)].
      + rewrite H in Hel. by rewrite elements_empty in Hel.
      + rewrite H in Hel. by rewrite elements_singleton in Hel.
  Qed.

  (** Some candidate is as good as any given node. *)
  Lemma candidate Is c v : icp d Is c → p_edges c ≠ ∅ → ∃ w, w ∈ d_nodes d ∖ dominated_nodes c ∧
    ∀ x y, icp d ({[v]} :: Is) x → icp d ({[w]} :: Is) y → p_arcs x ⊆ p_arcs y ∧ p_arcs c ⊂ p_arcs y.
  Proof.
    intros Hc He. pose proof (icp_shows _ _ Hc) as Hs.
    assert (∀ w u y, u ∈ p_unbrs c w → icp d ({[w]} :: Is) y → p_arcs c ⊂ p_arcs y) as Hgrow.
    { intros w u y Hu Hy. split.
      - apply (icp_mono _ _ _ _ Hc Hy). intros i j I HE HI Hcut. apply (icp_determined _ _ _ _ Hy). split; [done|]. intros E' _ [_ Hcut'].
        apply (Hcut' I); [by right|done|done].
      - intros Hsub. apply (icp_unbrs _ _ _ _ Hc) in Hu as ([Hwu|Huw] & H1 & H2).
        + apply H1, Hsub. apply (icp_determined _ _ _ _ Hy). split; [done|]. intros E' _ [_ Hcut']. apply (Hcut' {[w]}); [left|apply cut_single|done].
          left. split; [done|]. intros ->. by apply (acyclic_irr _ w Hac).
        + apply H2, Hsub. apply (icp_determined _ _ _ _ Hy). split; [done|]. intros E' _ [_ Hcut']. apply (Hcut' {[w]}); [left|apply cut_single|done].
          right. split; [|done]. intros ->. by apply (acyclic_irr _ w Hac). }
    assert (∀ w u, u ∈ p_unbrs c w → w ∈ d_nodes d ∧ u ∈ d_nodes d) as Hin.
    { intros w u Hu. apply (icp_unbrs _ _ _ _ Hc) in Hu as ([H|H] & _); apply (wf_over _ Hwf) in H; tauto. }
    assert (∀ w u, u ∈ p_unbrs c w → w ∈ p_unbrs c u) as Hsym.
    { intros w u. rewrite !(icp_unbrs _ _ _ _ Hc). unfold adjacent. tauto. }
    assert (∀ w, 1 < size (p_unbrs c w) → w ∈ d_nodes d ∖ dominated_nodes c) as Hbig.
    { intros w Hw. destruct (set_choose (p_unbrs c w)) as [u Hu]; [intros Hem; rewrite Hem in Hw; rewrite size_empty in Hw; lia|].
      destruct (Hin _ _ Hu) as [Hwn _]. apply elem_of_difference. split; [done|]. rewrite (elem_of_dominated _ _ _ Hc Hwn).
      intros [H|(u' & H & _)]; rewrite H in Hw; [rewrite size_empty in Hw|rewrite size_singleton in Hw]; lia. }
    (* a candidate exists, whatever [v] *)
    assert (∀ w, p_unbrs c w ≠ ∅ → (w ∈ d_nodes d ∖ dominated_nodes c) ∨ ∃ u, p_unbrs c w = {[u]} ∧ 1 < size (p_unbrs c u)) as Hcase.
    { intros w Hw. destruct (set_choose_L _ Hw) as [u Hu]. destruct (Hin _ _ Hu) as [Hwn _].
      destruct (decide (w ∈ dominated_nodes c)) as [Hd|Hd]; [|left; by apply elem_of_difference].
      apply (elem_of_dominated _ _ _ Hc Hwn) in Hd as [Hd|Hd]; [done|by right]. }
    assert (∀ w u y, p_unbrs c w = {[u]} → icp d ({[u]} :: Is) y → ∀ x, icp d ({[w]} :: Is) x → p_arcs x ⊆ p_arcs y) as Hdom.
    { intros w u y Hw Hy x Hx. apply (icp_mono _ _ _ _ Hx Hy). intros i j I HE [->|HI]%elem_of_cons Hcut.
      - destruct (icp_arc_at _ _ _ _ _ Hc HE Hcut) as [H|(u' & Hu' & Hij)].
        + destruct (Hgrow u w y) as [Hsub _]; [apply Hsym; rewrite Hw; by apply elem_of_singleton|done|]. by apply Hsub.
        + rewrite Hw in Hu'. apply elem_of_singleton in Hu' as ->. apply (icp_determined _ _ _ _ Hy). split; [done|]. intros E' _ [_ Hcut'].
          apply (Hcut' {[u]}); [left| |done]. apply cut_single. apply cut_single in Hcut. naive_solver.
      - apply (icp_determined _ _ _ _ Hy). split; [done|]. intros E' _ [_ Hcut']. apply (Hcut' I); [by right|done|done]. }
    destruct (decide (p_unbrs c v = ∅)) as [Hv|Hv].
    - (* any candidate will do *)
      assert (∃ w u, u ∈ p_unbrs c w) as (w & u & Hu).
      { apply set_choose_L in He as [[a b] Hab]. exists a, b. rewrite (pok_unb _ (sh_ok _ _ Hs)). pose proof (pok_edge _ (sh_ok _ _ Hs) _ Hab) as Hlt. cbn in Hlt.
        split; [lia|]. unfold upair. by rewrite Nat.min_l, Nat.max_r by lia. }
      assert (∃ w u, w ∈ d_nodes d ∖ dominated_nodes c ∧ u ∈ p_unbrs c w) as (w' & u' & Hw' & Hu').
      { destruct (Hcase w) as [Hw|(t & Ht & Hsz)]; [intros H; rewrite H in Hu; clear -Hu; set_solver|by exists w, u|].
        exists t, w. split; [by apply Hbig|]. apply Hsym. rewrite Ht. by apply elem_of_singleton. }
      exists w'. split; [done|]. intros x y Hx Hy. pose proof (Hgrow _ _ _ Hu' Hy) as Hg. split; [|done].
      etrans; [|apply Hg]. apply (icp_mono _ _ _ _ Hx Hc). intros i j I HE [->|HI]%elem_of_cons Hcut.
      + destruct (icp_arc_at _ _ _ _ _ Hc HE Hcut) as [H|(t & Ht & _)]; [done|]. rewrite Hv in Ht. clear -Ht. set_solver.
      + apply (icp_determined _ _ _ _ Hc). split; [done|]. intros E' _ [_ Hcut']. by apply (Hcut' I).
    - destruct (Hcase v Hv) as [Hv'|(u & Hu & Hsz)].
      + apply set_choose_L in Hv as [u Hu]. exists v. split; [done|]. intros x y Hx Hy. rewrite (icp_unique _ _ _ Hx Hy). split; [done|]. by apply (Hgrow v u).
      + exists u. split; [by apply Hbig|]. intros x y Hx Hy. split; [by apply (Hdom v u y Hu Hy)|]. apply (Hgrow u v); [|done]. apply Hsym. rewrite Hu. by apply elem_of_singleton.
  Qed.
End icp.

Lemma tabulate_ok {A} (f : node → res A) (P : node → A → Prop) l : (∀ n, n ∈ l → ∃ a, f n = Ok a ∧ P n a) →
  ∃ r, tabulate f l = Ok r ∧ fst <$> r = l ∧ ∀ p, p ∈ r → P p.1 p.2.
Proof.
  induction l as [|n l IH]; intros H; cbn.
  - exists []. split; [done|]. split; [done|]. intros p Hp. by apply elem_of_nil in Hp.
  - destruct (H n) as (a & -> & Ha); [left|]. destruct IH as (r & -> & Hr & HP); [intros; apply H; by right|]. cbn.
    exists ((n, a) :: r). split; [done|]. split; [cbn; by rewrite Hr|]. intros p [->|Hp]%elem_of_cons; [done|by apply HP].
Qed.
Lemma first_max_ok {A} (key : A → nat) l : l ≠ [] → ∃ b, first_max key l = Ok b ∧ b ∈ l ∧ ∀ y, y ∈ l → key y ≤ key b.
Proof.
  destruct l as [|x l]; [done|]. intros _. cbn. eexists. split; [reflexivity|]. revert x. induction l as [|y l IH]; intros x; cbn.
  - split; [left|]. intros y Hy. apply elem_of_list_singleton in Hy as ->. done.
  - destruct (IH (if decide (key x < key y) then y else x)) as [H1 H2]. set (b := foldl _ _ _) in *. split.
    + apply elem_of_cons in H1 as [H1|H1]; [|rewrite !elem_of_cons; by right; right]. rewrite H1. destruct (decide _); rewrite !elem_of_cons; auto.
    + intros z [->|[->|Hz]%elem_of_cons]%elem_of_cons; [| |apply H2; by right]; specialize (H2 _ (elem_of_list_here _ _)); destruct (decide _); lia.
Qed.

(** A run of the greedy choice: from [c], intervene on the nodes of [ns] one after
    the other; [gs] are the graphs after each of them. *)
Inductive greedy_run (d : dag) : list nset → pdag → list node → list pdag → Prop :=
  | greedy_stop Is c : greedy_run d Is c [] []
  | greedy_next Is c n g ns gs : n ∈ d_nodes d → icp d ({[n]} :: Is) g → p_arcs c ⊂ p_arcs g →
      (∀ v x, icp d ({[v]} :: Is) x → size (p_arcs x) ≤ size (p_arcs g)) →
      greedy_run d ({[n]} :: Is) g ns gs → greedy_run d Is c (n :: ns) (g :: gs).
Definition final (c : pdag) (gs : list pdag) : pdag := default c (last gs).
Lemma final_cons c g gs : final c (g :: gs) = final g gs.
Proof. unfold final. rewrite last_cons. by destruct (last gs). Qed.

Section greedy.
  Context (d : dag) (Hwf : wf d) (Hac : acyclic (d_arcs d)).

  Lemma greedy_pick (f : node → oracle) Is c l : icp d Is c → p_edges c ≠ ∅ → (∀ n, n ∈ l ↔ n ∈ d_nodes d ∖ dominated_nodes c) →
    ∃ t n g, tabulate (λ n, interventional_cpdag d (f n) [{[n]}] c) l = Ok t ∧ first_max (λ p, size (p_arcs p.2)) t = Ok (n, g) ∧
      n ∈ d_nodes d ∧ icp d ({[n]} :: Is) g ∧ p_arcs c ⊂ p_arcs g ∧ ∀ v x, icp d ({[v]} :: Is) x → size (p_arcs x) ≤ size (p_arcs g).
  Proof.
    intros Hc He Hl. destruct (tabulate_ok (λ n, interventional_cpdag d (f n) [{[n]}] c) (λ n g, icp d ({[n]} :: Is) g) l) as (t & Ht & Hfst & HP).
    { intros n _. by apply (icp_step d Hwf Hac (f n) Is [{[n]}] c). }
    assert (∀ w, w ∈ d_nodes d ∖ dominated_nodes c → ∃ y, (w, y) ∈ t) as Hin.
    { intros w Hw. apply Hl in Hw. rewrite <-Hfst in Hw. apply elem_of_list_fmap in Hw as ([w' y] & -> & Hw). by exists y. }
    destruct (first_max_ok (λ p : node * pdag, size (p_arcs p.2)) t) as ([n g] & Hmax & Hng & Hbest).
    { destruct (candidate d Hwf Hac Is c 0 Hc He) as (w & Hw & _). apply Hin in Hw as [y Hw]. intros ->. by apply elem_of_nil in Hw. }
    exists t, n, g. split; [done|]. split; [done|]. pose proof (HP _ Hng) as Hg. cbn in Hg.
    assert (n ∈ d_nodes d) as Hn.
    { assert (n ∈ l) as Hnl by (rewrite <-Hfst; apply elem_of_list_fmap; by exists (n, g)). apply Hl in Hnl. by apply elem_of_difference in Hnl as []. }
    assert (∀ v x, icp d ({[v]} :: Is) x → size (p_arcs x) ≤ size (p_arcs g) ∧ size (p_arcs c) < size (p_arcs g)) as Hall.
    { intros v x Hx. destruct (candidate d Hwf Hac Is c v Hc He) as (w & Hw & Hcand). apply Hin in Hw as [y Hy]. pose proof (HP _ Hy) as Hyi. cbn in Hyi.
      destruct (Hcand x y Hx Hyi) as [H1 H2]. specialize (Hbest _ Hy). cbn in Hbest. apply subseteq_size in H1. apply subset_size in H2. lia. }
    split; [done|]. split; [done|]. split; [|intros v x Hx; by apply (Hall v)].
    destruct (Hall n g Hg) as [_ Hlt]. split; [|intros Hsub; apply subseteq_size in Hsub; lia].
    apply (icp_mono d Hwf Hac _ _ _ _ Hc Hg). intros i j I HE HI Hcut. apply (icp_determined d Hwf Hac _ _ _ _ Hg). split; [done|]. intros E' _ [_ Hcut'].
    apply (Hcut' I); [by right|done|done].
  Qed.

  Lemma greedy_single_ok o fuel Is c num : icp d Is c → size (p_edges c) < fuel →
    ∃ ns gs m, greedy_single fuel d o c num = Ok ((Some <$> ns) ++ replicate m None, gs ++ replicate m (final c gs)) ∧
      greedy_run d Is c ns gs ∧
      ((1 ≤ num)%Z → length ns + m = Z.to_nat num) ∧ ((num ≤ 0)%Z → m = 0) ∧
      ((num ≤ 0)%Z ∨ 0 < m → p_edges (final c gs) = ∅).
  Proof.
    revert Is c num. induction fuel as [|fuel IH]; intros Is c num Hc Hf; [lia|]. cbn [greedy_single].
    destruct (decide (p_edges c = ∅)) as [He|He].
    - exists [], [], (Z.to_nat num). split; [done|]. split; [constructor|]. split; [done|]. split; [lia|]. done.
    - destruct (greedy_pick (λ n, at_call o [70; S fuel; n]) Is c (on o [71; S fuel] (d_nodes d ∖ dominated_nodes c)) Hc He) as (t & n & g & -> & Hm & Hn & Hg & Hsub & Hbest).
      { intros n. apply elem_of_on. }
      cbn [res_bind]. rewrite Hm. cbn [res_bind fst snd].
      assert (size (p_edges g) < fuel) as Hf'.
      { pose proof (icp_edges d Hac _ _ Hc). pose proof (icp_edges d Hac _ _ Hg). apply subset_size in Hsub. lia. }
      destruct (decide (num = 1%Z)) as [->|Hnum].
      + exists [n], [g], 0. split; [done|]. split; [by econstructor; [..|constructor]|]. split; [cbn; lia|]. split; [lia|]. intros [?|?]; lia.
      + destruct (IH _ _ (num - 1)%Z Hg Hf') as (ns & gs & m & -> & Hrun & H1 & H2 & H3). cbn [res_bind fst snd].
        exists (n :: ns), (g :: gs), m. split; [by rewrite final_cons|]. split; [by constructor|]. split; [intros; cbn; lia|]. split; [lia|].
        rewrite final_cons. intros H. apply H3. lia.
  Qed.

  Lemma greedy_loop_ok o fuel Is c : icp d Is c → size (p_edges c) < fuel →
    ∃ ns gs, greedy_loop fuel d o c = Ok (Some <$> ns, gs) ∧ greedy_run d Is c ns gs ∧ p_edges (final c gs) = ∅.
  Proof.
    revert Is c. induction fuel as [|fuel IH]; intros Is c Hc Hf; [lia|]. cbn [greedy_loop].
    destruct (decide (p_edges c = ∅)) as [He|He].
    - exists [], []. split; [done|]. split; [constructor|done].
    - cbn [greedy_single]. rewrite decide_False by done.
      destruct (greedy_pick (λ n, at_call (at_call o [72; S fuel]) [70; 1; n]) Is c (on (at_call o [72; S fuel]) [71; 1] (d_nodes d ∖ dominated_nodes c)) Hc He) as (t & n & g & -> & Hm & Hn & Hg & Hsub & Hbest).
      { intros n. apply elem_of_on. }
      cbn [res_bind]. rewrite Hm. cbn [res_bind fst snd]. rewrite decide_True by done. cbn [res_bind].
      destruct (IH _ _ Hg) as (ns & gs & -> & Hrun & Hend).
      { pose proof (icp_edges d Hac _ _ Hc). pose proof (icp_edges d Hac _ _ Hg). apply subset_size in Hsub. lia. }
      exists (n :: ns), (g :: gs). cbn [res_bind fst snd]. split; [done|]. split; [by constructor|]. by rewrite final_cons.
  Qed.

  (** What a run means. *)
  Lemma run_length Is c ns gs : greedy_run d Is c ns gs → length ns = length gs.
  Proof. induction 1; cbn; lia. Qed.
  Lemma run_final Is c ns gs : icp d Is c → greedy_run d Is c ns gs → icp d (reverse (singles ns) ++ Is) (final c gs).
  Proof.
    intros Hc H. revert Hc. induction H as [Is c|Is c n g ns gs Hn Hg Hsub Hbest Hrun IH]; intros Hc; [done|].
    rewrite final_cons. change (singles (n :: ns)) with ({[n]} :: singles ns). rewrite reverse_cons, <-app_assoc. apply (IH Hg).
  Qed.
  Lemma run_take Is c ns gs k : greedy_run d Is c ns gs → greedy_run d Is c (take k ns) (take k gs).
  Proof. intros H. revert k. induction H; intros [|k]; cbn; [constructor..|]. by constructor. Qed.
  Lemma run_drop Is c ns gs k : greedy_run d Is c ns gs → greedy_run d (reverse (singles (take k ns)) ++ Is) (final c (take k gs)) (drop k ns) (drop k gs).
  Proof.
    intros H. revert k. induction H as [Is c|Is c n g ns gs Hn Hg Hsub Hbest Hrun IH]; intros [|k]; [apply greedy_stop|apply greedy_stop|by apply greedy_next|].
    cbn [take drop]. change (singles (n :: take k ns)) with ({[n]} :: singles (take k ns)). rewrite reverse_cons, <-app_assoc, final_cons. apply IH.
  Qed.
End greedy.

(** ** Coverage *)
Section coverage.
  Context (d : dag) (Hwf : wf d) (Hac : acyclic (d_arcs d)).

  Lemma icp_sup Is Js c g : icp d Is c → icp d Js g → Is ⊆ Js → p_arcs c ⊆ p_arcs g.
  Proof.
    intros Hc Hg Hs. apply (icp_mono d Hwf Hac _ _ _ _ Hc Hg). intros i j I HE HI Hcut. apply (icp_determined d Hwf Hac _ _ _ _ Hg).
    split; [done|]. intros E' _ [_ Hcut']. apply (Hcut' I); [by apply Hs|done|done].
  Qed.

  Lemma cover_step Is c X g b : icp d Is c → icp d (singles X ++ Is) g → (∀ v x, icp d ({[v]} :: Is) x → size (p_arcs x) ≤ b) →
    size (p_arcs g) ≤ size (p_arcs c) + length X * (b - size (p_arcs c)).
  Proof.
    intros Hc Hg Hb. revert g Hg. induction X as [|v X IH]; intros g Hg.
    - rewrite (icp_unique d Hwf Hac Is g c) by done. lia.
    - destruct (icp_exists d Hwf Hac (singles X ++ Is)) as [g' Hg']. specialize (IH _ Hg').
      destruct (icp_exists d Hwf Hac [{[v]}]) as [x0 Hx0]. destruct (icp_exists d Hwf Hac ({[v]} :: Is)) as [x Hx]. specialize (Hb v x Hx).
      rewrite (icp_union d Hwf Hac (singles X ++ Is) [{[v]}] g' x0 g Hg' Hx0 Hg).
      pose proof (icp_union d Hwf Hac Is [{[v]}] c x0 x Hc Hx0 Hx) as Hux.
      assert (p_arcs c ⊆ p_arcs g') as Hsub by (apply (icp_sup _ _ _ _ Hc Hg'); clear; set_solver).
      assert (p_arcs g' ∪ p_arcs x0 ⊆ p_arcs g' ∪ (p_arcs x0 ∖ p_arcs c)) as H1.
      { intros a. rewrite !elem_of_union, elem_of_difference. destruct (decide (a ∈ p_arcs c)) as [Ha|Ha]; [specialize (Hsub _ Ha)|]; tauto. }
      apply subseteq_size in H1. pose proof (size_union_le (p_arcs g') (p_arcs x0 ∖ p_arcs c)) as H2.
      assert (size (p_arcs x) = size (p_arcs c) + size (p_arcs x0 ∖ p_arcs c)) as H3.
      { rewrite Hux, <-size_union_arcs by (clear; set_solver). f_equal. apply set_eq. intros a. rewrite !elem_of_union, elem_of_difference.
        destruct (decide (a ∈ p_arcs c)); tauto. }
      cbn [length]. lia.
  Qed.

  (** Distance to what [length X] interventions can reach, after each greedy step. *)
  Lemma run_step Is c n g ns gs X x : icp d Is c → greedy_run d Is c (n :: ns) (g :: gs) → icp d (singles X ++ Is) x →
    size (p_arcs x) ≤ size (p_arcs c) + length X * (size (p_arcs g) - size (p_arcs c)).
  Proof. intros Hc Hrun Hx. inversion Hrun; subst. by apply (cover_step Is c X x). Qed.
  Lemma run_bound Is c ns gs X a : icp d Is c → greedy_run d Is c ns gs → 1 ≤ length X →
    (∀ x, icp d (singles X ++ Is) x → (a ≤ Z.of_nat (size (p_arcs x)))%Z) →
    let k := Z.of_nat (length X) in
    (k ^ Z.of_nat (length ns) * (a - Z.of_nat (size (p_arcs (final c gs)))) ≤ (k - 1) ^ Z.of_nat (length ns) * (a - Z.of_nat (size (p_arcs c))))%Z.
  Proof.
    intros Hc Hrun HX Ha k. revert Hc Ha. induction Hrun as [Is c|Is c n g ns gs Hn Hg Hsub Hbest Hrun IH]; intros Hc Ha; [unfold final; cbn; lia|].
    rewrite final_cons. assert (∀ x, icp d (singles X ++ {[n]} :: Is) x → (a ≤ Z.of_nat (size (p_arcs x)))%Z) as Ha'.
    { intros x Hx. destruct (icp_exists d Hwf Hac (singles X ++ Is)) as [x' Hx']. specialize (Ha _ Hx').
      assert (p_arcs x' ⊆ p_arcs x) as Hs by (apply (icp_sup _ _ _ _ Hx' Hx); clear; set_solver). apply subseteq_size in Hs. lia. }
    specialize (IH Hg Ha').
    destruct (icp_exists d Hwf Hac (singles X ++ Is)) as [x Hx]. pose proof (cover_step Is c X x _ Hc Hx Hbest) as Hst. specialize (Ha _ Hx).
    apply subset_size in Hsub. cbn [length]. rewrite Nat2Z.inj_succ, !Z.pow_succ_r by lia. fold k in IH.
    set (P := (k ^ Z.of_nat (length ns))%Z) in *. set (Q := ((k - 1) ^ Z.of_nat (length ns))%Z) in *.
    assert (0 ≤ Q)%Z as HQ by (apply Z.pow_nonneg; unfold k; lia).
    set (rc := Z.of_nat (size (p_arcs c))) in *. set (rg := Z.of_nat (size (p_arcs g))) in *. set (rf := Z.of_nat (size (p_arcs (final g gs)))) in *.
    assert (k * (a - rg) ≤ (k - 1) * (a - rc))%Z as H1. { unfold k, rc, rg in *. nia. }
    transitivity (k * (Q * (a - rg)))%Z; [|nia]. rewrite <-Z.mul_assoc. apply Z.mul_le_mono_nonneg_l; [unfold k; lia|done].
  Qed.

  (** Full orientation. *)
  Lemma verifies_icp Is c : icp d Is c → verifies Is (d_arcs d) ↔ p_arcs c = d_arcs d.
  Proof.
    intros Hc. split.
    - intros Hv. apply set_eq. intros [i j]. split; [apply (icp_sub d _ _ Hc)|]. intros HE. apply (icp_determined d Hwf Hac _ _ _ _ Hc).
      split; [done|]. intros E' H1 H2. by rewrite (Hv E' H1 H2).
    - intros Heq E' H1 H2. apply set_eq. intros [i j]. assert (∀ i j, (i, j) ∈ d_arcs d → (i, j) ∈ E') as Hsub.
      { intros x y Hxy. rewrite <-Heq in Hxy. apply (icp_determined d Hwf Hac _ _ _ _ Hc) in Hxy as [_ Hxy]. by apply Hxy. }
      split; [|apply Hsub]. intros Hij. assert (adjacent (d_arcs d) i j) as [?|Hji] by (apply H2; by left); [done|].
      exfalso. apply (acyclic_asym E' i j H1 Hij). by apply Hsub.
  Qed.
  Lemma verifies_covered Is : verifies Is (d_arcs d) ↔ ∀ x y, covered (d_arcs d) x y → ∃ I, I ∈ Is ∧ cut I x y.
  Proof.
    set (E := d_arcs d) in *. split.
    - intros Hv x y Hcov. assert (Decision (∃ I, I ∈ Is ∧ cut I x y)) as Hdec.
      { destruct (decide (Exists (λ I, cut I x y) Is)) as [H|H]; [left; by apply Exists_exists in H|right; intros H'; apply H, Exists_exists, H']. }
      destruct Hdec as [|Hn]; [done|]. exfalso.
      assert (flip_arc E x y = E) as Hfl.
      { apply Hv; [by apply flip_acyclic|]. split; [by apply flip_equivalent|]. intros I i j HI Hij. unfold flip_arc.
        rewrite elem_of_union, elem_of_difference, !elem_of_singleton. pose proof (cut_sym I i j Hij).
        assert ((i, j) ≠ (x, y) ∧ (i, j) ≠ (y, x)) by (split; intros [= -> ->]; apply Hn; by exists I). tauto. }
      assert ((y, x) ∈ E) as Hyx. { rewrite <-Hfl. unfold flip_arc. apply elem_of_union. left. by apply elem_of_singleton. }
      apply (acyclic_asym E x y Hac); [exact (proj1 Hcov)|done].
    - intros H E' H1 [H2 H3]. destruct (decide (E' = E)) as [|Hne]; [done|]. exfalso.
      destruct (covered_exists E E' Hac H1 H2) as (x & y & Hcov & Hyx); [congruence|]. destruct (H x y Hcov) as (I & HI & Hcut).
      apply (acyclic_asym E' y x H1 Hyx). apply (H3 I); [done|done|]. exact (proj1 Hcov).
  Qed.
  Lemma elem_of_covered_edges x y : (x, y) ∈ compute_covered_edges d ↔ covered (d_arcs d) x y.
  Proof.
    assert (∀ u v, u ∈ nx_predecessors (d_arcs d) v ↔ (u, v) ∈ d_arcs d) as Hp.
    { intros u v. unfold nx_predecessors. rewrite elem_of_map. setoid_rewrite elem_of_filter. split.
      - intros ([a b] & -> & Hb & H). cbn in *. by subst.
      - intros H. by exists (u, v). }
    unfold compute_covered_edges. rewrite elem_of_filter. cbn. unfold covered. split.
    - intros [Heq HE]. split; [done|]. intros z. rewrite <-!Hp, Heq, elem_of_difference, elem_of_singleton. done.
    - intros [HE H]. split; [|done]. apply set_eq. intros z. by rewrite elem_of_difference, elem_of_singleton, !Hp, H.
  Qed.
  Lemma verifies_cover X : verifies (singles X) (d_arcs d) ↔ vertex_cover (compute_covered_edges d) (list_to_set X).
  Proof.
    rewrite verifies_covered. unfold vertex_cover. split.
    - intros H x y Hxy. apply elem_of_covered_edges in Hxy. destruct (H x y Hxy) as (I & HI & Hcut). unfold singles in HI.
      apply elem_of_list_fmap in HI as (v & -> & Hv). rewrite !elem_of_list_to_set. apply cut_single in Hcut. naive_solver.
    - intros H x y Hcov. assert (x ≠ y) as Hne by (intros ->; apply (acyclic_irr _ y Hac); exact (proj1 Hcov)).
      destruct (H x y) as [Hx|Hx]; [by apply elem_of_covered_edges| |]; rewrite elem_of_list_to_set in Hx.
      + exists {[x]}. split; [apply elem_of_list_fmap; by exists x|]. apply cut_single. left. by split.
      + exists {[y]}. split; [apply elem_of_list_fmap; by exists y|]. apply cut_single. by right.
  Qed.

  (** Every node has at most one covered arc into it, so these arcs form a forest. *)
  Lemma covered_unique x x' y : covered (d_arcs d) x y → covered (d_arcs d) x' y → x = x'.
  Proof.
    intros [H1 H2] [H3 H4]. destruct (decide (x = x')) as [|Hne]; [done|]. exfalso.
    apply (acyclic_asym (d_arcs d) x x' Hac); [by apply H4|]. apply H2. split; congruence.
  Qed.
  Lemma covered_bipartite : bipartite (compute_covered_edges d).
  Proof.
    destruct (acyclic_pos (d_arcs d) Hac) as [pos Hpos]. set (H := compute_covered_edges d).
    assert (∀ n, ∃ c : node → bool, ∀ x y : node, (x, y) ∈ H → pos y < n → c x ≠ c y) as Hn.
    { induction n as [|n [c Hc]]; [exists (λ _, true); intros; lia|].
      exists (λ y, if decide (pos y = n) then match elements (filter (λ a : arc, a.2 = y) H) with a :: _ => negb (c a.1) | [] => true end else c y).
      intros x y Hxy Hy. assert (pos x < pos y) as Hlt by (apply Hpos; apply elem_of_covered_edges in Hxy; exact (proj1 Hxy)).
      rewrite (decide_False (P := pos x = n)) by lia. destruct (decide (pos y = n)) as [Hyn|Hyn]; [|apply Hc; [done|lia]].
      destruct (elements (filter (λ a : arc, a.2 = y) H)) as [|[x' y'] l] eqn:Hel.
      - exfalso. assert ((x, y) ∈ elements (filter (λ a : arc, a.2 = y) H)) as Hin by (apply elem_of_elements, elem_of_filter; done).
        rewrite Hel in Hin. by apply elem_of_nil in Hin.
      - assert ((x', y') ∈ elements (filter (λ a : arc, a.2 = y) H)) as Hin by (rewrite Hel; left).
        apply elem_of_elements, elem_of_filter in Hin as [Hy' Hin]. cbn in *. subst y'. apply elem_of_covered_edges in Hin, Hxy.
        rewrite (covered_unique x x' y) by done. by destruct (c x'). }
    destruct (Hn (S (sum_list (pos ∘ snd <$> elements H)))) as [c Hc]. exists c. intros x y Hxy. apply Hc; [done|].
    assert (pos y ∈ (pos ∘ snd <$> elements H)) as Hin by (apply elem_of_list_fmap; exists (x, y); split; [done|by apply elem_of_elements]).
    clear -Hin. revert Hin. generalize (pos y) as m, (pos ∘ snd <$> elements H) as l. induction l as [|z l IH]; intros Hin.
    - by apply elem_of_nil in Hin.
    - apply elem_of_cons in Hin as [->|Hin]; cbn; [lia|]. specialize (IH Hin). cbn in IH. lia.
  Qed.
  Lemma covered_undirected Is c x y : (∀ I, I ∈ Is → ¬ cut I x y) → icp d Is c → covered (d_arcs d) x y → has_edge c x y = true.
  Proof.
    intros Hn Hc Hcov. apply has_edge_true. apply (sh_edge _ _ (icp_shows d _ _ Hc)). left. apply elem_of_difference. split; [exact (proj1 Hcov)|].
    intros H. apply (icp_determined d Hwf Hac _ _ _ _ Hc) in H as [_ H].
    specialize (H (flip_arc (d_arcs d) x y)). assert (x ≠ y) as Hne by (intros ->; apply (acyclic_irr _ y Hac); exact (proj1 Hcov)).
    assert ((x, y) ∈ flip_arc (d_arcs d) x y) as Hin.
    { apply H; [by apply flip_acyclic|]. split; [by apply flip_equivalent|]. intros I i j HI Hij. unfold flip_arc.
      rewrite elem_of_union, elem_of_difference, !elem_of_singleton. pose proof (cut_sym I i j Hij).
      assert ((i, j) ≠ (x, y) ∧ (i, j) ≠ (y, x)) by (split; intros [= -> ->]; by apply (Hn I)). tauto. }
    unfold flip_arc in Hin. rewrite elem_of_union, elem_of_difference, !elem_of_singleton in Hin. naive_solver.
  Qed.
End coverage.

(** ** Subsets in order of size *)
Lemma sublist_in {A} (l k : list A) x : l `sublist_of` k → x ∈ l → x ∈ k.
Proof.
  induction 1 as [|y l k _ IH|y l k _ IH]; intros Hx; [done|..].
  - apply elem_of_cons in Hx as [->|Hx]; [left|right; auto].
  - right. auto.
Qed.
Lemma sublist_nodup {A} (l k : list A) : l `sublist_of` k → NoDup k → NoDup l.
Proof.
  induction 1 as [|y l k Hs IH|y l k _ IH]; rewrite ?NoDup_cons; [done| |tauto].
  intros [H1 H2]. split; [|auto]. intros H. apply H1. by eapply sublist_in.
Qed.
Lemma filter_sublist {A} (P : A → Prop) `{!∀ x, Decision (P x)} (l : list A) : filter P l `sublist_of` l.
Proof. induction l as [|x l IH]; [constructor|]. rewrite filter_cons. destruct (decide (P x)); [by apply sublist_skip|by apply sublist_cons]. Qed.
Lemma combinations_sub {A} (l : list A) r s : s ∈ combinations l r ↔ s `sublist_of` l ∧ length s = r.
Proof.
  revert r s. induction l as [|x l IH]; intros [|r] s; cbn [combinations].
  - rewrite elem_of_list_singleton. split; [intros ->; split; [constructor|done]|]. intros [_ H]. by apply nil_length_inv.
  - rewrite elem_of_nil. split; [done|]. intros [H1 H2]. apply sublist_nil_r in H1 as ->. done.
  - rewrite elem_of_list_singleton. split; [intros ->; split; [apply sublist_nil_l|done]|]. intros [_ H]. by apply nil_length_inv.
  - rewrite elem_of_app, elem_of_list_fmap. setoid_rewrite IH. split.
    + intros [(s' & -> & H1 & H2)|[H1 H2]]; [split; [by apply sublist_skip|cbn; lia]|split; [by apply sublist_cons|done]].
    + intros [H1 H2]. apply sublist_cons_r in H1 as [H1|(s' & -> & H1)]; [by right|]. left. exists s'. split; [done|]. split; [done|]. cbn in H2. lia.
Qed.
Lemma elem_of_powerset {A} (l : list A) a s : s ∈ powerset l a ↔ s `sublist_of` l ∧ a ≤ length s.
Proof.
  unfold powerset. rewrite elem_of_list_bind. split.
  - intros (r & H1 & H2). apply combinations_sub in H1 as [H1 <-]. apply elem_of_seq in H2. split; [done|lia].
  - intros [H1 H2]. exists (length s). split; [by apply combinations_sub|]. apply elem_of_seq. apply sublist_length in H1. lia.
Qed.
Lemma head_filter_min {A} (P : list A → Prop) `{!∀ x, Decision (P x)} (l : list A) a n s :
  head (filter P (seq a n ≫= combinations l)) = Some s →
  P s ∧ s ∈ (seq a n ≫= combinations l) ∧ ∀ s', s' ∈ (seq a n ≫= combinations l) → P s' → length s ≤ length s'.
Proof.
  revert a. induction n as [|n IH]; intros a; [done|]. cbn [seq]. rewrite bind_cons, filter_app.
  destruct (filter P (combinations l a)) as [|x k] eqn:Hf; cbn.
  - intros Hh. destruct (IH _ Hh) as (H1 & H2 & H3). split; [done|]. split; [apply elem_of_app; by right|].
    intros s' [Hs'|Hs']%elem_of_app HP; [|by apply H3]. exfalso.
    assert (s' ∈ filter P (combinations l a)) as Hin by by apply elem_of_list_filter. rewrite Hf in Hin. by apply elem_of_nil in Hin.
  - intros [= ->]. assert (s ∈ filter P (combinations l a)) as Hin by (rewrite Hf; left).
    apply elem_of_list_filter in Hin as [HP Hin]. split; [done|]. split; [apply elem_of_app; by left|].
    apply combinations_sub in Hin as [_ Hlen].
    intros s' [Hs'|Hs']%elem_of_app _; [apply combinations_sub in Hs' as [_ ?]; lia|].
    apply elem_of_list_bind in Hs' as (r & Hs' & Hr). apply combinations_sub in Hs' as [_ ?]. apply elem_of_seq in Hr. lia.
Qed.
Lemma head_filter_some {A} (P : A → Prop) `{!∀ x, Decision (P x)} (l : list A) x : x ∈ l → P x → ∃ y, head (filter P l) = Some y.
Proof.
  intros Hx HP. destruct (filter P l) as [|y k] eqn:Hf; [|by exists y].
  assert (x ∈ filter P l) as Hin by by apply elem_of_list_filter. rewrite Hf in Hin. by apply elem_of_nil in Hin.
Qed.

Section optimal.
  Context (d : dag) (Hwf : wf d) (Hac : acyclic (d_arcs d)).

  Lemma lookup_arcs_in (t : list (node * pdag)) n : NoDup (fst <$> t) → n ∈ fst <$> t → ∃ g, (n, g) ∈ t ∧ lookup_arcs t n = p_arcs g.
  Proof.
    induction t as [|[m g] t IH]; intros Hnd Hn; [by apply elem_of_nil in Hn|]. rewrite fmap_cons in Hnd, Hn. apply NoDup_cons in Hnd as [Hm Hnd].
    change (lookup_arcs ((m, g) :: t) n) with (if decide (m = n) then p_arcs g else lookup_arcs t n).
    destruct (decide (m = n)) as [->|Hne].
    - exists g. split; [left|done].
    - apply elem_of_cons in Hn as [?|Hn]; [cbn in *; congruence|]. destruct (IH Hnd Hn) as (h & H1 & H2). exists h. split; [by right|done].
  Qed.
  Lemma union_singles (t : list (node * pdag)) ss g : ss ≠ [] → (∀ n, n ∈ ss → ∃ x, icp d [{[n]}] x ∧ lookup_arcs t n = p_arcs x) →
    icp d (singles ss) g → (⋃ (lookup_arcs t <$> ss) : arcset) = p_arcs g.
  Proof.
    revert g. induction ss as [|n ss IH]; intros g Hne Hall Hg; [done|].
    destruct (Hall n) as (x & Hx & Hlx); [left|]. cbn. rewrite Hlx. destruct ss as [|m ss].
    - cbn. rewrite (right_id_L ∅ (∪)). by rewrite (icp_unique d Hwf Hac [{[n]}] x g).
    - destruct (icp_exists d Hwf Hac (singles (m :: ss))) as [y Hy].
      assert (p_arcs g = p_arcs y ∪ p_arcs x) as -> by apply (icp_union d Hwf Hac _ [{[n]}] y x g Hy Hx Hg).
      rewrite <-(IH y); [|done|intros; apply Hall; by right|done]. cbn. by rewrite (comm_L (∪) _ (p_arcs x)).
  Qed.
  Lemma candidates c l : icp d [] c → p_edges c ≠ ∅ → verifies (singles l) (d_arcs d) →
    ∃ l', length l' = length l ∧ (∀ w, w ∈ l' → w ∈ d_nodes d ∖ dominated_nodes c) ∧ verifies (singles l') (d_arcs d).
  Proof.
    intros Hc He. assert (∀ l, ∃ l', length l' = length l ∧ (∀ w, w ∈ l' → w ∈ d_nodes d ∖ dominated_nodes c) ∧
      ∀ x y, icp d (singles l) x → icp d (singles l') y → p_arcs x ⊆ p_arcs y) as Hl.
    { clear l. induction l as [|v l (l' & H1 & H2 & H3)].
      - exists []. split; [done|]. split; [intros w Hw; by apply elem_of_nil in Hw|]. intros x y Hx Hy. by rewrite (icp_unique d Hwf Hac [] x y).
      - destruct (candidate d Hwf Hac [] c v Hc He) as (w & Hw & Hvw). exists (w :: l'). split; [cbn; lia|]. split; [intros u [->|Hu]%elem_of_cons; auto|].
        intros x y Hx Hy. destruct (icp_exists d Hwf Hac [{[v]}]) as [xv Hxv]. destruct (icp_exists d Hwf Hac [{[w]}]) as [yw Hyw].
        destruct (icp_exists d Hwf Hac (singles l)) as [xl Hxl]. destruct (icp_exists d Hwf Hac (singles l')) as [yl Hyl].
        rewrite (icp_union d Hwf Hac (singles l) [{[v]}] xl xv x Hxl Hxv Hx), (icp_union d Hwf Hac (singles l') [{[w]}] yl yw y Hyl Hyw Hy).
        specialize (H3 _ _ Hxl Hyl). destruct (Hvw xv yw Hxv Hyw) as [H4 _]. clear -H3 H4. set_solver. }
    intros Hv. destruct (Hl l) as (l' & H1 & H2 & H3). exists l'. split; [done|]. split; [done|].
    destruct (icp_exists d Hwf Hac (singles l)) as [x Hx]. destruct (icp_exists d Hwf Hac (singles l')) as [y Hy]. specialize (H3 _ _ Hx Hy).
    rewrite (verifies_icp d Hwf Hac _ _ Hx) in Hv. rewrite (verifies_icp d Hwf Hac _ _ Hy). pose proof (icp_sub d _ _ Hy). apply set_eq. intros a. rewrite Hv in H3. split; auto.
  Qed.

  Lemma optimal_spec o : ∃ r, optimal_single_node d o = Ok r ∧
    match r with
    | None => verifies [] (d_arcs d)
    | Some ss => ¬ verifies [] (d_arcs d) ∧ NoDup ss ∧ (∀ n, n ∈ ss → n ∈ d_nodes d) ∧ verifies (singles ss) (d_arcs d) ∧
        ∀ l, verifies (singles l) (d_arcs d) → length ss ≤ length l
    end.
  Proof.
    unfold optimal_single_node. destruct (icp_cpdag d Hwf Hac o) as (c & -> & Hc). cbn [res_bind].
    set (L := on o [74] (d_nodes d ∖ dominated_nodes c)). set (L' := on o [75] (d_nodes d ∖ dominated_nodes c)).
    destruct (tabulate_ok (λ n, interventional_cpdag d (at_call o [73; n]) [{[n]}] c) (λ n g, icp d [{[n]}] g) L) as (t & -> & Hfst & Ht).
    { intros n _. by apply (icp_step d Hwf Hac (at_call o [73; n]) [] [{[n]}] c). }
    cbn [res_bind]. eexists. split; [done|]. set (P := λ ss : list node, size (⋃ (lookup_arcs t <$> ss) : arcset) = size (p_edges c) + size (p_arcs c)).
    assert (∀ n, n ∈ L' → ∃ x, icp d [{[n]}] x ∧ lookup_arcs t n = p_arcs x) as Hlk.
    { intros n Hn. destruct (lookup_arcs_in t n) as (x & H1 & H2).
      - rewrite Hfst. apply NoDup_on. - rewrite Hfst. apply elem_of_on. apply elem_of_on in Hn. done.
      - exists x. split; [|done]. apply (Ht _ H1). }
    assert (∀ ss, ss ≠ [] → (∀ n, n ∈ ss → n ∈ L') → P ss ↔ verifies (singles ss) (d_arcs d)) as HP.
    { intros ss Hne Hin. destruct (icp_exists d Hwf Hac (singles ss)) as [g Hg]. unfold P. rewrite (union_singles t ss g Hne); [|auto|done].
      rewrite (icp_edges d Hac _ _ Hc), (verifies_icp d Hwf Hac _ _ Hg). pose proof (icp_edges d Hac _ _ Hg) as Hsz. rewrite <-(icp_done d Hac _ _ Hg). split.
      - intros Heq. apply leibniz_equiv, size_empty_inv. lia.
      - intros Heq. rewrite Heq, size_empty in Hsz. lia. }
    assert (∀ x, Decision (P x)) as HPd by (intros; unfold P; apply _).
    destruct (decide (p_edges c = ∅)) as [He|He].
    - assert (verifies [] (d_arcs d)) as Hv. { by rewrite (verifies_icp d Hwf Hac _ _ Hc), <-(icp_done d Hac _ _ Hc). }
      assert (d_nodes d ∖ dominated_nodes c = ∅) as Hem.
      { apply set_eq. intros n. rewrite elem_of_difference, elem_of_empty. split; [|done]. intros [Hn Hd]. apply Hd.
        apply (elem_of_dominated d _ _ _ Hc Hn). left. apply set_eq. intros u. rewrite elem_of_empty. split; [|done].
        rewrite (pok_unb _ (sh_ok _ _ (icp_shows d _ _ Hc))), He. intros [_ H]. by apply not_elem_of_empty in H. }
      assert (L' = []) as ->.
      { destruct L' as [|n k] eqn:HL'; [done|]. assert (n ∈ L') as Hn by (rewrite HL'; left). apply elem_of_on in Hn. rewrite Hem in Hn. by apply not_elem_of_empty in Hn. }
      done.
    - assert (¬ verifies [] (d_arcs d)) as Hnv. { by rewrite (verifies_icp d Hwf Hac _ _ Hc), <-(icp_done d Hac _ _ Hc). }
      assert (∀ l, verifies (singles l) (d_arcs d) → ∃ s, s ∈ powerset L' 1 ∧ P s ∧ length s ≤ length l) as Hex.
      { intros l Hl. destruct (candidates c l Hc He Hl) as (l' & H1 & H2 & H3).
        set (s := filter (λ n, n ∈ l') L'). assert (∀ n, n ∈ s ↔ n ∈ l') as Hs.
        { intros n. unfold s. rewrite elem_of_list_filter. split; [tauto|]. intros Hn. split; [done|]. apply elem_of_on. by apply H2. }
        assert (verifies (singles s) (d_arcs d)) as Hvs.
        { apply verifies_cover; [done|]. apply verifies_cover in H3; [|done]. intros i j Hij. rewrite !elem_of_list_to_set, !Hs. destruct (H3 i j Hij) as [H|H]; rewrite elem_of_list_to_set in H; auto. }
        assert (s ≠ []) as Hsne by by intros ->. exists s. split_and!.
        - apply elem_of_powerset. split; [apply filter_sublist|]. destruct s; [done|cbn; lia].
        - apply HP; [done| |done]. intros n Hn. by apply elem_of_list_filter in Hn as [_ ?].
        - rewrite <-H1. apply submseteq_length, NoDup_submseteq; [|intros n; by rewrite Hs]. apply NoDup_filter, NoDup_on. }
      destruct (Hex (elements (d_nodes d))) as (s & Hs & HPs & _).
      { apply verifies_cover; [done|]. intros i j Hij. apply elem_of_covered_edges in Hij. left. rewrite list_to_set_elements_L. by apply (wf_over _ Hwf i j), (proj1 Hij). }
      destruct (head_filter_some P (powerset L' 1) s Hs HPs) as [y Hy].
      replace (head (filter _ _)) with (Some y); [|rewrite <-Hy; apply f_equal, list_filter_iff; done].
      unfold powerset in Hy. destruct (head_filter_min P L' 1 _ y Hy) as (Hy1 & Hy2 & Hy3). fold (powerset L' 1) in Hy2, Hy3.
      apply elem_of_powerset in Hy2 as [Hsub Hlen]. assert (y ≠ []) as Hyne by (intros ->; cbn in Hlen; lia).
      assert (∀ n, n ∈ y → n ∈ L') as HyL by (intros n Hn; by eapply sublist_in).
      split; [done|]. split_and!.
      + eapply sublist_nodup; [done|]. apply NoDup_on.
      + intros n Hn. apply HyL, elem_of_on, elem_of_difference in Hn. tauto.
      + by apply HP.
      + intros l Hl. destruct (Hex l Hl) as (s' & H1 & H2 & H3). specialize (Hy3 _ H1 H2). lia.
  Qed.
End optimal.
