(** The four operations of Chickering's algorithm keep the target an independence
    map; removal of common sinks. *)
From Verif Require Import Py Spec SpecDsep SpecMec SpecEnum DagModel DsepModel TopoProofs StateProofs ReachProofs OrderProofs QueryProofs
  WalkProofs DsepProofs MarkovProofs ImapProofs PdagProofs ProtProofs CpdagProofs EquivProofs ChickProofs.

(** ** A set of last nodes *)
Lemma topo_last N E (K : nset) : acyclic E → over N E → (∀ u v, u ∈ K → (u, v) ∈ E → v ∈ K) →
  ∃ l1 l2, topo_order N E (l1 ++ l2) ∧ (∀ v, v ∈ l1 ↔ v ∈ N ∧ v ∉ K) ∧ (∀ v, v ∈ l2 ↔ v ∈ N ∧ v ∈ K).
Proof.
  intros Hac Ho HK. destruct (exists_topo N E Hac Ho) as [l Hl]. apply topo_iff in Hl as (Hnd & HN & Hpa); [|done].
  exists (filter (λ v, v ∉ K) l), (filter (λ v, v ∈ K) l).
  assert (∀ v, v ∈ filter (λ v, v ∉ K) l ↔ v ∈ N ∧ v ∉ K) as H1 by (intros v; rewrite elem_of_list_filter, HN; tauto).
  assert (∀ v, v ∈ filter (λ v, v ∈ K) l ↔ v ∈ N ∧ v ∈ K) as H2 by (intros v; rewrite elem_of_list_filter, HN; tauto).
  split; [|done]. apply topo_iff; [done|]. split; [|split].
  - apply NoDup_app. split; [by apply NoDup_filter|]. split; [|by apply NoDup_filter]. intros v. rewrite H1, H2. tauto.
  - intros v. rewrite elem_of_app, H1, H2. destruct (decide (v ∈ K)); tauto.
  - intros p v q Heq u Hu. apply elem_of_pa in Hu. rewrite elem_of_list_to_set.
    assert (∀ p' q', l = p' ++ v :: q' → u ∈ p') as Hbefore.
    { intros p' q' Hl. pose proof (Hpa p' v q' Hl u) as H. rewrite elem_of_pa, elem_of_list_to_set in H. by apply H. }
    apply app_eq_inv in Heq as [(k & Hk1 & Hk2)|(k & Hk1 & Hk2)].
    + destruct k as [|w k]; cbn in Hk2.
      * rewrite app_nil_r in Hk1. subst p. destruct (filter_split (λ v, v ∈ K) l [] v q) as (p' & q' & Hl & Hp'); [done|].
        rewrite H1. split; [by apply Ho in Hu as []|]. intros HuK. pose proof (Hbefore p' q' Hl) as Hup.
        assert (u ∈ filter (λ v, v ∈ K) p') as Hf by by apply elem_of_list_filter. rewrite Hp' in Hf. by apply elem_of_nil in Hf.
      * injection Hk2 as <- _. destruct (filter_split (λ v, v ∉ K) l p v k) as (p' & q' & Hl & Hp'); [done|].
        rewrite <-Hp'. apply elem_of_list_filter. split; [|by eapply Hbefore]. intros HuK.
        assert (v ∈ filter (λ v, v ∉ K) l) as Hv by (rewrite Hk1; clear; set_solver). apply H1 in Hv as [_ Hv]. apply Hv. by eapply HK.
    + destruct (filter_split (λ v, v ∈ K) l k v q) as (p' & q' & Hl & Hp'); [done|]. rewrite Hk1, elem_of_app.
      destruct (decide (u ∈ K)) as [HuK|HuK].
      * right. rewrite <-Hp'. apply elem_of_list_filter. split; [done|]. by eapply Hbefore.
      * left. apply H1. split; [by apply Ho in Hu as []|done].
Qed.

Lemma imap_last N H G (K : nset) : acyclic H → acyclic G → over N H → (∀ u v, u ∈ K → (u, v) ∈ H → v ∈ K) →
  (∀ v, v ∈ K → v ∈ N → dsepd G {[v]} (nondesc_rest N H v) (pa H v)) →
  (∀ a b C, a ∈ N → a ∉ K → b ∈ N → b ∉ K → C ⊆ N → (∀ c, c ∈ C → c ∉ K) → a ≠ b → a ∉ C → b ∉ C →
     dsepd H {[a]} {[b]} C → dsepd G {[a]} {[b]} C) →
  imap N H G.
Proof.
  intros HacH HacG Ho HK Hlast Hfirst. destruct (topo_last N H K HacH Ho HK) as (l1 & l2 & Hl & Hl1 & Hl2).
  intros A B C. apply (ordered_global (dsepd G) (dsepd_semigraphoid G HacG) (l1 ++ l2) N H Hl Ho).
  intros p v q Heq. destruct (topo_split N H _ p v q Ho Hl Heq) as [Hs1 Hs2].
  assert (v ∈ l1 ++ l2) as Hv by (rewrite Heq; clear; set_solver).
  destruct (decide (v ∈ K)) as [HvK|HvK].
  - eapply dsepd_mono; [done| |apply (Hlast v HvK)].
    + intros x [Hx Hxp]%elem_of_difference. rewrite elem_of_list_to_set in Hx. apply elem_of_nondesc_rest.
      destruct (Hs1 x Hx) as (? & ? & ?). done.
    + apply elem_of_app in Hv as [[? _]%Hl1|[? _]%Hl2]; done.
  - assert (v ∈ l1) as Hv1 by (apply elem_of_app in Hv as [?|[_ ?]%Hl2]; done).
    assert (∀ x, x ∈ p → x ∈ N ∧ x ∉ K) as Hp.
    { intros x Hx. apply Hl1. apply app_eq_inv in Heq as [(k & Hk1 & Hk2)|(k & Hk1 & Hk2)].
      - rewrite Hk1. apply elem_of_app. by left.
      - exfalso. apply HvK. apply (Hl2 v). rewrite Hk2. clear; set_solver. }
    apply dsepd_pairs. intros a b ->%elem_of_singleton [Hb Hbp]%elem_of_difference. rewrite elem_of_list_to_set in Hb.
    destruct (Hp b Hb) as [HbN HbK]. destruct (Hs1 b Hb) as (_ & Hne & Hnd). apply Hl1 in Hv1 as [HvN _].
    apply Hfirst; [done..|by apply pa_sub| |done|by apply pa_not_self|done|].
    + intros c Hc. apply Hs2 in Hc. rewrite elem_of_list_to_set in Hc. by apply Hp.
    + apply local_markov; [done|]. intros x ->%elem_of_singleton. done.
Qed.

(** ** Parent-closed sets *)
Definition restrict (E : arcset) (X : nset) : arcset := filter (λ a, a.1 ∈ X ∧ a.2 ∈ X) E.
Lemma elem_of_restrict E X u v : (u, v) ∈ restrict E X ↔ (u, v) ∈ E ∧ u ∈ X ∧ v ∈ X.
Proof. unfold restrict. rewrite elem_of_filter. cbn. tauto. Qed.
Lemma restrict_sub E X : restrict E X ⊆ E.
Proof. intros [u v]. rewrite elem_of_restrict. tauto. Qed.
Lemma restrict_over E X : over X (restrict E X).
Proof. intros u v. rewrite elem_of_restrict. tauto. Qed.

Lemma closed_rtc E X u v : (∀ a b, (a, b) ∈ E → b ∈ X → a ∈ X) → v ∈ X → rtc (edge E) u v → u ∈ X ∧ rtc (edge (restrict E X)) u v.
Proof.
  intros HX Hv Hr. induction Hr as [u|u w v Huw _ IH]; [split; [done|apply rtc_refl]|]. destruct (IH Hv) as [Hw Hr].
  assert (u ∈ X) as Hu by by eapply HX. split; [done|]. eapply rtc_l; [|exact Hr]. by apply elem_of_restrict.
Qed.

Lemma closed_reach E X C A s : (∀ a b, (a, b) ∈ E → b ∈ X → a ∈ X) → A ⊆ X → C ⊆ X → reach E C A s →
  (s.1 ∈ X → reach (restrict E X) C A s) ∧ (s.1 ∉ X → s.2 = false).
Proof.
  intros HX HA HC.
  assert (∀ v, opened E C v → v ∈ X ∧ opened (restrict E X) C v) as Ho.
  { intros v (c & Hc & Hvc). destruct (closed_rtc E X v c) as [Hv Hr]; [done|by apply HC|done|]. split; [done|]. by exists c. }
  revert s. apply reach_ind.
  { intros a Ha. cbn. split; [intros _; by apply reach_start|]. intros Hn. by apply HA in Ha. }
  intros [v dir] [w dir'] _ [IH1 IH2] Hst. cbn [fst snd] in *. unfold bstep in Hst. destruct dir'; destruct Hst as [Hwv Hst].
  - assert (v ∈ X) as Hv.
    { destruct (decide (v ∈ X)) as [|Hv]; [done|]. rewrite (IH2 Hv) in Hst. by apply Ho in Hst as [? _]. }
    assert (w ∈ X) as Hw by by eapply HX.
    split; [|done]. intros _. eapply reach_step; [by apply IH1|]. unfold bstep. split; [by apply elem_of_restrict|].
    destruct dir; [done|]. by apply Ho.
  - split; [|done]. intros Hw. assert (v ∈ X) as Hv by by eapply HX. eapply reach_step; [by apply IH1|].
    unfold bstep. split; [by apply elem_of_restrict|done].
Qed.

Lemma closed_sep E X A B C : acyclic E → (∀ a b, (a, b) ∈ E → b ∈ X → a ∈ X) → A ⊆ X → B ⊆ X → C ⊆ X → A ## C →
  dsepd E A B C ↔ dsepd (restrict E X) A B C.
Proof.
  intros Hac HX HA HB HC Hd. split; [by apply dsepd_sub; [|apply restrict_sub|]|].
  assert (acyclic (restrict E X)) as Hac' by (eapply acyclic_mono; [apply restrict_sub|done]).
  rewrite !dsepd_reach by done. intros H x dir Hx Hr. apply (H x dir Hx).
  apply (closed_reach E X C A (x, dir)) in Hr as [Hr _]; [|done..]. apply Hr. by apply HB.
Qed.

(** ** The four operations *)
Section ops.
  Context (N : nset) (H G : arcset) (HacH : acyclic H) (HacG : acyclic G) (HoH : over N H) (HoG : over N G) (Hi : imap N H G).
  Context (y : node) (HyN : y ∈ N) (Hsink : ∀ v, (y, v) ∉ H).

  Lemma sink_pair a b C : y ∉ C → a ∈ N → b ∈ N → C ⊆ N → a ≠ b → a ∉ C → b ∉ C → dsepd H {[a]} {[b]} C → dsepd G {[a]} {[b]} C.
  Proof. intros. by apply Hi; [apply one_sub|apply one_sub| |apply one_disj3|]. Qed.

  Lemma adj_parent u : adjacent G y u → (u, y) ∈ H.
  Proof. intros Hu. apply (imap_adjacent N H G) in Hu as [Hu|Hu]; [by apply Hsink in Hu|done..]. Qed.

  Lemma spouse_parent u c : u ≠ y → (y, c) ∈ G → (u, c) ∈ G → (u, y) ∈ H.
  Proof.
    intros Hu Hyc Huc. destruct (decide ((u, y) ∈ H)) as [|Hn]; [done|]. exfalso.
    assert ((c, y) ∈ H) as Hcy by (apply adj_parent; by left).
    assert (u ≠ c) as Huc' by (intros ->; by apply (acyclic_irr G c)). assert (y ≠ c) as Hyc' by (intros ->; by apply (acyclic_irr G c)).
    apply (trip_not_separated G y c u (pa H y)).
    - repeat (apply NoDup_cons; split; [set_solver|]). by apply NoDup_nil.
    - by left.
    - by right.
    - split; [|by intros []]. intros _. exists c. split; [by apply elem_of_pa|apply rtc_refl].
    - assert (u ∉ pa H y) by by rewrite elem_of_pa.
      apply Hi; [by apply one_sub|apply one_sub; by apply HoG in Huc as []|by apply pa_sub|apply one_disj3; [done|by apply pa_not_self|done]|].
      apply local_markov; [done|]. intros v ->%elem_of_singleton. split; [done|]. split; [done|].
      intros Htc. apply tc_first in Htc as (w & Hw). by apply Hsink in Hw.
  Qed.

  (** The Markov statement of [y] holds in every graph whose blanket of [y] is
      inside the parents of [y]. *)
  Lemma sink_statement G' : acyclic G' → (∀ u, adjacent G' y u → (u, y) ∈ H) →
    (∀ u c, u ≠ y → (y, c) ∈ G' → (u, c) ∈ G' → (u, y) ∈ H) → dsepd G' {[y]} (nondesc_rest N H y) (pa H y).
  Proof.
    intros Hac' H1 H2.
    set (M := filter (λ u, adjacent G' u y ∨ set_Exists (λ c, (y, c) ∈ G' ∧ (u, c) ∈ G') N) (pa H y)).
    set (M' := filter (λ u, u ≠ y ∧ (adjacent G' u y ∨ set_Exists (λ c : arc, c.1 = y ∧ (u, c.2) ∈ G') G')) (pa H y)).
    assert (∀ u, u ∈ M' ↔ u ≠ y ∧ (adjacent G' u y ∨ ∃ c, (y, c) ∈ G' ∧ (u, c) ∈ G')) as HM.
    { intros u. unfold M'. rewrite elem_of_filter, elem_of_pa. split.
      - intros [[Hu [Ha|([? c] & Hc & Hc1 & Hc2)]] _]; cbn in *; [tauto|]. subst. split; [done|]. right. by exists c.
      - intros [Hu [Ha|(c & Hc1 & Hc2)]].
        + split; [by split; [|left]|]. apply H1. by apply adjacent_sym.
        + split; [|by eapply H2]. split; [done|]. right. by exists (y, c). }
    assert (M' ⊆ pa H y) as Hsub. { unfold M'. intros u. rewrite elem_of_filter. tauto. }
    pose proof (pa_not_self H y HacH) as Hyp.
    replace (pa H y) with (M' ∪ pa H y ∖ M') by (symmetry; by apply union_difference_L).
    apply dsepd_weak; [done|apply one_disj; set_solver|apply one_disj; set_solver|].
    apply (blanket G' Hac' y _ M' HM). intros u Hu. apply elem_of_union in Hu as [Hu|Hu].
    - apply elem_of_nondesc_rest in Hu as (_ & Hu1 & Hu2 & _). split; [done|]. intros Hu. by apply Hu2, Hsub.
    - apply elem_of_difference in Hu as [Hu1 Hu2]. split; [|done]. by intros ->.
  Qed.

  Lemma only_y (K : nset) : (∀ u v, u ∈ ({[y]} : nset) → (u, v) ∈ H → v ∈ ({[y]} : nset)).
  Proof. intros u v ->%elem_of_singleton Hv. by apply Hsink in Hv. Qed.

  Lemma op_reduce G' : acyclic G' → (∀ u, adjacent G' y u → (u, y) ∈ H) →
    (∀ u c, u ≠ y → (y, c) ∈ G' → (u, c) ∈ G' → (u, y) ∈ H) →
    (∀ a b C, a ∈ N → a ≠ y → b ∈ N → b ≠ y → C ⊆ N → y ∉ C → a ≠ b → a ∉ C → b ∉ C →
       dsepd H {[a]} {[b]} C → dsepd G' {[a]} {[b]} C) → imap N H G'.
  Proof.
    intros Hac' H1 H2 Hp. apply (imap_last N H G' {[y]}); [done|done|done|by apply only_y| |].
    - intros v ->%elem_of_singleton _. by apply sink_statement.
    - intros a b C Ha1 Ha2 Hb1 Hb2 HC1 HC2 Hab HaC HbC Hs. rewrite elem_of_singleton in Ha2, Hb2. apply Hp; [done..| |done|done|done|done].
      intros Hy. apply (HC2 y Hy). by apply elem_of_singleton.
  Qed.

  (** Step 4: [y] has no children in either graph. *)
  Lemma op_sink x : (∀ v, (y, v) ∉ G) → (x, y) ∈ H → acyclic ({[(x, y)]} ∪ G) ∧ imap N H ({[(x, y)]} ∪ G).
  Proof.
    intros HsG Hxy. assert (x ≠ y) as Hne by (intros ->; by apply (Hsink y)).
    assert (acyclic ({[(x, y)]} ∪ G)) as Hac'.
    { intros v Hv. apply tc_add_arc in Hv as [Hv|[Hv1 Hv2]]; [by apply HacG in Hv|].
      assert (rtc (edge G) y x) as Hyx by by etrans. apply rtc_inv in Hyx as [?|(w & Hw & _)]; [done|]. by apply HsG in Hw. }
    split; [done|]. apply op_reduce; [done|..].
    - intros u [Hu|Hu].
      + apply elem_of_union in Hu as [[= <- ->]%elem_of_singleton|Hu]; [done|]. by apply HsG in Hu.
      + apply elem_of_union in Hu as [[= ->]%elem_of_singleton|Hu]; [done|]. apply adj_parent. by right.
    - intros u c Hu Hyc. apply elem_of_union in Hyc as [[= <- ->]%elem_of_singleton|Hc]; [done|by apply HsG in Hc].
    - intros a b C Ha1 Ha2 Hb1 Hb2 HC1 HC2 Hab HaC HbC Hs.
      assert (∀ E, (∀ v, (y, v) ∉ E) → over N E → ∀ u v, (u, v) ∈ E → v ∈ N ∖ {[y]} → u ∈ N ∖ {[y]}) as Hcl.
      { intros E HE HoE u v Huv [Hv _]%elem_of_difference. apply elem_of_difference. split; [by apply HoE in Huv as []|].
        intros ->%elem_of_singleton. by apply HE in Huv. }
      assert (over N ({[(x, y)]} ∪ G)) as Ho'.
      { intros u v [[= -> ->]%elem_of_singleton|Huv]%elem_of_union; [by apply HoH|by apply HoG]. }
      assert (∀ v, (y, v) ∉ {[(x, y)]} ∪ G) as Hs'.
      { intros v [[= <- ->]%elem_of_singleton|Hv]%elem_of_union; [done|by apply HsG in Hv]. }
      assert (∀ w, w ∈ N → w ≠ y → {[w]} ⊆ N ∖ {[y]}) as H1 by (intros w Hw1 Hw2; apply one_sub; apply elem_of_difference; by rewrite elem_of_singleton).
      assert (C ⊆ N ∖ {[y]}) as HC.
      { intros c Hc. apply elem_of_difference. split; [by apply HC1|]. intros ->%elem_of_singleton. done. }
      apply (closed_sep _ (N ∖ {[y]})); [done|by apply Hcl|by apply H1|by apply H1|done|by apply one_disj|].
      assert (restrict ({[(x, y)]} ∪ G) (N ∖ {[y]}) = restrict G (N ∖ {[y]})) as ->.
      { apply set_eq. intros [u v]. rewrite !elem_of_restrict, elem_of_union, elem_of_singleton. split; [|tauto].
        intros ([[= -> ->]|?] & ? & Hv); [|tauto]. exfalso. apply elem_of_difference in Hv as [_ Hv]. apply Hv. by apply elem_of_singleton. }
      apply closed_sep; [done|by apply Hcl|by apply H1|by apply H1|done|by apply one_disj|]. by apply sink_pair.
  Qed.

  (** Step 6: a covered arc [y -> z] is reversed. *)
  Lemma op_flip z : covered G y z → acyclic (flip_arc G y z) ∧ imap N H (flip_arc G y z).
  Proof.
    intros Hcov. split; [by apply flip_acyclic|]. intros A B C HA HB HC Hd Hs.
    apply (covered_flip_seps N G y z); [done..|]. by apply Hi.
  Qed.

  (** Step 7: [x] is a parent of a child [z] of [y]. *)
  Lemma op_addparent x z d : x ≠ y → (x, z) ∈ G → (y, z) ∈ G → (∀ c, (y, c) ∈ G → ¬ tc (edge G) c z) →
    highest H (tc (edge G) y) d → rtc (edge G) z d →
    acyclic ({[(x, y)]} ∪ G) ∧ imap N H ({[(x, y)]} ∪ G).
  Proof.
    intros Hne Hxz Hyz Htop Hd Hzd.
    assert (acyclic ({[(x, y)]} ∪ G)) as Hac'.
    { intros v Hv. apply tc_add_arc in Hv as [Hv|[Hv1 Hv2]]; [by apply HacG in Hv|].
      assert (rtc (edge G) y x) as Hyx by by etrans. apply rtc_inv in Hyx as [?|(c & Hc & Hcx)]; [done|].
      apply (Htop c Hc). eapply tc_rtc_l; [exact Hcx|]. by apply tc_once. }
    split; [done|]. assert ((x, y) ∈ H) as HxyH by by eapply spouse_parent.
    apply op_reduce; [done|..].
    - intros u [Hu|Hu].
      + apply elem_of_union in Hu as [[= <- ->]%elem_of_singleton|Hu]; [done|]. apply adj_parent. by left.
      + apply elem_of_union in Hu as [[= ->]%elem_of_singleton|Hu]; [done|]. apply adj_parent. by right.
    - intros u c Hu Hyc Huc. apply elem_of_union in Hyc as [[= <- ->]%elem_of_singleton|Hyc]; [done|].
      apply elem_of_union in Huc as [[= -> ->]%elem_of_singleton|Huc]; [done|]. by eapply spouse_parent.
    - intros a b C Ha1 Ha2 Hb1 Hb2 HC1 HC2 Hab HaC HbC Hs.
      by apply (addparent_sep N H G HacH HacG HoH HoG Hi y Hsink x z d).
  Qed.

  (** Step 8: [x] is a parent of [y] and [z] a child. *)
  Lemma op_shortcut x z : (x, y) ∈ G → (y, z) ∈ G →
    acyclic ({[(x, z)]} ∪ G) ∧ imap N H ({[(x, z)]} ∪ G).
  Proof.
    intros Hxy Hyz.
    assert (acyclic ({[(x, z)]} ∪ G)) as Hac'.
    { intros v Hv. apply tc_add_arc in Hv as [Hv|[Hv1 Hv2]]; [by apply HacG in Hv|].
      apply (HacG x). eapply tc_l; [exact Hxy|]. eapply tc_rtc_r; [apply tc_once; exact Hyz|]. by etrans. }
    split; [done|]. apply op_reduce; [done|..].
    - intros u [Hu|Hu].
      + apply elem_of_union in Hu as [[= <- <-]%elem_of_singleton|Hu]; [by apply acyclic_irr in Hxy|]. apply adj_parent. by left.
      + apply elem_of_union in Hu as [[= -> <-]%elem_of_singleton|Hu]; [by apply acyclic_irr in Hyz|]. apply adj_parent. by right.
    - intros u c Hu Hyc Huc. apply elem_of_union in Hyc as [[= <- ->]%elem_of_singleton|Hyc]; [by apply acyclic_irr in Hxy|].
      apply elem_of_union in Huc as [[= -> ->]%elem_of_singleton|Huc]; [apply adj_parent; by right|]. by eapply spouse_parent.
    - intros a b C Ha1 Ha2 Hb1 Hb2 HC1 HC2 Hab HaC HbC Hs.
      apply sink_pair in Hs; [|done..]. rewrite dsepd_reach in * by (done || by apply one_disj).
      intros v dir Hv Hr. apply (Hs v dir Hv). by apply (shortcut_reach G C x y z).
  Qed.
End ops.

(** ** Common sinks *)
Section sinks.
  Context (N : nset) (H G : arcset) (HacH : acyclic H) (HacG : acyclic G) (HoH : over N H) (HoG : over N G).
  Context (R : nset) (HR : common_sinks N G H R).
  Notation X := (N ∖ R).

  Lemma sinks_closed E : over N E → (∀ u v, u ∈ R → (u, v) ∈ E → v ∈ R) → ∀ u v, (u, v) ∈ E → v ∈ X → u ∈ X.
  Proof.
    intros HoE HE u v Huv [Hv HvR]%elem_of_difference. apply elem_of_difference. split; [by apply HoE in Huv as []|].
    intros HuR. by apply HvR, (HE u v).
  Qed.

  Lemma sinks_restrict : imap N H G → imap X (restrict H X) (restrict G X).
  Proof.
    intros Hi A B C HA HB HC Hd Hs. destruct HR as [HRN HRc].
    assert (X ⊆ N) as HXN by (clear; set_solver).
    apply closed_sep; [done|apply sinks_closed; [done|]|done|done|done|by apply Hd|].
    { intros u v Hu. by apply HRc. }
    apply Hi; [by etrans|by etrans|by etrans|done|].
    apply closed_sep in Hs; [done|done|apply sinks_closed; [done|]|done|done|done|by apply Hd].
    intros u v Hu. by apply HRc.
  Qed.

  Lemma sinks_lift G' : acyclic G' → over N G' → (∀ u v, u ∈ R → (u, v) ∈ G' → v ∈ R) →
    (∀ p r, r ∈ R → (p, r) ∈ G' ↔ (p, r) ∈ H) → imap X (restrict H X) (restrict G' X) → imap N H G'.
  Proof.
    intros Hac' Ho' Hc' Hp' Hi. destruct HR as [HRN HRc].
    assert (∀ u v, u ∈ R → (u, v) ∈ H → v ∈ R) as HcH by (intros u v Hu; by apply HRc).
    apply (imap_last N H G' R); [done|done|done|done|..].
    - intros v Hv HvN. replace (pa H v) with (pa G' v) by (apply set_eq; intros p; rewrite !elem_of_pa; by apply Hp').
      apply local_markov; [done|]. intros x (Hx1 & Hx2 & Hx3 & Hx4)%elem_of_nondesc_rest. split; [done|].
      rewrite elem_of_pa in Hx3. split; [by rewrite elem_of_pa, Hp'|]. intros Htc. apply Hx4.
      clear -Htc Hv Hc' Hp'. induction Htc as [v x Hvx|v w x Hvw _ IH].
      + apply tc_once. apply Hp'; [by eapply Hc'|done].
      + assert (w ∈ R) by by eapply Hc'. eapply tc_l; [by apply Hp'|by apply IH].
    - intros a b C Ha1 Ha2 Hb1 Hb2 HC1 HC2 Hab HaC HbC Hs.
      assert (∀ w, w ∈ N → w ∉ R → {[w]} ⊆ X) as H1 by (intros w Hw1 Hw2; apply one_sub; by apply elem_of_difference).
      assert (C ⊆ X) as HC by (intros c Hc; apply elem_of_difference; split; [by apply HC1|by apply HC2]).
      apply (closed_sep _ X); [done|by apply sinks_closed|by apply H1|by apply H1|done|by apply one_disj|].
      apply Hi; [by apply H1|by apply H1|done|by apply one_disj3|].
      apply closed_sep; [done|by apply sinks_closed|by apply H1|by apply H1|done|by apply one_disj|done].
  Qed.
End sinks.
