(** Both variants of [marginal_mag] build the graph of inducing walks. *)
From Verif Require Import Py Spec SpecDsep SpecMixed DagModel DsepModel UGraphModel PdagModel CompareModel InterveneModel AncestralModel MsepModel MargModel
  TopoProofs StateProofs ReachProofs OrderProofs QueryProofs WalkProofs DsepProofs UGraphProofs PdagProofs AncestralState AncestralProofs AncestralCopy
  MWalkProofs MsepProofs InduceProofs MagModel MagProofs MaxProofs MargProofs PropertiesDag PropertiesAncestral.

Definition dmix (E : arcset) : mixed := Mixed E ∅ ∅.
Lemma dmix_sp E x y : ¬ spouse (dmix E) x y.
Proof. intros [H|H]; by apply not_elem_of_empty in H. Qed.
Lemma dmix_ne E x y : ¬ neighbor (dmix E) x y.
Proof. intros [H|H]; by apply not_elem_of_empty in H. Qed.
Lemma dmix_simple E : acyclic E → simple (dmix E).
Proof.
  intros Ha. assert (∀ x y, (x, y) ∈ E → (y, x) ∉ E) as Hc.
  { intros x y H H'. apply (acyclic_rtc E x y Ha H). by apply rtc_once. }
  split.
  - intros x [H|[H|[H|H]]]; [by apply (Hc x x)..|by apply dmix_sp in H|by apply dmix_ne in H].
  - intros x y H. split; [by apply Hc|]. split; [apply dmix_sp|apply dmix_ne].
  - intros x y H. by apply dmix_sp in H.
Qed.
Lemma dmix_separate E : separate (dmix E).
Proof. intros x y z _ H. by apply dmix_ne in H. Qed.
Lemma dmix_dsepd E A B C : dsepd E A B C ↔ msepd (dmix E) A B C.
Proof.
  assert (∀ a b, madj (dmix E) a b ↔ adjacent E a b) as Hadj.
  { intros a b. unfold madj, adjacent. pose proof (dmix_sp E a b). pose proof (dmix_ne E a b). cbn. tauto. }
  assert (∀ a b c, mcollider (dmix E) a b c ↔ collider E a b c) as Hcol.
  { intros a b c. unfold mcollider, collider, into. pose proof (dmix_sp E a b). pose proof (dmix_sp E c b). cbn. tauto. }
  assert (∀ a b l, mpath (dmix E) C a b l ↔ active_path E C a b l) as Hp.
  { intros a b l. unfold mpath, active_path, mtrail, trail, mactive, active, mactive_at, active_at. cbn [mx_dir dmix].
    setoid_rewrite Hadj. setoid_rewrite Hcol. done. }
  unfold dsepd, msepd. by setoid_rewrite Hp.
Qed.

(** The graph that joins observed nodes with an inducing walk. *)
Record marg (N : nset) (E : arcset) (L : nset) (h : ag) : Prop := Marg {
  marg_ok : gok h;
  marg_nodes : g_nodes h = N ∖ L;
  marg_un : g_un h = ∅;
  marg_edge : ∀ x y k m, medge (gmix h) x y k m ↔
    x ∉ L ∧ y ∉ L ∧ x ≠ y ∧ ip (dmix E) L x y ∧ k = lab (dmix E) x y ∧ m = lab (dmix E) y x
}.
Lemma marg_unique N E L h h' : marg N E L h → marg N E L h' →
  g_nodes h = g_nodes h' ∧ g_dir h = g_dir h' ∧ g_bi h = g_bi h' ∧ g_un h = g_un h'.
Proof.
  intros H H'. assert (∀ x y k m, medge (gmix h) x y k m ↔ medge (gmix h') x y k m) as He.
  { intros. by rewrite (marg_edge _ _ _ _ H), (marg_edge _ _ _ _ H'). }
  split_and!.
  - by rewrite (marg_nodes _ _ _ _ H), (marg_nodes _ _ _ _ H').
  - apply set_eq. intros [x y]. apply (He x y true false).
  - apply set_eq. intros [x y].
    assert (∀ g g' : ag, gok g → gok g' → (∀ x y, spouse (gmix g) x y → spouse (gmix g') x y) → (x, y) ∈ g_bi g → (x, y) ∈ g_bi g') as Hgo.
    { clear. intros g g' Hg Hg' Hs H. assert (x < y) as Hlt by by apply (gok_bilt _ Hg).
      assert (upair x y = (x, y)) as E by (by apply (upair_id (x, y))). rewrite <-E. apply spouse_upair; [done|]. apply Hs. by left. }
    split; apply Hgo; try apply H; try apply H'; intros a b Hab; by apply (He a b false false).
  - by rewrite (marg_un _ _ _ _ H), (marg_un _ _ _ _ H').
Qed.

Section marg.
  Context (E : arcset) (L : nset) (Ha : acyclic E).
  Notation G := (dmix E).
  Notation lb := (lab (dmix E)).
  Let Hun : ∀ u v, ¬ neighbor G u v := dmix_ne E.

  Lemma ip_nodes (N : nset) x y : over N E → ip G L x y → x ∈ N ∧ y ∈ N.
  Proof using.
    intros HE. assert (∀ u v k m, medge G u v k m → u ∈ N ∧ v ∈ N) as Hn.
    { intros u v [] [] H; cbn in H; [by apply dmix_ne in H| | |by apply dmix_sp in H]; by apply HE in H as [? ?]. }
    intros (k & m & v & m1 & He & _ & Hr). split; [by apply Hn in He as [? _]|].
    assert ((v, m1).1 ∈ N) as Hv by (by apply Hn in He as [_ ?]).
    assert (∀ s, rtc (ip_step G L x y) (v, m1) s → s.1 ∈ N) as Hgo.
    { intros s Hs. refine (rtc_ind_r (λ s, s.1 ∈ N) (v, m1) Hv _ s Hs). intros s1 s2 _ (k' & He' & _) _. by apply Hn in He' as [_ ?]. }
    by apply (Hgo (y, m)).
  Qed.
  Lemma ip_no_sep x y C : C ## L → x ∉ C → ip G L x y → ¬ msepd G {[x]} {[y]} C.
  Proof using Ha.
    intros HC Hx Hip. rewrite msepd_reach; [|by apply dmix_simple|by apply dmix_separate|set_solver].
    intros H. apply (H x y); [set_solver..|]. by eapply ip_mconn.
  Qed.
  Lemma test_sep x y C : x ≠ y →
    (∀ v, v ∈ C ↔ (tc (edge E) v x ∨ tc (edge E) v y) ∧ v ≠ x ∧ v ≠ y ∧ v ∉ L) → ¬ ip G L x y → msepd G {[x]} {[y]} C.
  Proof using Ha.
    intros Hne HC Hip. rewrite msepd_reach; [|by apply dmix_simple|by apply dmix_separate|].
    - intros a b ->%elem_of_singleton ->%elem_of_singleton Hr. apply Hip. by eapply test_ip.
    - intros v ->%elem_of_singleton Hv. apply HC in Hv. tauto.
  Qed.

  (** *** Consequences *)
  Context (N : nset) (h : ag) (Hm : marg N E L h).
  Notation H := (gmix h).
  Lemma m_HK x y k m : x ∉ L → y ∉ L → x ≠ y → ip G L x y → anc_mark G x y k → anc_mark G y x m → medge H x y k m.
  Proof using Hm. intros. apply (marg_edge _ _ _ _ Hm). split_and!; try done; by apply mark_lab. Qed.
  Lemma m_Hedge x y k m : medge H x y k m → ip G L x y ∧ anc_mark G x y k ∧ anc_mark G y x m.
  Proof using Hm. intros (_ & _ & _ & Hip & -> & ->)%(marg_edge _ _ _ _ Hm). split; [done|]. split; apply lab_mark. Qed.
  Lemma m_adj x y : madj H x y ↔ x ∉ L ∧ y ∉ L ∧ x ≠ y ∧ ip G L x y.
  Proof using Hm.
    rewrite madj_medge. setoid_rewrite (marg_edge _ _ _ _ Hm). split.
    - intros (k & m & ? & ? & ? & ? & _). done.
    - intros (? & ? & ? & ?). exists (lb x y), (lb y x). done.
  Qed.
  Lemma m_tc x y : tc (edge (mx_dir H)) x y ↔ x ∉ L ∧ y ∉ L ∧ tc (edge E) x y.
  Proof using Ha Hm.
    split.
    - intros Hr. assert (tc (edge E) x y) as Ht.
      { induction Hr as [x y Hxy|x z y Hxy _ IH].
        - destruct (m_Hedge x y true false Hxy) as (_ & Hk & _). by apply Hk.
        - destruct (m_Hedge x z true false Hxy) as (_ & Hk & _). etrans; [by apply Hk|done]. }
      split_and!; [| |done].
      + destruct Hr as [x y Hxy|x z y Hxy _]; by apply (marg_edge _ _ _ _ Hm x _ true false) in Hxy as (? & _).
      + apply tc_flip in Hr. destruct Hr as [x y Hxy|y z x Hxy _]; by apply (marg_edge _ _ _ _ Hm _ _ true false) in Hxy as (_ & ? & _).
    - intros (Hx & Hy & Ht). by apply (H_tc G L Ha Hun H m_HK).
  Qed.
  Lemma m_ancestral : ancestral H.
  Proof using Ha Hm.
    split.
    - intros x Hx. apply m_tc in Hx as (_ & _ & Hx). by apply (Ha x).
    - intros x y Hs Hr. apply (marg_edge _ _ _ _ Hm x y false false) in Hs as (_ & _ & Hne & _ & Hl & _).
      apply rtc_tc in Hr as [?|Hr]; [done|]. apply m_tc in Hr as (_ & _ & Hr). apply (lab_mark G) in Hr. congruence.
  Qed.
  Lemma m_msepd A B C : A ## L → B ## L → C ## L → A ## C → msepd G A B C ↔ msepd H A B C.
  Proof using Ha Hm.
    intros HA HB HC HAC. rewrite !msepd_reach; try done; [|by apply gmix_simple, Hm|by apply gmix_separate, Hm|by apply dmix_simple|by apply dmix_separate].
    split; intros Hs a b Hia Hib Hr; apply (Hs a b Hia Hib).
    - by apply (marg_sound G L Ha C HC H m_Hedge).
    - apply (marg_complete G L Ha Hun C HC H m_HK); [set_solver..|done].
  Qed.
End marg.

(** Walks can be searched. *)
Global Instance opened_decision E C v : Decision (opened E C v).
Proof.
  destruct (decide (Exists (λ c, v = c ∨ reachb E v c = true) (elements C))) as [H|H]; [left|right].
  - apply Exists_exists in H as (c & Hc & Hv). exists c. split; [by apply elem_of_elements|].
    destruct Hv as [->|Hv]; [apply rtc_refl|]. by apply tc_rtc, reachb_spec.
  - intros (c & Hc & Hv). apply H, Exists_exists. exists c. split; [by apply elem_of_elements|].
    apply rtc_tc in Hv as [?|Hv]; [by left|right]. by apply reachb_spec.
Defined.
Global Instance medge_dec G v w k m : Decision (medge G v w k m).
Proof. destruct k, m; unfold medge, spouse, neighbor; apply _. Defined.
Global Instance mpass_dec D C v m k : Decision (pass D C v m k).
Proof. unfold pass. destruct (m || k); apply _. Defined.
Global Instance mstep_dec G C : RelDecision (mstep G C).
Proof.
  intros s t. destruct (decide (medge G s.1 t.1 true t.2 ∧ pass (mx_dir G) C s.1 s.2 true)) as [H|H]; [left; by exists true|].
  destruct (decide (medge G s.1 t.1 false t.2 ∧ pass (mx_dir G) C s.1 s.2 false)) as [H'|H']; [left; by exists false|].
  right. intros ([] & Hk); tauto.
Defined.
Lemma rtc_decide {X} `{Countable X} (R : relation X) `{!RelDecision R} (U : gset X) s x :
  (∀ a b, R a b → b ∈ U) → rtc R s x ∨ ¬ rtc R s x.
Proof.
  intros HU. set (V := {[s]} ∪ U). set (nxt := λ a, filter (λ b, R a b) U).
  assert (∀ a b, b ∈ nxt a ↔ R a b) as Hn. { intros a b. unfold nxt. rewrite elem_of_filter. split; [tauto|]. intros Hab. split; [done|by eapply HU]. }
  assert (∀ a b, rtc (λ a b, b ∈ nxt a) a b ↔ rtc R a b) as Hr by (intros; by apply rtc_iff).
  destruct (worklist_spec popper0 (λ y, bool_decide (y = x)) nxt V) with (fuel := S (size V * (size V + 1) + size ({[s]} : gset X))) (sched := ({[s]} : gset X))
    (visited := (∅ : gset X)) as (b & _ & H1 & H2).
  - intros a _ b Hb. apply Hn, HU in Hb. unfold V. set_solver.
  - unfold V. set_solver.
  - rewrite difference_empty_L. lia.
  - intros y Hy. by apply not_elem_of_empty in Hy.
  - destruct b.
    + right. intros Hsx. destruct (H2 eq_refl) as (W & HW & HWc). apply Hr in Hsx.
      assert (x ∈ W) as Hx. { refine (rtc_ind_r (λ y, y ∈ W) s _ _ x Hsx); [set_solver|]. intros y z _ Hyz Hy. by apply (HWc y Hy). }
      destruct (HWc x Hx) as [Hst _]. by case_bool_decide.
    + left. destruct (H1 eq_refl) as (s' & x' & ->%elem_of_singleton & Hsx & Hst). apply bool_decide_eq_true in Hst as ->. by apply Hr.
Qed.
Lemma mreach_dec N E C a b : over N E → mreach (dmix E) C a b ∨ ¬ mreach (dmix E) C a b.
Proof.
  intros HE. assert (∀ m, rtc (mstep (dmix E) C) (a, true) (b, m) ∨ ¬ rtc (mstep (dmix E) C) (a, true) (b, m)) as Hd.
  { intros m. apply (rtc_decide _ (with_dir true N ∪ with_dir false N)). intros s [w mw] (k & He & _). cbn [fst snd] in He.
    assert (w ∈ N). { destruct k, mw; cbn in He; [by apply dmix_ne in He| | |by apply dmix_sp in He]; apply HE in He; tauto. }
    rewrite elem_of_union, !elem_of_with_dir. destruct mw; tauto. }
  destruct (Hd true) as [?|H1]; [left; by eexists|]. destruct (Hd false) as [?|H2]; [left; by eexists|].
  right. intros [[] ?]; done.
Qed.

(** ** [new=True] *)
Section new.
  Context (N : nset) (E : arcset) (L : nset) (Ha : acyclic E) (HE : over N E).
  Notation G := (dmix E).
  Notation lb := (lab (dmix E)).

  (** States of the loop. *)
  Record minv (h : ag) : Prop := MInv {
    mi_ok : gok h;
    mi_nodes : g_nodes h = N;
    mi_un : g_un h = ∅;
    mi_sub : ∀ x y k m, medge G x y k m → medge (gmix h) x y k m;
    mi_edge : ∀ x y k m, medge (gmix h) x y k m → ip G L x y ∧ k = lb x y ∧ m = lb y x
  }.
  Definition joined (h : ag) (x y : node) : Prop := ip G L x y → medge (gmix h) x y (lb x y) (lb y x).

  Lemma minv_msepd h C i j : minv h → C ## L → i ∉ C → msepd (gmix h) {[i]} {[j]} C ↔ msepd G {[i]} {[j]} C.
  Proof using Ha.
    intros Hi HC Hx. assert (({[i]} : nset) ## C) as HiC by (clear -Hx; set_solver).
    rewrite !msepd_reach; try done; [|by apply dmix_simple|by apply dmix_separate|by apply gmix_simple, Hi|by apply gmix_separate, Hi].
    assert (∀ x y k m, medge (gmix h) x y k m → ip G L x y ∧ anc_mark G x y k ∧ anc_mark G y x m) as Hedge.
    { intros x y k m (Hip & -> & ->)%(mi_edge _ Hi). split; [done|]. split; apply lab_mark. }
    split; intros Hs a b H1 H2 Hr; apply (Hs a b H1 H2).
    - destruct Hr as [m Hr]. exists m. eapply (rtc_congruence id); [|exact Hr]. intros s t (k & He & Hp). exists k. cbn [id].
      split; [by apply (mi_sub _ Hi)|]. unfold pass in *. destruct (s.2 || k); [done|]. destruct Hp as (c & Hc & Hr'). exists c. split; [done|].
      eapply (rtc_congruence id); [|exact Hr']. intros u v Huv. by apply (mi_sub _ Hi u v true false).
    - by apply (marg_sound G L Ha C HC (gmix h) Hedge).
  Qed.

  Lemma link_medge_dir i j h x y k m : gok h → gok (link_directed i j h) →
    medge (gmix (link_directed i j h)) x y k m ↔ medge (gmix h) x y k m ∨ (x, y, k, m) = (i, j, true, false) ∨ (x, y, k, m) = (j, i, false, true).
  Proof using.
    intros Hg Hg'. destruct k, m; cbn; [split; [by left|intros [?|[?|?]]; [done|congruence..]]| | |split; [by left|intros [?|[?|?]]; [done|congruence..]]].
    - rewrite elem_of_union, elem_of_singleton. split; [intros [[= -> ->]|?]; auto|intros [?|[[= -> ->]|?]]; [auto..|congruence]].
    - rewrite elem_of_union, elem_of_singleton. split; [intros [[= -> ->]|?]; auto|intros [?|[?|[= -> ->]]]; [auto|congruence|auto]].
  Qed.
  Lemma link_medge_bi i j h x y k m : gok h → gok (link_bidirected i j h) →
    medge (gmix (link_bidirected i j h)) x y k m ↔ medge (gmix h) x y k m ∨ (x, y, k, m) = (i, j, false, false) ∨ (x, y, k, m) = (j, i, false, false).
  Proof using.
    intros Hg Hg'. destruct k, m; [| | |unfold medge; rewrite !spouse_upair by done; cbn [link_bidirected g_bi]; rewrite elem_of_union, elem_of_singleton].
    1-3: split; [by left|intros [?|[?|?]]; [done|congruence..]].
    split.
    - intros [H|H]; [|by left]. apply upair_eq_or in H as [[-> ->]|[-> ->]]; auto.
    - intros [H|[[= -> ->]|[= -> ->]]]; [by right|by left|left; apply upair_comm].
  Qed.

  Lemma marg_step_spec anc o p i j h :
    minv h → i ∈ N → j ∈ N → i ≠ j → i ∉ L → j ∉ L → (∀ v, v ∈ N → ∀ x, x ∈ dget anc v ↔ tc (edge E) x v) →
    ∃ h', marg_step anc L o p (i, j) h = (h', Ok tt) ∧ minv h' ∧ joined h' i j ∧
      ∀ x y k m, medge (gmix h) x y k m → medge (gmix h') x y k m.
  Proof using Ha HE.
    intros Hi HiN HjN Hne HiL HjL Hanc. unfold marg_step. pose proof (mi_ok _ Hi) as Hg.
    destruct (has_any_edge h i j) eqn:Ea.
    { exists h. split; [done|]. split; [done|]. split; [|done]. intros _. apply has_any_edge_spec in Ea; [|done].
      apply madj_medge in Ea as (k & m & He). pose proof (mi_edge _ Hi _ _ _ _ He) as (_ & -> & ->). done. }
    assert (¬ madj (gmix h) i j) as Hna by (rewrite <-has_any_edge_spec by done; by rewrite Ea).
    set (S := (dget anc i ∪ dget anc j) ∖ {[i; j]} ∖ L).
    assert (∀ v, v ∈ S ↔ (tc (edge E) v i ∨ tc (edge E) v j) ∧ v ≠ i ∧ v ≠ j ∧ v ∉ L) as HS.
    { intros v. unfold S. rewrite !elem_of_difference, elem_of_union, !elem_of_union, !elem_of_singleton, !Hanc by done. tauto. }
    assert (i ∉ S) as HiS by (rewrite HS; tauto). assert (S ## L) as HSL by (intros v Hv; apply HS in Hv; tauto).
    destruct (msep_spec h Hg (at_call o [112; i; j]) p {[i]} {[j]} S) as (b & -> & Hb); [clear -Hne HiS; set_solver|].
    assert (({[i]} : nset) ∖ S = {[i]}) as Eq by (clear -HiS; set_solver). rewrite Eq, minv_msepd in Hb by done.
    destruct b.
    { exists h. split; [done|]. split; [done|]. split; [|done]. intros Hip. exfalso. revert Hip. intros Hip.
      eapply ip_no_sep; [exact Ha|exact HSL|exact HiS|exact Hip|by apply Hb]. }
    assert (ip G L i j) as Hip.
    { destruct (mreach_dec N E S i j HE) as [Hr|Hr]; [by apply (test_ip G L (dmix_ne E) i j S)|]. exfalso.
      assert (false = true); [|done]. apply Hb. rewrite msepd_reach; [|by apply dmix_simple|by apply dmix_separate|clear -HiS; set_solver].
      by intros a b ->%elem_of_singleton ->%elem_of_singleton. }
    assert (∀ v, g_neighbors h v = ∅) as Hnn.
    { intros v. apply elem_of_equiv_empty_L. intros w Hw. apply (gnei h Hg), neighbor_upair in Hw; [|done]. rewrite (mi_un _ Hi) in Hw.
      by apply not_elem_of_empty in Hw. }
    assert (∀ x y, ¬ madj (gmix h) x y → y ∉ g_adjacent h x) as Hadj by (intros x y Hxy Hy; apply Hxy; by apply (gadj h Hg)).
    assert (∀ x y, lb x y = true ↔ tc (edge E) x y) as Hlb by (intros; apply (lab_mark G)).
    assert (∀ x y, ¬ (tc (edge E) x y ∧ tc (edge E) y x)) as Hcy.
    { intros x y [H1 H2]. apply (Ha x). by etrans. }
    assert (∀ x y, x ≠ y → x ∈ N → y ∈ N → ¬ madj (gmix h) x y → ip G L x y → ip G L y x → lb x y = true → lb y x = false →
      ∃ h', add_directed_raw x y h = (h', Ok tt) ∧ minv h' ∧ medge (gmix h') x y true false ∧
        ∀ a b k m, medge (gmix h) a b k m → medge (gmix h') a b k m) as Hdir.
    { intros x y Hxy Hx Hy Hnxy Hip1 Hip2 L1 L2.
      destruct (add_directed_raw_spec x y h Hg Hxy) as [[-> H1]|[[-> (H1 & H2)]|[[-> (H1 & H2)]|[-> (H1 & H2 & H3)]]]].
      - exfalso. apply Hnxy. by left.
      - by rewrite Hnn in H2.
      - by apply Hadj in H2.
      - exists (link_directed x y h). split; [done|]. pose proof (λ a b k m, link_medge_dir x y h a b k m Hg H3) as Hlm. split; [split|split].
        + done.
        + cbn. rewrite (mi_nodes _ Hi). clear -Hx Hy. set_solver.
        + apply (mi_un _ Hi).
        + intros a b k m Hab. apply Hlm. left. by apply (mi_sub _ Hi).
        + intros a b k m [Hab|[[= -> -> -> ->]|[= -> -> -> ->]]]%Hlm; [by apply (mi_edge _ Hi)|auto..].
        + apply Hlm. auto.
        + intros a b k m Hab. apply Hlm. auto. }
    assert (ip G L j i) as Hip' by (by apply ip_sym).
    assert (¬ madj (gmix h) j i) as Hna' by (intros ?; by apply Hna, madj_sym).
    destruct (decide (i ∈ dget anc j)) as [Hij|Hij]; rewrite Hanc in Hij by done.
    - assert (lb j i = false) as L2. { apply not_true_iff_false. rewrite Hlb. intros ?. by apply (Hcy i j). }
      destruct (Hdir i j) as (h' & E1 & E2 & E3 & E4); [done..|by apply Hlb|done|]. exists h'. split; [done|]. split; [done|]. split; [|done].
      intros _. apply Hlb in Hij. by rewrite Hij, L2.
    - assert (lb i j = false) as L1 by (by apply not_true_iff_false; rewrite Hlb).
      destruct (decide (j ∈ dget anc i)) as [Hji|Hji]; rewrite Hanc in Hji by done.
      + destruct (Hdir j i) as (h' & E1 & E2 & E3 & E4); [done..|by apply Hlb|done|]. exists h'. split; [done|]. split; [done|]. split; [|done].
        intros _. apply Hlb in Hji. rewrite Hji, L1. by apply medge_sym.
      + assert (lb j i = false) as L2 by (by apply not_true_iff_false; rewrite Hlb).
        destruct (add_bidirected_raw_spec i j h Hg Hne) as [[-> H1]|[[-> (H1 & H2)]|[[-> (H1 & H2)]|[-> (H1 & H2 & H3)]]]].
        * exfalso. apply Hna. right. right. left. by apply spouse_upair.
        * rewrite !Hnn in H2. destruct H2; done.
        * by apply Hadj in H2.
        * exists (link_bidirected i j h). split; [done|]. pose proof (λ a b k m, link_medge_bi i j h a b k m Hg H3) as Hlm. split; [split|split].
          -- done.
          -- cbn. rewrite (mi_nodes _ Hi). clear -HiN HjN. set_solver.
          -- apply (mi_un _ Hi).
          -- intros a b k m Hab. apply Hlm. left. by apply (mi_sub _ Hi).
          -- intros a b k m [Hab|[[= -> -> -> ->]|[= -> -> -> ->]]]%Hlm; [by apply (mi_edge _ Hi)|auto..].
          -- intros _. rewrite L1, L2. apply Hlm. auto.
          -- intros a b k m Hab. apply Hlm. auto.
  Qed.

  Lemma marg_loop anc o p ps h :
    minv h → (∀ i j, (i, j) ∈ ps → i ∈ N ∖ L ∧ j ∈ N ∖ L ∧ i ≠ j) → (∀ v, v ∈ N → ∀ x, x ∈ dget anc v ↔ tc (edge E) x v) →
    ∃ h', mfor ps (marg_step anc L o p) h = (h', Ok tt) ∧ minv h' ∧ (∀ i j, (i, j) ∈ ps → joined h' i j) ∧
      ∀ x y k m, medge (gmix h) x y k m → medge (gmix h') x y k m.
  Proof using Ha HE.
    intros Hi Hps Hanc. revert h Hi. induction ps as [|[i j] ps IH]; intros h Hi.
    { exists h. split; [done|]. split; [done|]. split; [|done]. intros i j H. by apply elem_of_nil in H. }
    destruct (Hps i j) as (HiN & HjN & Hne); [apply elem_of_list_here|]. apply elem_of_difference in HiN as [HiN HiL], HjN as [HjN HjL].
    destruct (marg_step_spec anc o p i j h) as (h1 & E1 & I1 & J1 & M1); [done..|].
    destruct (IH) with (h := h1) as (h2 & E2 & I2 & J2 & M2); [intros a b Hab; apply Hps; by apply elem_of_list_further|done|].
    exists h2. cbn [mfor]. unfold mthen, mbind'. rewrite E1. split; [exact E2|]. split; [done|]. split; [|by auto].
    intros a b [[= -> ->]|Hab]%elem_of_cons; [|by apply J2]. intros Hip. by apply M2, J1.
  Qed.
End new.

(** Removal of a list of nodes. *)
Lemma remove_loop (f : node → oracle) l h : gok h →
  ∃ h', mfor l (λ n, g_remove_node (f n) n true) h = (h', Ok tt) ∧ gok h' ∧ g_nodes h' = g_nodes h ∖ list_to_set l ∧
    (g_un h = ∅ → g_un h' = ∅) ∧ ∀ x y k m, medge (gmix h') x y k m ↔ medge (gmix h) x y k m ∧ x ∉ l ∧ y ∉ l.
Proof.
  revert h. induction l as [|n l IH]; intros h Hg.
  { exists h. split; [done|]. split; [done|]. split; [cbn; set_solver|]. split; [done|]. intros. pose proof (not_elem_of_nil x). pose proof (not_elem_of_nil y). tauto. }
  assert (∃ h1, g_remove_node (f n) n true h = (h1, Ok tt) ∧ gok h1 ∧ g_nodes h1 = g_nodes h ∖ {[n]} ∧ (g_un h = ∅ → g_un h1 = ∅) ∧
    ∀ x y k m, medge (gmix h1) x y k m ↔ medge (gmix h) x y k m ∧ x ≠ n ∧ y ≠ n) as (h1 & E1 & G1 & N1 & U1 & M1).
  { destruct (g_remove_node_spec (f n) n true h Hg) as [Hok Hs]. destruct (decide (n ∈ g_nodes h)) as [Hn|Hn].
    - destruct Hs as [(HN & HD & HB & HU) Hr]. exists (g_remove_node (f n) n true h).1. split.
      { destruct (g_remove_node (f n) n true h) as [h1 r]. cbn in *. rewrite Hr. by destruct (g_adj h !! n). }
      split; [done|]. split; [done|]. split.
      { rewrite HU. intros ->. apply elem_of_equiv_empty_L. intros [x y] Hx. apply elem_of_off in Hx as [Hx _]. by apply not_elem_of_empty in Hx. }
      intros x y [] []; unfold medge; rewrite ?spouse_upair, ?neighbor_upair by done; rewrite ?HB, ?HU; [apply upair_off| | |apply upair_off];
        cbn [gmix mx_dir]; rewrite HD, elem_of_off; tauto.
    - exists h. split; [done|]. split; [done|]. split; [clear -Hn; set_solver|]. split; [done|]. intros x y k m. split; [|tauto]. intros He. split; [done|].
      assert (madj (gmix h) x y) as Ha by (apply madj_medge; by exists k, m). apply (madj_nodes h Hg) in Ha as [? ?]. split; by intros ->. }
  destruct (IH h1 G1) as (h2 & E2 & G2 & N2 & U2 & M2). exists h2. cbn [mfor]. unfold mthen, mbind'. rewrite E1.
  split; [exact E2|]. split; [done|]. split; [rewrite N2, N1; cbn; clear; set_solver|]. split; [by auto|].
  intros x y k m. rewrite M2, M1, !not_elem_of_cons. tauto.
Qed.

Lemma marginal_mag_spec d o p L : wf d → acyclic (d_arcs d) → ∃ h, marginal_mag d o p L = Ok h ∧ marg (d_nodes d) (d_arcs d) L h.
Proof.
  intros Hwf Ha. set (N := d_nodes d). set (E := d_arcs d). assert (over N E) as HE by apply Hwf.
  unfold marginal_mag. fold N E.
  assert (lmix (oa o [111] E) [] [] = dmix E) as El.
  { unfold lmix, dmix. f_equal. apply set_eq. intros e. by rewrite elem_of_list_to_set, elem_of_oa. }
  destruct (ag_make_ok N (oa o [111] E) [] []) as (g & -> & Hg & (HN & HD & HB & HU)); [rewrite El; by apply dmix_simple|rewrite El; apply dmix_separate|].
  cbn [res_bind].
  assert (g_dir g = E) as HD' by (rewrite HD; apply set_eq; intros e; by rewrite elem_of_list_to_set, elem_of_oa).
  assert (gmix g = dmix E) as Eg by (unfold gmix, dmix; by rewrite HD', HB, HU).
  assert (g_nodes g = N) as HN'.
  { rewrite HN. apply set_eq. intros x. unfold ends. rewrite !elem_of_union, !elem_of_list_to_set, !elem_of_list_fmap. cbn. setoid_rewrite elem_of_nil.
    setoid_rewrite elem_of_oa. split; [|tauto]. intros [[[[H|H]|H]|H]|?]; [..|done];
    repeat match goal with H : _ ∨ _ |- _ => destruct H as [H|H] | H : ∃ _, _ |- _ => destruct H as [? H] | H : _ ∧ _ |- _ => destruct H end; try done;
    match goal with Hx : x = _, H : ?e ∈ E |- _ => rewrite Hx; clear Hx; destruct e; apply HE in H; cbn; tauto end. }
  destruct (C68_ancestor_dict g o) as (anc & -> & Hanc); [by apply gok_ag_wf|rewrite Eg; split; [done|intros x y Hs; by apply dmix_sp in Hs]|].
  cbn [res_bind]. rewrite HD', HN' in Hanc.
  assert (minv N E L g) as Hi.
  { split; [done|done|by rewrite HU|by rewrite Eg|]. rewrite Eg. intros x y k m He. split; [apply (edge_ip _ _ (dmix_ne E) _ _ _ _ He)|].
    destruct (edge_mark (dmix E) Ha (dmix_ne E) x y k m (dmix_sp E) He). split; by apply mark_lab. }
  destruct (marg_loop N E L Ha HE anc o p (combinations2 (on o [113] (N ∖ L))) g Hi) as (h1 & E1 & I1 & J1 & _).
  { intros i j Hij. apply combinations2_ne in Hij as (Hne & Hi' & Hj'); [|apply NoDup_on]. by rewrite !elem_of_on in *. } { exact Hanc. }
  destruct (remove_loop (λ n, at_call o [115; n]) (on o [114] L) h1 (mi_ok _ _ _ _ I1)) as (h2 & E2 & G2 & N2 & U2 & M2).
  exists h2. unfold mthen, mbind'. rewrite E1, E2. split; [done|]. split.
  - done.
  - rewrite N2, (mi_nodes _ _ _ _ I1). apply set_eq. intros x. by rewrite !elem_of_difference, elem_of_list_to_set, elem_of_on.
  - by apply U2, I1.
  - intros x y k m. rewrite M2, !elem_of_on. split.
    + intros (He & Hx & Hy). destruct (mi_edge _ _ _ _ I1 _ _ _ _ He) as (Hip & -> & ->). split_and!; try done.
      intros ->. apply (simple_irr _ (gmix_simple h1 (mi_ok _ _ _ _ I1)) y). apply madj_medge. eauto.
    + intros (Hx & Hy & Hne & Hip & -> & ->). split; [|done]. destruct (ip_nodes E L N x y HE Hip) as [HxN HyN].
      destruct (combinations2_total (on o [113] (N ∖ L)) x y) as [[H _]|[H _]]; [apply NoDup_on|rewrite elem_of_on; clear -HxN Hx; set_solver|
        rewrite elem_of_on; clear -HyN Hy; set_solver|done| |].
      * by apply J1.
      * apply medge_sym. apply J1; [done|]. by apply ip_sym.
Qed.
