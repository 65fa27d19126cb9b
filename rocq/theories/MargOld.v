(** The variant [new=False] of [marginal_mag], and relabelling. *)
From Verif Require Import Py Spec SpecDsep SpecMixed DagModel DsepModel UGraphModel PdagModel CompareModel InterveneModel AncestralModel MsepModel MargModel
  TopoProofs StateProofs ReachProofs OrderProofs QueryProofs WalkProofs DsepProofs UGraphProofs PdagProofs AncestralState AncestralProofs AncestralCopy
  MWalkProofs MsepProofs InduceProofs MagModel MagProofs MaxProofs MargProofs PropertiesDag PropertiesAncestral InterveneProofs MargRun.

Section old.
  Context (d : dag) (L : nset) (Hwf : wf d) (Ha : acyclic (d_arcs d)).
  Notation N := (d_nodes d).
  Notation E := (d_arcs d).
  Notation G := (dmix E).
  Notation lb := (lab (dmix E)).

  Lemma ip_test x y : x ≠ y →
    ip G L x y ∨ ∃ C, (∀ v, v ∈ C → v ∈ N ∧ v ≠ x ∧ v ≠ y ∧ v ∉ L) ∧ dsepd E {[x]} {[y]} C.
  Proof using Hwf Ha.
    intros Hne. set (C := filter (λ v, (reachb E v x = true ∨ reachb E v y = true) ∧ v ≠ x ∧ v ≠ y ∧ v ∉ L) N : nset).
    assert (∀ v, v ∈ C ↔ (tc (edge E) v x ∨ tc (edge E) v y) ∧ v ≠ x ∧ v ≠ y ∧ v ∉ L) as HC.
    { intros v. unfold C. rewrite elem_of_filter, !reachb_spec. split; [tauto|]. intros Hv. split; [done|].
      destruct Hv as [[Ht|Ht] _]; destruct Ht as [v w Hvw|v w z Hvw _]; by apply (wf_over _ Hwf) in Hvw as [? _]. }
    destruct (mreach_dec N E C x y (wf_over _ Hwf)) as [Hr|Hr].
    - left. by apply (test_ip G L (dmix_ne E) x y C).
    - right. exists C. split; [intros v Hv; pose proof Hv as Hv'; apply elem_of_filter in Hv' as [_ ?]; apply HC in Hv; tauto|].
      apply dmix_dsepd. rewrite msepd_reach; [|by apply dmix_simple|by apply dmix_separate|].
      + by intros a b ->%elem_of_singleton ->%elem_of_singleton.
      + intros v ->%elem_of_singleton Hv. apply HC in Hv. tauto.
  Qed.
  Lemma ip_no_dsep x y C : C ## L → x ∉ C → ip G L x y → ¬ dsepd E {[x]} {[y]} C.
  Proof using Ha. intros. rewrite dmix_dsepd. by eapply ip_no_sep. Qed.

  Lemma none_dsep_spec o p i j ls :
    i ≠ j → (∀ s, s ∈ ls → i ∉ s) →
    ∃ b, none_dsep d o p i j ls = Ok b ∧ (b = true ↔ ∀ s, s ∈ ls → ¬ dsepd E {[i]} {[j]} (list_to_set s)).
  Proof using Hwf Ha.
    intros Hne. induction ls as [|s ls IH]; intros Hs.
    { exists true. split; [done|]. split; [|done]. intros _ s H. by apply elem_of_nil in H. }
    cbn [none_dsep]. assert (i ∉ s) as His by (apply Hs, elem_of_list_here).
    destruct (dsep_spec d Hwf o Ha p {[i]} {[j]} (list_to_set s)) as (b & -> & Hb).
    { intros v ->%elem_of_singleton Hv. by apply elem_of_list_to_set in Hv. }
    cbn [res_bind]. destruct b.
    - exists false. split; [done|]. split; [done|]. intros H. exfalso. apply (H s); [apply elem_of_list_here|by apply Hb].
    - destruct IH as (b & -> & Hb'); [intros t Ht; apply Hs; by apply elem_of_list_further|]. exists b. split; [done|]. rewrite Hb'. split.
      + intros H t [->|Ht]%elem_of_cons; [|by apply H]. intros Hd. by apply Hb in Hd.
      + intros H t Ht. apply H. by apply elem_of_list_further.
  Qed.
  Lemma old_test o k p i j : i ≠ j →
    ∃ b, none_dsep d o p i j (powerset (on k [117; i; j] (N ∖ {[i; j]} ∖ L)) 0) = Ok b ∧ (b = true ↔ ip G L i j).
  Proof using Hwf Ha.
    intros Hne. set (ls := powerset (on k [117; i; j] (N ∖ {[i; j]} ∖ L)) 0).
    assert (∀ s, s ∈ ls → ∀ v, v ∈ s → v ∈ N ∖ {[i; j]} ∖ L) as Hls.
    { intros s [Hs _]%elem_of_powerset v Hv. rewrite <-(elem_of_on k [117; i; j]). by eapply elem_of_submseteq, sublist_submseteq. }
    destruct (none_dsep_spec o p i j ls Hne) as (b & -> & Hb).
    { intros s Hs Hv. apply (Hls s Hs) in Hv. clear -Hv. set_solver. }
    exists b. split; [done|]. rewrite Hb. split.
    - intros H. destruct (ip_test i j Hne) as [?|(C & HC & Hd)]; [done|]. exfalso.
      apply (H (filter (λ v, v ∈ C) (on k [117; i; j] (N ∖ {[i; j]} ∖ L)))).
      + apply elem_of_powerset. split; [apply filter_sublist|lia].
      + replace (list_to_set _ : nset) with C; [done|]. apply set_eq. intros v. rewrite elem_of_list_to_set, elem_of_list_filter, elem_of_on.
        split; [|tauto]. intros Hv. split; [done|]. apply HC in Hv. clear -Hv. set_solver.
    - intros Hip s Hs. apply ip_no_dsep; [|by intros Hv%elem_of_list_to_set%(Hls s Hs); clear -Hv; set_solver|done].
      intros v Hv%elem_of_list_to_set%(Hls s Hs). clear -Hv. set_solver.
  Qed.

  Lemma marg_sets_spec o p : ∃ dir bi, marg_sets d o p L = Ok (dir, bi) ∧
    (∀ x y, (x, y) ∈ dir ↔ x ∈ N ∖ L ∧ y ∈ N ∖ L ∧ x ≠ y ∧ ip G L x y ∧ lb x y = true) ∧
    (∀ x y, (x, y) ∈ bi ∨ (y, x) ∈ bi ↔ x ∈ N ∖ L ∧ y ∈ N ∖ L ∧ x ≠ y ∧ ip G L x y ∧ lb x y = false ∧ lb y x = false).
  Proof using Hwf Ha.
    unfold marg_sets.
    set (body := λ (e : node * node) (acc : arcset * arcset), _).
    assert (∀ x y, lb x y = true ↔ tc (edge E) x y) as Hlb by (intros; apply (lab_mark G)).
    assert (∀ x y, lb x y = true → lb y x = true → False) as Hcy.
    { intros x y H1 H2. rewrite Hlb in *. apply (Ha x). by etrans. }
    assert (∀ ps acc, (∀ i j, (i, j) ∈ ps → i ≠ j) → ∃ dir bi, loopR body ps acc = Ok (dir, bi) ∧
      (∀ x y, (x, y) ∈ dir ↔ (x, y) ∈ acc.1 ∨ ((x, y) ∈ ps ∨ (y, x) ∈ ps) ∧ ip G L x y ∧ lb x y = true) ∧
      (∀ x y, (x, y) ∈ bi ↔ (x, y) ∈ acc.2 ∨ (x, y) ∈ ps ∧ ip G L x y ∧ lb x y = false ∧ lb y x = false)) as Hloop.
    { intros ps. induction ps as [|[i j] ps IH]; intros acc Hps.
      { exists acc.1, acc.2. split; [by destruct acc|]. split; intros x y; rewrite ?elem_of_nil; tauto. }
      assert (i ≠ j) as Hne by (apply Hps, elem_of_list_here).
      assert (∃ acc', body (i, j) acc = Ok acc' ∧
        (∀ x y, (x, y) ∈ acc'.1 ↔ (x, y) ∈ acc.1 ∨ ((x, y) = (i, j) ∨ (y, x) = (i, j)) ∧ ip G L x y ∧ lb x y = true) ∧
        (∀ x y, (x, y) ∈ acc'.2 ↔ (x, y) ∈ acc.2 ∨ (x, y) = (i, j) ∧ ip G L x y ∧ lb x y = false ∧ lb y x = false)) as (acc' & E1 & D1 & B1).
      { unfold body. destruct (old_test (at_call o [116; i; j]) o p i j Hne) as (b & -> & Hb). cbn [res_bind].
        assert (ip G L j i → ip G L i j) as Hsym by apply ip_sym.
        destruct b; cbn [negb].
        2:{ exists acc. split; [done|]. split; intros x y; (split; [by left|]); (intros [?|H]; [done|]); exfalso.
            - assert (false = true); [|done]. apply Hb. destruct H as ([[= -> ->]|[= -> ->]] & H & _); auto.
            - assert (false = true); [|done]. apply Hb. destruct H as ([= -> ->] & H & _); auto. }
        assert (ip G L i j) as Hip by by apply Hb. assert (ip G L j i) as Hip' by by apply ip_sym.
        destruct (is_ancestor_of_spec d o Hwf i j) as (a & -> & Hab). cbn [res_bind]. unfold ancestor in Hab. rewrite <-Hlb in Hab.
        destruct a.
        { assert (lb i j = true) as L1 by by apply Hab. eexists. split; [done|]. cbn [fst snd]. split; intros x y.
          - rewrite elem_of_union, elem_of_singleton. split; [intros [[= -> ->]|?]; auto|]. intros [?|([[= -> ->]|[= -> ->]] & _ & Hl)]; [by right|by left|].
            exfalso. by eapply Hcy.
          - split; [by left|]. intros [?|([= -> ->] & _ & Hl & _)]; [done|congruence]. }
        assert (lb i j = false) as L1 by (apply not_true_iff_false; rewrite <-Hab; done).
        destruct (is_ancestor_of_spec d o Hwf j i) as (a & -> & Hab'). cbn [res_bind]. unfold ancestor in Hab'. rewrite <-Hlb in Hab'.
        destruct a.
        { assert (lb j i = true) as L2 by by apply Hab'. eexists. split; [done|]. cbn [fst snd]. split; intros x y.
          - rewrite elem_of_union, elem_of_singleton. split; [intros [[= -> ->]|?]; auto|]. intros [?|([[= -> ->]|[= -> ->]] & _ & Hl)]; [by right| |by left].
            congruence.
          - split; [by left|]. intros [?|([= -> ->] & _ & _ & Hl)]; [done|congruence]. }
        assert (lb j i = false) as L2 by (apply not_true_iff_false; rewrite <-Hab'; done).
        eexists. split; [done|]. cbn [fst snd]. split; intros x y.
        - split; [by left|]. intros [?|([[= -> ->]|[= -> ->]] & _ & Hl)]; [done|congruence..].
        - rewrite elem_of_union, elem_of_singleton. split; [intros [[= -> ->]|?]; auto|]. intros [?|([= -> ->] & _)]; auto. }
      destruct (IH acc') as (dir & bi & E2 & D2 & B2); [intros a b Hab; apply Hps; by apply elem_of_list_further|].
      exists dir, bi. cbn [loopR]. rewrite E1. split; [exact E2|]. split; intros x y.
      - rewrite D2, D1, !elem_of_cons. tauto.
      - rewrite B2, B1, elem_of_cons. tauto. }
    destruct (Hloop (combinations2 (on o [113] (N ∖ L))) (∅, ∅)) as (dir & bi & E1 & D1 & B1).
    { intros i j Hij. apply combinations2_ne in Hij; [tauto|apply NoDup_on]. }
    assert (∀ x y, (x, y) ∈ combinations2 (on o [113] (N ∖ L)) ∨ (y, x) ∈ combinations2 (on o [113] (N ∖ L)) ↔
      x ∈ N ∖ L ∧ y ∈ N ∖ L ∧ x ≠ y) as Hps.
    { intros x y. split.
      - intros [Hij|Hij]; (apply combinations2_ne in Hij as (? & ? & ?); [|apply NoDup_on]); rewrite !elem_of_on in *; auto.
      - intros (Hx & Hy & Hne). destruct (combinations2_total (on o [113] (N ∖ L)) x y) as [[H _]|[H _]]; [apply NoDup_on|by rewrite elem_of_on..|done| |]; auto. }
    exists dir, bi. split; [exact E1|]. split; intros x y.
    - rewrite D1, Hps. cbn [fst]. pose proof (not_elem_of_empty (C := arcset) (x, y)). tauto.
    - rewrite !B1. cbn [snd]. pose proof (not_elem_of_empty (C := arcset) (x, y)). pose proof (not_elem_of_empty (C := arcset) (y, x)).
      specialize (Hps x y). pose proof (ip_sym G L x y). pose proof (ip_sym G L y x). tauto.
  Qed.

  Lemma marginal_mag_old_spec o p : ∃ h, marginal_mag_old d o p L = Ok h ∧ marg N E L h.
  Proof using Hwf Ha.
    unfold marginal_mag_old. destruct (marg_sets_spec o p) as (dir & bi & -> & HD & HB). cbn [res_bind fst snd].
    set (ld := oa o [118] dir). set (lbi := oa o [119] bi).
    assert (∀ x y, (x, y) ∈ mx_dir (lmix ld lbi []) ↔ x ∈ N ∖ L ∧ y ∈ N ∖ L ∧ x ≠ y ∧ ip G L x y ∧ lb x y = true) as HD'.
    { intros x y. cbn. rewrite elem_of_list_to_set. unfold ld. rewrite elem_of_oa. apply HD. }
    assert (∀ x y, spouse (lmix ld lbi []) x y ↔ x ∈ N ∖ L ∧ y ∈ N ∖ L ∧ x ≠ y ∧ ip G L x y ∧ lb x y = false ∧ lb y x = false) as HB'.
    { intros x y. unfold spouse. cbn. rewrite !elem_of_list_to_set. unfold lbi. rewrite !elem_of_oa. apply HB. }
    assert (∀ x y, ¬ neighbor (lmix ld lbi []) x y) as HU'.
    { intros x y [H|H]; by apply not_elem_of_empty in H. }
    assert (∀ x y, lb x y = true → lb y x = true → False) as Hcy.
    { intros x y H1%(lab_mark G) H2%(lab_mark G). apply (Ha x). by etrans. }
    destruct (ag_make_ok (N ∖ L) ld lbi []) as (h & -> & Hh & (SN & SD & SB & SU)).
    { split.
      - intros x. unfold madj. rewrite !HD', HB'. pose proof (HU' x x). tauto.
      - intros x y. rewrite !HD', HB'. intros (_ & _ & _ & _ & Hl). split; [|split; [|apply HU']].
        + intros (_ & _ & _ & _ & Hl'). by eapply Hcy.
        + intros (_ & _ & _ & _ & Hl' & _). congruence.
      - intros x y _. apply HU'. }
    { intros x y z _. apply HU'. }
    assert (∀ x y, (x, y) ∈ g_dir h ↔ x ∈ N ∖ L ∧ y ∈ N ∖ L ∧ x ≠ y ∧ ip G L x y ∧ lb x y = true) as HD2 by (intros; rewrite SD; apply HD').
    assert (∀ x y, spouse (gmix h) x y ↔ x ∈ N ∖ L ∧ y ∈ N ∖ L ∧ x ≠ y ∧ ip G L x y ∧ lb x y = false ∧ lb y x = false) as HB2.
    { intros x y. rewrite spouse_upair, SB, elem_of_upairs by done. unfold lbi. rewrite !elem_of_oa. apply HB. }
    exists h. split; [done|]. split.
    - done.
    - rewrite SN. apply set_eq. intros x. rewrite !elem_of_union. split; [|tauto]. unfold ends. rewrite !elem_of_union, !elem_of_list_to_set, !elem_of_list_fmap.
      setoid_rewrite elem_of_nil. unfold ld, lbi. setoid_rewrite elem_of_oa.
      intros [[[[([a b] & -> & H)|([a b] & -> & H)]|[([a b] & -> & H)|([a b] & -> & H)]]|[(? & _ & ?)|(? & _ & ?)]]|?]; try done; cbn.
      + apply HD in H. tauto.
      + apply HD in H. tauto.
      + assert ((a, b) ∈ bi ∨ (b, a) ∈ bi) as H' by by left. apply HB in H'. tauto.
      + assert ((a, b) ∈ bi ∨ (b, a) ∈ bi) as H' by by left. apply HB in H'. tauto.
    - by rewrite SU.
    - intros x y k m.
      assert (ip G L x y → x ∈ N ∧ y ∈ N) as Hn by (apply ip_nodes, (wf_over _ Hwf)).
      pose proof (Hcy x y) as Hc1. pose proof (ip_sym G L x y) as Hs1. pose proof (ip_sym G L y x) as Hs2.
      rewrite !elem_of_difference in HD2, HB2 || setoid_rewrite elem_of_difference in HD2; setoid_rewrite elem_of_difference in HB2.
      destruct k, m; cbn [medge].
      + rewrite neighbor_upair, SU by done. split; [intros H; by apply not_elem_of_empty in H|]. intros (_ & _ & _ & _ & H1 & H2). symmetry in H1, H2. tauto.
      + change (mx_dir (gmix h)) with (g_dir h). rewrite HD2. clear HD2 HB2. split.
        * intros (? & ? & ? & ? & Hl). split_and!; [tauto..|done|]. symmetry. apply not_true_iff_false. tauto.
        * intros (? & ? & ? & ? & Hl & _). symmetry in Hl. tauto.
      + change (mx_dir (gmix h)) with (g_dir h). rewrite HD2. clear HD2 HB2. split.
        * intros (? & ? & ? & ? & Hl). split_and!; [tauto..|by intros ->|tauto| |done]. symmetry. apply not_true_iff_false. tauto.
        * intros (? & ? & ? & ? & _ & Hl). symmetry in Hl. split_and!; [tauto..|by intros ->|tauto|done].
      + rewrite HB2. clear HD2 HB2. split.
        * intros (? & ? & ? & ? & Hl & Hl'). split_and!; [tauto..|done|done].
        * intros (? & ? & ? & ? & Hl & Hl'). symmetry in Hl, Hl'. tauto.
  Qed.
End old.

(** ** Relabelling *)
Lemma relabel_nodes_spec m l : (∀ x, x ∈ l → is_Some (m !! x)) →
  ∃ X, relabel_nodes m l = Ok X ∧ ∀ a, a ∈ X ↔ ∃ x, x ∈ l ∧ m !! x = Some a.
Proof.
  intros Hl. unfold relabel_nodes.
  assert (∀ acc : nset, ∃ X, loopR (λ n acc, match m !! n with Some k => Ok ({[k]} ∪ acc) | None => Raise KeyError end) l acc = Ok X ∧
    ∀ a, a ∈ X ↔ a ∈ acc ∨ ∃ x, x ∈ l ∧ m !! x = Some a) as Hgo.
  { induction l as [|n l IH]; intros acc.
    { exists acc. split; [done|]. intros a. setoid_rewrite elem_of_nil. split; [tauto|]. intros [?|(? & ? & _)]; done. }
    cbn [loopR]. destruct (Hl n (elem_of_list_here _ _)) as [k Ek]. rewrite Ek.
    destruct IH with (acc := {[k]} ∪ acc) as (X & -> & HX); [intros x Hx; apply Hl; by apply elem_of_list_further|]. exists X. split; [done|].
    intros a. rewrite HX, elem_of_union, elem_of_singleton. setoid_rewrite elem_of_cons. split.
    - intros [[->|?]|(x & ? & ?)]; eauto.
    - intros [?|(x & [->|?] & E)]; [auto| |eauto]. left. left. congruence. }
  destruct (Hgo ∅) as (X & E & HX). exists X. split; [exact E|]. intros a. rewrite HX. pose proof (not_elem_of_empty (C := nset) a). tauto.
Qed.
Lemma relabel_arcs_spec m l : (∀ e : arc, e ∈ l → is_Some (m !! e.1) ∧ is_Some (m !! e.2)) →
  ∃ X, relabel_arcs m l = Ok X ∧ ∀ a b, (a, b) ∈ X ↔ ∃ x y, (x, y) ∈ l ∧ m !! x = Some a ∧ m !! y = Some b.
Proof.
  intros Hl. unfold relabel_arcs.
  match goal with |- context [loopR ?f _ _] => set (body := f) end.
  assert (∀ acc : arcset, ∃ X, loopR body l acc = Ok X ∧
    ∀ a b, (a, b) ∈ X ↔ (a, b) ∈ acc ∨ ∃ x y, (x, y) ∈ l ∧ m !! x = Some a ∧ m !! y = Some b) as Hgo.
  { induction l as [|[u v] l IH]; intros acc.
    { exists acc. split; [done|]. intros a b. setoid_rewrite elem_of_nil. split; [tauto|]. intros [?|(? & ? & ? & _)]; done. }
    destruct (Hl (u, v) (elem_of_list_here _ _)) as [[i Ei] [j Ej]]. cbn [fst snd] in Ei, Ej.
    destruct IH with (acc := {[(i, j)]} ∪ acc) as (X & E & HX); [intros x Hx; apply Hl; by apply elem_of_list_further|]. exists X. split.
    { cbn [loopR]. unfold body at 1. cbn [fst snd]. rewrite Ei, Ej. exact E. }
    intros a b. rewrite HX, elem_of_union, elem_of_singleton. setoid_rewrite elem_of_cons. split.
    - intros [[[= -> ->]|?]|(x & y & ? & ?)]; [right; exists u, v; auto|auto|right; exists x, y; auto].
    - intros [?|(x & y & [[= -> ->]|?] & E1 & E2)]; [auto| |right; eauto]. left. left. congruence. }
  destruct (Hgo ∅) as (X & E & HX). exists X. split; [exact E|]. intros a b. rewrite HX. pose proof (not_elem_of_empty (C := arcset) (a, b)). tauto.
Qed.

(** [h'] is [h] with the nodes renamed by [m]. *)
Record renamed (m : gmap node node) (h h' : ag) : Prop := Renamed {
  rn_ok : gok h';
  rn_nodes : ∀ a, a ∈ g_nodes h' ↔ ∃ x, x ∈ g_nodes h ∧ m !! x = Some a;
  rn_dir : ∀ a b, (a, b) ∈ g_dir h' ↔ ∃ x y, (x, y) ∈ g_dir h ∧ m !! x = Some a ∧ m !! y = Some b;
  rn_bi : ∀ a b, spouse (gmix h') a b ↔ ∃ x y, spouse (gmix h) x y ∧ m !! x = Some a ∧ m !! y = Some b;
  rn_un : g_un h' = ∅
}.
Definition minj (m : gmap node node) (N : nset) : Prop :=
  (∀ x, x ∈ N → is_Some (m !! x)) ∧ ∀ x y a, x ∈ N → y ∈ N → m !! x = Some a → m !! y = Some a → x = y.
Lemma relabelled_spec o m (h : ag) (N : nset) (dir bi : list arc) :
  gok h → g_un h = ∅ → g_nodes h = N → minj m N → (∀ e, e ∈ dir ↔ e ∈ g_dir h) → (∀ x y, (x, y) ∈ bi ∨ (y, x) ∈ bi ↔ spouse (gmix h) x y) →
  ∃ h', relabelled o m N dir bi = Ok h' ∧ renamed m h h'.
Proof.
  intros Hg Hu HN [Hm Hinj] Hd Hb. unfold relabelled.
  destruct (relabel_nodes_spec m (on o [120] N)) as (N' & -> & HN'); [intros x; rewrite elem_of_on; apply Hm|]. cbn [res_bind].
  assert (∀ x y, madj (gmix h) x y → x ∈ N ∧ y ∈ N) as Hnod by (rewrite <-HN; apply (madj_nodes h Hg)).
  assert (∀ x y, (x, y) ∈ g_dir h → x ∈ N ∧ y ∈ N) as Hnd by (intros x y H; apply Hnod; by left).
  assert (∀ x y, spouse (gmix h) x y → x ∈ N ∧ y ∈ N) as Hnb by (intros x y H; apply Hnod; unfold madj; auto).
  destruct (relabel_arcs_spec m dir) as (D' & -> & HD'). { intros [x y] He%Hd%Hnd. split; apply Hm; tauto. } cbn [res_bind].
  destruct (relabel_arcs_spec m bi) as (B' & -> & HB').
  { intros [x y] He. assert ((x, y) ∈ bi ∨ (y, x) ∈ bi) as He' by by left. apply Hb, Hnb in He'. split; apply Hm; tauto. } cbn [res_bind].
  setoid_rewrite Hd in HD'.
  assert (∀ a b, (a, b) ∈ B' ∨ (b, a) ∈ B' ↔ ∃ x y, spouse (gmix h) x y ∧ m !! x = Some a ∧ m !! y = Some b) as HB2.
  { intros a b. rewrite !HB'. split.
    - intros [(x & y & H & ? & ?)|(x & y & H & ? & ?)]; [exists x, y|exists y, x]; (split; [apply Hb; auto|done]).
    - intros (x & y & H & ? & ?). apply Hb in H as [H|H]; [left; exists x, y|right; exists y, x]; done. }
  set (ld := oa o [121] D'). set (lbi := oa o [122] B').
  assert (∀ a b, (a, b) ∈ mx_dir (lmix ld lbi []) ↔ ∃ x y, (x, y) ∈ g_dir h ∧ m !! x = Some a ∧ m !! y = Some b) as LD.
  { intros a b. cbn. rewrite elem_of_list_to_set. unfold ld. by rewrite elem_of_oa. }
  assert (∀ a b, spouse (lmix ld lbi []) a b ↔ ∃ x y, spouse (gmix h) x y ∧ m !! x = Some a ∧ m !! y = Some b) as LB.
  { intros a b. unfold spouse at 1. cbn. rewrite !elem_of_list_to_set. unfold lbi. by rewrite !elem_of_oa. }
  assert (∀ x y, ¬ neighbor (lmix ld lbi []) x y) as LU.
  { intros x y [H|H]; by apply not_elem_of_empty in H. }
  pose proof (gmix_simple h Hg) as Hsi.
  assert (∀ a, ¬ (∃ x y, (x, y) ∈ g_dir h ∧ m !! x = Some a ∧ m !! y = Some a)) as Hirr1.
  { intros a (x & y & H & E1 & E2). destruct (Hnd _ _ H). assert (x = y) as -> by by eapply Hinj. apply (simple_irr _ Hsi y). by left. }
  assert (∀ a, ¬ (∃ x y, spouse (gmix h) x y ∧ m !! x = Some a ∧ m !! y = Some a)) as Hirr2.
  { intros a (x & y & H & E1 & E2). destruct (Hnb _ _ H). assert (x = y) as -> by by eapply Hinj. apply (simple_irr _ Hsi y). unfold madj; auto. }
  destruct (ag_make_ok N' ld lbi []) as (h' & -> & Hh & (SN & SD & SB & SU)).
  { split.
    - intros x. unfold madj. rewrite !LD, LB. intros [H|[H|[H|H]]]; [by eapply Hirr1..|by eapply Hirr2|by apply LU in H].
    - intros a b. rewrite !LD, LB. intros (x & y & H & E1 & E2). destruct (Hnd _ _ H). split; [|split; [|apply LU]].
      + intros (y' & x' & H' & E1' & E2'). destruct (Hnd _ _ H'). assert (x' = x) as -> by by eapply Hinj. assert (y' = y) as -> by by eapply Hinj.
        by apply (simple_dir _ Hsi _ _ H) in H'.
      + intros (x' & y' & H' & E1' & E2'). destruct (Hnb _ _ H'). assert (x' = x) as -> by by eapply Hinj. assert (y' = y) as -> by by eapply Hinj.
        by apply (simple_dir _ Hsi _ _ H) in H'.
    - intros x y _. apply LU. }
  { intros x y z _. apply LU. }
  exists h'. split; [done|]. split.
  - done.
  - intros a. rewrite SN, !elem_of_union, HN'. setoid_rewrite elem_of_on. rewrite <-HN. split; [|tauto].
    unfold ends. rewrite !elem_of_union, !elem_of_list_to_set, !elem_of_list_fmap. setoid_rewrite elem_of_nil. unfold ld, lbi. setoid_rewrite elem_of_oa.
    rewrite HN.
    intros [[[[([u v] & -> & H)|([u v] & -> & H)]|[([u v] & -> & H)|([u v] & -> & H)]]|[(? & _ & ?)|(? & _ & ?)]]|?]; try done; cbn.
    + apply HD' in H as (x & y & H%Hnd & ? & ?). exists x. tauto.
    + apply HD' in H as (x & y & H%Hnd & ? & ?). exists y. tauto.
    + assert ((u, v) ∈ B' ∨ (v, u) ∈ B') as H' by by left. apply HB2 in H' as (x & y & H'%Hnb & ? & ?). exists x. tauto.
    + assert ((u, v) ∈ B' ∨ (v, u) ∈ B') as H' by by left. apply HB2 in H' as (x & y & H'%Hnb & ? & ?). exists y. tauto.
  - intros a b. rewrite SD. apply LD.
  - intros a b. rewrite spouse_upair, SB, elem_of_upairs by done. unfold lbi. rewrite !elem_of_oa. apply HB2.
  - by rewrite SU.
Qed.

(** Numbering by position. *)
Lemma index_map_spec (l : list node) : NoDup l → ∀ x i, index_map l !! x = Some i ↔ l !! i = Some x.
Proof.
  intros Hnd x i. unfold index_map. rewrite <-elem_of_list_to_map.
  - rewrite elem_of_lookup_zip_with. setoid_rewrite lookup_seq. split.
    + intros (k & a & b & [= -> ->] & Ha & -> & Hk). done.
    + intros H. exists i, x, i. split; [done|]. split; [done|]. split; [done|]. by eapply lookup_lt_Some.
  - rewrite fst_zip; [done|]. by rewrite seq_length.
Qed.
Lemma index_map_inj (l : list node) (N : nset) : NoDup l → (∀ x, x ∈ l ↔ x ∈ N) → minj (index_map l) N.
Proof.
  intros Hnd Hl. split.
  - intros x [i Hi]%Hl%elem_of_list_lookup. exists i. by apply index_map_spec.
  - intros x y a _ _ Hx%index_map_spec Hy%index_map_spec; [congruence|done..].
Qed.
