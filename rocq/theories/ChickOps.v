(** Correctness of [apply_edge_operation]. *)
From Verif Require Import Py Spec SpecDsep SpecMec SpecEnum SpecChick DagModel DsepModel UGraphModel PdagModel EnumModel CompareModel ChickModel TopoProofs StateProofs
  ReachProofs CoreProofs OrderProofs QueryProofs WalkProofs DsepProofs MarkovProofs ImapProofs UGraphProofs PdagProofs ProtProofs CpdagProofs EquivProofs
  ImsetProofs ShdProofs ChickProofs ChickLift PropertiesDag.

Lemma pick_ok o k S : S ≠ ∅ → ∃ v, pick o k S = Ok v ∧ v ∈ S.
Proof.
  intros HS. unfold pick. destruct (on o [k] S) as [|v l] eqn:Hl.
  - exfalso. apply HS. apply elem_of_equiv_empty_L. intros x Hx. rewrite <-(elem_of_on o [k]), Hl in Hx. by apply elem_of_nil in Hx.
  - exists v. split; [done|]. rewrite <-(elem_of_on o [k]), Hl. left.
Qed.
Lemma pick_in o k S v : v ∈ S → ∃ v', pick o k S = Ok v' ∧ v' ∈ S.
Proof. intros Hv. apply pick_ok. intros ->. by apply not_elem_of_empty in Hv. Qed.

Lemma sink_exists N E : acyclic E → over N E → N ≠ ∅ → ∃ y, y ∈ N ∧ ∀ v, (y, v) ∉ E.
Proof.
  intros Hac Ho HN. destruct (exists_topo N E Hac Ho) as [l (Hnd & Hl & Hord)].
  destruct l as [|y l _] using rev_ind.
  { exfalso. apply HN. apply elem_of_equiv_empty_L. intros x Hx%Hl. by apply elem_of_nil in Hx. }
  exists y. split; [apply Hl; set_solver|]. intros v Hv. pose proof (Ho _ _ Hv) as [_ HvN]. apply Hl in HvN.
  apply elem_of_list_lookup in HvN as [j Hj]. pose proof (lookup_lt_Some _ _ _ Hj) as Hlt. rewrite app_length in Hlt. cbn in Hlt.
  assert (length l < j); [|lia]. eapply (Hord (length l) j y v); [done|by apply list_lookup_middle|done].
Qed.

Lemma acyclic_add_inv E x y : acyclic ({[(x, y)]} ∪ E) → x ≠ y ∧ (y, x) ∉ E.
Proof.
  intros Hac. split.
  - intros ->. apply (Hac y). apply tc_once. unfold edge. set_solver.
  - intros Hyx. apply (Hac x). apply (tc_l _ x y x); [|apply tc_once]; unfold edge; set_solver.
Qed.

Lemma wdist_add E G x y : ¬ adjacent E x y → adjacent G x y → wdist 2 ({[(x, y)]} ∪ E) G < wdist 2 E G.
Proof.
  intros HE HG. unfold wdist. rewrite as_edges_union, as_edges_singleton. cbn.
  rewrite <-upair_as_edges in HE, HG.
  assert (sym_diff (as_edges E) (as_edges G) = {[upair x y]} ∪ sym_diff ({[upair x y]} ∪ as_edges E) (as_edges G)) as ->.
  { apply set_eq. intros e. rewrite elem_of_union, !elem_of_sym_diff, elem_of_union, elem_of_singleton.
    destruct (decide (e = upair x y)) as [->|]; tauto. }
  rewrite size_union_arcs, size_singleton.
  2:{ intros e He%elem_of_singleton. rewrite elem_of_sym_diff, elem_of_union, elem_of_singleton. subst e. tauto. }
  assert (size (({[(x, y)]} ∪ E) ∩ rev_arcs G) ≤ 1 + size (E ∩ rev_arcs G)) as H; [|lia].
  apply (size_le_add1 _ _ (x, y)). clear. set_solver.
Qed.

(** What [add_arc] does on a copy when the result is acyclic. *)
Lemma finish_add o d x y m : wf d → acyclic (d_arcs d) → x ∈ d_nodes d → y ∈ d_nodes d → acyclic ({[(x, y)]} ∪ d_arcs d) →
  ∃ d', finish (add_arc o x y true (dag_copy d)) m = Ok (d', m) ∧ wf d' ∧ d_nodes d' = d_nodes d ∧ d_arcs d' = {[(x, y)]} ∪ d_arcs d.
Proof.
  intros Hwf Hac Hx Hy Hac'. destruct (acyclic_add_inv _ _ _ Hac') as [Hne Hyx].
  assert (wf (dag_copy d)) as Hwfc by (destruct d; exact Hwf).
  destruct (add_arc_spec o x y true (dag_copy d)) as (H1 & H2 & H3 & H4); [done|by apply acyclic_oriented|done|done|].
  destruct H4 as [(H4 & H5 & _)|(w & _ & _ & _ & Hn & _)]; [|by destruct Hn].
  destruct (add_arc o x y true (dag_copy d)) as [d' r]. cbn in *. subst r. exists d'. split; [done|]. split; [done|]. split; [|done].
  rewrite H3. cbn. clear -Hx Hy. set_solver.
Qed.
Lemma finish_reverse o d x y m : wf d → acyclic (d_arcs d) → covered (d_arcs d) x y →
  ∃ d', finish (reverse_arc o x y false false (dag_copy d)) m = Ok (d', m) ∧ wf d' ∧ d_nodes d' = d_nodes d ∧ d_arcs d' = flip_arc (d_arcs d) x y.
Proof.
  intros Hwf Hac Hcov. pose proof (EquivProofs.covered_ne _ Hac _ _ Hcov) as Hne. destruct Hcov as [Hxy _].
  assert (wf (dag_copy d)) as Hwfc by (destruct d; exact Hwf).
  destruct (reverse_arc_spec o x y false false (dag_copy d)) as (H1 & H2 & H4); [done|by apply acyclic_oriented|done|].
  destruct H4 as [(_ & _ & Hn & _)|[(H4 & H5 & H6 & _)|(w & ? & _)]]; [done| |done].
  destruct (reverse_arc o x y false false (dag_copy d)) as [d' r]. cbn in *. subst r. exists d'. split; [done|]. split; [done|]. split; [|done].
  rewrite H5. destruct (wf_over d Hwf _ _ Hxy). set_solver.
Qed.

(** What the returned dictionary says about the operation that took [G] to [G']. *)
Definition reports (G G' : arcset) (m : move) : Prop :=
  let y := mv_sink m in
  match mv_step m with
  | 4 => ∃ x, ¬ adjacent G x y ∧ G' = {[(x, y)]} ∪ G ∧ mv_d m = None
  | 6 => ∃ z v, mv_d m = Some v ∧ rtc (edge G) z v ∧ covered G y z ∧ G' = flip_arc G y z
  | 7 => ∃ x z v, mv_d m = Some v ∧ rtc (edge G) z v ∧ (x, z) ∈ G ∧ (y, z) ∈ G ∧ ¬ adjacent G x y ∧ G' = {[(x, y)]} ∪ G
  | 8 => ∃ x z v, mv_d m = Some v ∧ rtc (edge G) z v ∧ (x, y) ∈ G ∧ (y, z) ∈ G ∧ ¬ adjacent G x z ∧ G' = {[(x, z)]} ∪ G
  | _ => False
  end.

Section operation.
  Context (d h : dag) (Hwf : wf d) (Hac : acyclic (d_arcs d)) (Hwf' : wf h) (Hac' : acyclic (d_arcs h)).
  Context (HN : d_nodes d = d_nodes h) (Hi : imap (d_nodes d) (d_arcs h) (d_arcs d)).
  Notation N := (d_nodes d). Notation G := (d_arcs d). Notation H := (d_arcs h).

  Lemma overG : over N G. Proof. apply (wf_over d Hwf). Qed.
  Lemma overH : over N H. Proof. rewrite HN. apply (wf_over h Hwf'). Qed.

  (** The effect of an operation: the returned graph, and what [move] reports. *)
  Definition op_result (seed : option node) (d' : dag) (m : move) : Prop :=
    wf d' ∧ acyclic (d_arcs d') ∧ d_nodes d' = N ∧ imap N H (d_arcs d') ∧ chickering_distance d' h < chickering_distance d h ∧
    reports G (d_arcs d') m ∧ open_sink N G H (mv_sink m) ∧ ∀ y, seed = Some y → open_sink N G H y → mv_sink m = y.

  Lemma add_result R x y d' : common_sinks N G H R → x ∈ N ∖ R → y ∈ N ∖ R → (x, y) ∉ G →
    acyclic ({[(x, y)]} ∪ restrict G (N ∖ R)) → imap (N ∖ R) (restrict H (N ∖ R)) ({[(x, y)]} ∪ restrict G (N ∖ R)) →
    acyclic ({[(x, y)]} ∪ G) ∧ imap N H ({[(x, y)]} ∪ G) ∧ ¬ adjacent G x y ∧
    (d_arcs d' = {[(x, y)]} ∪ G → chickering_distance d' h < chickering_distance d h).
  Proof.
    intros HR Hx Hy Hn Hacs His. set (X := N ∖ R) in *.
    assert (∀ u v, (u, v) ∈ G → v ∈ X → u ∈ X) as Hcl.
    { apply sinks_closed; [apply overG|]. intros u v Hu. by apply HR. }
    assert (acyclic ({[(x, y)]} ∪ G)) as Hacf.
    { intros v Hv. apply tc_add_arc in Hv as [Hv|[Hv1 Hv2]]; [by apply Hac in Hv|].
      assert (rtc (edge G) y x) as Hyx by by etrans. apply (closed_rtc G X) in Hyx as [_ Hyx]; [|done|done].
      apply (Hacs x). apply (tc_rtc_r x y x); [apply tc_once; unfold edge; set_solver|].
      eapply rtc_mono; [|exact Hyx]. clear. set_solver. }
    assert (¬ adjacent G x y) as Hna. { intros [?|Hyx]; [done|]. by apply acyclic_add_inv in Hacf as []. }
    assert (over N ({[(x, y)]} ∪ G)) as Hof.
    { intros u v [[= -> ->]%elem_of_singleton|Huv]%elem_of_union; [unfold X in Hx, Hy; set_solver|by apply overG]. }
    assert (imap N H ({[(x, y)]} ∪ G)) as Hif.
    { apply (sinks_lift N H G Hac' overH R HR); [done|done|..].
      - intros u v Hu [[= -> ->]%elem_of_singleton|Huv]%elem_of_union; [unfold X in Hx; set_solver|]. by apply (proj1 (proj2 HR u Hu)).
      - intros p r Hr. rewrite elem_of_union, elem_of_singleton. destruct HR as [_ HR]. rewrite <-(proj2 (proj2 (HR r Hr)) p).
        split; [|tauto]. intros [[= -> ->]|?]; [|done]. unfold X in Hy. set_solver.
      - fold X. assert (restrict ({[(x, y)]} ∪ G) X = {[(x, y)]} ∪ restrict G X) as ->; [|done].
        apply set_eq. intros [u v]. rewrite elem_of_union, !elem_of_restrict, elem_of_union, elem_of_singleton. split; [tauto|].
        intros [[= -> ->]|?]; tauto. }
    split; [done|]. split; [done|]. split; [done|]. intros Harcs. rewrite !chickering_wdist, Harcs. apply wdist_add; [done|].
    apply (imap_adjacent N H ({[(x, y)]} ∪ G)); [done|done|apply overH|done|done|]. left. set_solver.
  Qed.

  Lemma apply_edge_operation_spec os seed : G ≠ H →
    ∃ d' m, apply_edge_operation d h os seed = Ok (d', m) ∧ op_result seed d' m.
  Proof.
    intros Hne. unfold apply_edge_operation.
    destruct (resolved_sinks_spec d h Hwf Hwf' Hac) as (R & -> & HR & HRmax). cbn [res_bind].
    destruct (induced_subgraph_spec d (os 0) Hac (N ∖ R)) as (s & -> & Hs1 & Hs2 & Hs3 & Hs4). cbn [res_bind].
    destruct (induced_subgraph_spec h (os 1) Hac' (d_nodes h ∖ R)) as (t & -> & Ht1 & Ht2 & Ht3 & Ht4). cbn [res_bind].
    rewrite <-HN in Ht3, Ht4. set (X := N ∖ R) in *.
    assert (d_arcs s = restrict G X) as HsE by (apply set_eq; intros [u v]; by rewrite Hs4, elem_of_restrict).
    assert (d_arcs t = restrict H X) as HtE by (apply set_eq; intros [u v]; by rewrite Ht4, elem_of_restrict).
    set (g := restrict G X) in *. set (k := restrict H X) in *.
    assert (imap X k g) as His by (apply sinks_restrict; [done|done|apply overH|apply overG|done|done]).
    assert (over X g) as Hog by apply restrict_over. assert (over X k) as Hok by apply restrict_over.
    rewrite HsE in Hs2. rewrite HtE in Ht2.
    assert (∀ u v, (u, v) ∈ G → v ∈ X → (u, v) ∈ g) as HGg.
    { intros u v Huv Hv. apply elem_of_restrict. split; [done|]. split; [|done].
      eapply (sinks_closed N R G overG); [|done|done]. intros u' v' Hu'. by apply HR. }
    assert (∀ u v, (u, v) ∈ H → v ∈ X → (u, v) ∈ k) as HHk.
    { intros u v Huv Hv. apply elem_of_restrict. split; [done|]. split; [|done].
      eapply (sinks_closed N R H overH); [|done|done]. intros u' v' Hu'. by apply HR. }
    assert (g ⊆ G) as HgG by apply restrict_sub. assert (k ⊆ H) as HkH by apply restrict_sub.
    assert (X ⊆ N) as HXN by (unfold X; clear; set_solver).
    assert (X ≠ ∅) as HX.
    { intros HX. apply Hne. apply set_eq. intros [u v].
      assert (∀ w, w ∈ N → w ∈ R) as Hall.
      { intros w Hw. destruct (decide (w ∈ R)) as [|Hn]; [done|]. exfalso. assert (w ∈ X) as Hw' by (unfold X; by apply elem_of_difference).
        rewrite HX in Hw'. by apply not_elem_of_empty in Hw'. }
      destruct HR as [_ HR]. split; intros Huv.
      - destruct (overG u v Huv) as [_ Hv]. by apply (HR v (Hall v Hv)).
      - destruct (overH u v Huv) as [_ Hv]. by apply (HR v (Hall v Hv)). }
    assert (∀ y, y ∈ sinks t ↔ y ∈ X ∧ ∀ v, (y, v) ∉ k) as Hsinks.
    { intros y. unfold sinks. rewrite elem_of_filter, Ht3, (and_comm (children t y = ∅)). apply and_iff_compat_l.
      rewrite elem_of_equiv_empty_L. apply forall_proper. intros v. by rewrite (wf_chi t Ht1), HtE. }
    assert (∀ y, y ∈ sinks s ↔ y ∈ X ∧ ∀ v, (y, v) ∉ g) as Hsinks'.
    { intros y. unfold sinks. rewrite elem_of_filter, Hs3, (and_comm (children s y = ∅)). apply and_iff_compat_l.
      rewrite elem_of_equiv_empty_L. apply forall_proper. intros v. by rewrite (wf_chi s Hs1), HsE. }
    match goal with |- context [res_bind ?p _] => assert (∃ y, p = Ok y ∧ y ∈ sinks t ∧ ∀ y', seed = Some y' → y' ∈ sinks t → y = y') as (y & Hpick & Hy & Hseed) end.
    { destruct (sink_exists X k Ht2 Hok HX) as (y & Hy). apply Hsinks in Hy.
      destruct seed as [y0|]; [|destruct (pick_in (os 2) 142 _ _ Hy) as (y' & ? & ?); by exists y'].
      destruct (decide (y0 ∈ sinks t)); [exists y0; split_and!; [done|done|]; by intros ? [= ->]|].
      destruct (pick_in (os 2) 142 _ _ Hy) as (y' & ? & ?). exists y'. split_and!; [done|done|]. by intros ? [= ->]. }
    assert (∀ y', y' ∈ sinks t ↔ open_sink N G H y') as Hopen.
    { intros y'. rewrite Hsinks. unfold open_sink, X. rewrite elem_of_difference. split.
      - intros ((Hn & Hr) & Hc). split_and!; [done| |].
        + intros Z HZ Hin. by apply Hr, (HRmax Z).
        + intros v Hv. exists R. split; [done|]. destruct (decide (v ∈ R)) as [|Hvr]; [done|]. exfalso.
          apply (Hc v), HHk; [done|]. destruct (overH _ _ Hv). by apply elem_of_difference.
      - intros (Hn & Hr & Hc). split; [split; [done|by apply Hr]|]. intros v [Hv1 Hv2]%elem_of_restrict.
        destruct (Hc v Hv1) as (Z & HZ & HvZ). apply (HRmax Z HZ) in HvZ. destruct Hv2 as [_ Hv2]. by apply elem_of_difference in Hv2 as []. }
    assert (open_sink N G H y ∧ ∀ y', seed = Some y' → open_sink N G H y' → y = y') as Hys0.
    { split; [by apply Hopen|]. intros y' Hs Ho. apply Hseed; [done|by apply Hopen]. }
    rewrite Hpick. cbn [res_bind]. clear Hpick. apply Hsinks in Hy as [HyX Hysink].
    assert (∀ u v, (u, v) ∈ g → u ∈ X ∧ v ∈ X) as Hog' by exact Hog.
    destruct (decide (y ∈ sinks s)) as [Hys|Hys].
    { (* step 4 *)
      apply Hsinks' in Hys as [_ Hys].
      assert (∃ x, x ∈ parents t y ∖ parents s y) as (x0 & Hx0).
      { destruct (set_choose_or_empty (parents t y ∖ parents s y)) as [?|He]; [done|]. exfalso.
        assert (common_sinks N G H ({[y]} ∪ R)) as Hcs; cycle 1.
        { apply HRmax in Hcs. assert (y ∈ R) by (apply Hcs; clear; set_solver). unfold X in HyX. by apply elem_of_difference in HyX as []. }
        destruct HR as [HR1 HR2]. split; [clear -HR1 HyX HXN; set_solver|]. intros n [->%elem_of_singleton|Hn]%elem_of_union.
        - split; [|split].
          + intros c Hc. destruct (decide (c ∈ R)) as [|Hn]; [by apply elem_of_union_r|]. exfalso. apply (Hys c). apply elem_of_restrict.
            destruct (overG y c Hc). split; [done|]. split; [done|]. by apply elem_of_difference.
          + intros c Hc. destruct (decide (c ∈ R)) as [|Hn]; [by apply elem_of_union_r|]. exfalso. apply (Hysink c). apply elem_of_restrict.
            destruct (overH y c Hc). split; [done|]. split; [done|]. by apply elem_of_difference.
          + intros p. split; intros Hp.
            * apply HkH. apply (adj_parent X k g Ht2 Hs2 Hok Hog His y Hysink). right. by apply HGg.
            * apply HgG. destruct (decide ((p, y) ∈ g)) as [|Hn]; [done|]. exfalso.
              apply HHk in Hp; [|done]. assert (p ∈ parents t y ∖ parents s y) as Hin; [|clear -Hin He; set_solver].
              apply elem_of_difference. by rewrite (wf_par t Ht1), (wf_par s Hs1), HsE, HtE.
        - destruct (HR2 n Hn) as (H1 & H2 & H3). split; [|split; [|done]].
          + intros c Hc. apply H1 in Hc. by apply elem_of_union_r.
          + intros c Hc. apply H2 in Hc. by apply elem_of_union_r. }
      destruct (pick_in (os 3) 143 _ x0 Hx0) as (x & -> & Hx). cbn [res_bind].
      apply elem_of_difference in Hx as [Hx1 Hx2]. rewrite (wf_par t Ht1), HtE in Hx1. rewrite (wf_par s Hs1), HsE in Hx2.
      destruct (op_sink X k g Ht2 Hs2 Hok Hog His y HyX Hysink x Hys Hx1) as [Ho1 Ho2].
      destruct (Hok x y Hx1) as [HxX _].
      assert ((x, y) ∉ G) as Hn by (intros ?; by apply Hx2, HGg).
      destruct (finish_add (os 4) d x y (Move y 4 None) Hwf Hac) as (d' & -> & Hd1 & Hd2 & Hd3); [by apply HXN|by apply HXN|by eapply add_result|].
      destruct (add_result R x y d' HR HxX HyX Hn Ho1 Ho2) as (Hr1 & Hr2 & Hr3 & Hr4).
      exists d', (Move y 4 None). split; [done|]. unfold op_result. rewrite Hd2, Hd3. split_and!; [done..|by apply Hr4| |apply Hys0|apply Hys0].
      by exists x. }
    destruct (descendants_of_spec s (os 5) Hs1 y) as (de & -> & Hde). cbn [res_bind]. rewrite HsE in Hde.
    destruct (upstream_most_spec t (os 6) Ht1 de) as (um & -> & Hum). cbn [res_bind]. rewrite HtE in Hum.
    assert (∃ c, (y, c) ∈ g) as (c0 & Hc0).
    { destruct (decide (children s y = ∅)) as [He|He].
      - exfalso. apply Hys, Hsinks'. split; [done|]. intros v Hv. rewrite <-HsE, <-(wf_chi s Hs1), He in Hv. by apply not_elem_of_empty in Hv.
      - apply set_choose_L in He as [c Hc]. rewrite (wf_chi s Hs1), HsE in Hc. by exists c. }
    assert (∀ v, v ∈ um ↔ highest k (tc (edge g) y) v) as Hum'.
    { intros v. rewrite Hum. unfold highest, ancestor. rewrite Hde. setoid_rewrite Hde. done. }
    destruct (highest_exists X k Ht2 Hok (tc (edge g) y) c0) as (v0 & Hv0 & _); [by apply tc_once|apply (Hog _ _ Hc0)|].
    apply Hum' in Hv0. destruct (pick_in (os 7) 144 um v0 Hv0) as (v & -> & Hv). cbn [res_bind]. apply Hum' in Hv.
    destruct (upstream_most_spec s (os 8) Hs1 (children s y)) as (uc & -> & Huc). cbn [res_bind]. rewrite HsE in Huc.
    destruct (ancestors_of_spec s (os 9) Hs1 v) as (an & -> & Han). cbn [res_bind]. rewrite HsE in Han.
    assert (∀ z, z ∈ uc ∩ (an ∪ {[v]}) ↔ ((y, z) ∈ g ∧ ∀ c, (y, c) ∈ g → ¬ tc (edge g) c z) ∧ rtc (edge g) z v) as Hz.
    { intros z. rewrite elem_of_intersection, elem_of_union, elem_of_singleton, Huc, Han. setoid_rewrite (wf_chi s Hs1). rewrite HsE. unfold ancestor.
      split; intros [H1 H2]; (split; [exact H1|]).
      - destruct H2 as [H2| ->]; [by apply tc_rtc|apply rtc_refl].
      - destruct (decide (z = v)); [by right|]. left. by apply rtc_tc_ne. }
    assert (∃ z, z ∈ uc ∩ (an ∪ {[v]})) as (z0 & Hz0).
    { destruct Hv as [Hyv _]. assert (∃ c, (y, c) ∈ g ∧ rtc (edge g) c v) as (c & Hc & Hcv).
      { destruct Hyv as [y v Hyv|y c v Hyc Hcv]; [exists v; split; [done|apply rtc_refl]|]. exists c. split; [done|]. by apply tc_rtc. }
      destruct (highest_exists X g Hs2 Hog (λ c, (y, c) ∈ g) c) as (z & [Hz1 Hz2] & Hz3); [done|apply (Hog _ _ Hc)|].
      exists z. apply Hz. split; [done|]. destruct Hz3 as [->|Hz3]; [done|]. etrans; [by apply tc_rtc|done]. }
    destruct (pick_in (os 10) 145 _ z0 Hz0) as (z & -> & Hz'). cbn [res_bind]. apply Hz in Hz' as [[Hyz Htop] Hzv].
    destruct (Hog y z Hyz) as [_ HzX]. pose proof (rtc_mono g G z v HgG Hzv) as HzvG.
    assert (∀ u w, w ∈ X → u ∈ parents s w ↔ (u, w) ∈ G) as Hpar.
    { intros u w Hw. rewrite (wf_par s Hs1), HsE. split; [apply HgG|]. intros ?. by apply HGg. }
    destruct (is_reversible s y z) eqn:Hrev.
    { (* step 6 *)
      unfold is_reversible in Hrev. apply bool_decide_eq_true in Hrev.
      assert (covered G y z) as Hcov.
      { split; [by apply HgG|]. intros u. rewrite <-!Hpar by done. rewrite Hrev. clear. set_solver. }
      destruct (finish_reverse (os 11) d y z (Move y 6 (Some v)) Hwf Hac Hcov) as (d' & -> & Hd1 & Hd2 & Hd3).
      destruct (op_flip N H G Hac overG Hi y z Hcov) as [Ho1 Ho2].
      exists d', (Move y 6 (Some v)). split; [done|]. unfold op_result. rewrite Hd2, Hd3. split_and!; [done..| |by exists z, v|apply Hys0|apply Hys0].
      rewrite !chickering_wdist, Hd3. rewrite (wdist_turn 2 G H y z); [lia|done|done|by apply HgG|].
      apply HkH. apply (adj_parent X k g Ht2 Hs2 Hok Hog His y Hysink). by left. }
    cbn zeta. destruct (decide (parents s z ∖ parents s y ∖ {[y]} = ∅)) as [He|He].
    - (* step 8 *)
      assert (∃ x, x ∈ parents s y ∖ parents s z) as (x0 & Hx0).
      { destruct (set_choose_or_empty (parents s y ∖ parents s z)) as [?|He']; [done|]. exfalso.
        unfold is_reversible in Hrev. apply bool_decide_eq_false in Hrev. apply Hrev. apply set_eq. intros u.
        assert (y ∉ parents s y) as Hyy by (rewrite (wf_par s Hs1), HsE; by apply acyclic_irr).
        clear -He He' Hyy. destruct (decide (u = y)) as [->|]; [set_solver|].
        assert (u ∉ parents s z ∖ parents s y ∖ {[y]}) as H1 by (rewrite He; set_solver).
        assert (u ∉ parents s y ∖ parents s z) as H2 by (rewrite He'; set_solver).
        rewrite !elem_of_difference, elem_of_singleton in *. destruct (decide (u ∈ parents s z)), (decide (u ∈ parents s y)); tauto. }
      destruct (pick_in (os 12) 146 _ x0 Hx0) as (x & -> & Hx). cbn [res_bind].
      apply elem_of_difference in Hx as [Hx1 Hx2]. rewrite Hpar in Hx1, Hx2 by done. pose proof (HGg _ _ Hx1 HyX) as Hx1'.
      destruct (op_shortcut X k g Ht2 Hs2 Hok Hog His y HyX Hysink x z Hx1' Hyz) as [Ho1 Ho2].
      destruct (Hog x y Hx1') as [HxX _].
      destruct (finish_add (os 13) d x z (Move y 8 (Some v)) Hwf Hac) as (d' & -> & Hd1 & Hd2 & Hd3); [by apply HXN|by apply HXN|by eapply add_result|].
      destruct (add_result R x z d' HR HxX HzX Hx2 Ho1 Ho2) as (Hr1 & Hr2 & Hr3 & Hr4).
      exists d', (Move y 8 (Some v)). split; [done|]. unfold op_result. rewrite Hd2, Hd3. split_and!; [done..|by apply Hr4| |apply Hys0|apply Hys0].
      cbn. exists x, z, v. split_and!; [done|done|done|by apply HgG|done|done].
    - (* step 7 *)
      destruct (pick_ok (os 14) 147 _ He) as (x & -> & Hx). cbn [res_bind].
      apply elem_of_difference in Hx as [[Hx1 Hx2]%elem_of_difference Hx3]. rewrite elem_of_singleton in Hx3.
      rewrite Hpar in Hx1, Hx2 by done. pose proof (HGg _ _ Hx1 HzX) as Hx1'.
      destruct (op_addparent X k g Ht2 Hs2 Hok Hog His y HyX Hysink x z v Hx3 Hx1' Hyz Htop Hv Hzv) as [Ho1 Ho2].
      destruct (Hog x z Hx1') as [HxX _].
      destruct (finish_add (os 15) d x y (Move y 7 (Some v)) Hwf Hac) as (d' & -> & Hd1 & Hd2 & Hd3); [by apply HXN|by apply HXN|by eapply add_result|].
      destruct (add_result R x y d' HR HxX HyX Hx2 Ho1 Ho2) as (Hr1 & Hr2 & Hr3 & Hr4).
      exists d', (Move y 7 (Some v)). split; [done|]. unfold op_result. rewrite Hd2, Hd3. split_and!; [done..|by apply Hr4| |apply Hys0|apply Hys0].
      cbn. exists x, z, v. split_and!; [done|done|done|by apply HgG|done|done].
  Qed.
End operation.

Lemma pick_inv o k S v : pick o k S = Ok v → v ∈ S.
Proof. unfold pick. intros H. rewrite <-(elem_of_on o [k]). destruct (on o [k] S); [done|]. injection H as ->. left. Qed.

Lemma res_bind_inv {A B} (r : res A) (f : A → res B) b : res_bind r f = Ok b → ∃ a, r = Ok a ∧ f a = Ok b.
Proof. destruct r; [|done]. intros H. by eexists. Qed.

(** [add_arc] on a copy, when it returns. *)
Lemma finish_add_inv o d x y m r : wf d → acyclic (d_arcs d) → x ∈ d_nodes d → y ∈ d_nodes d → x ≠ y → ¬ adjacent (d_arcs d) x y →
  finish (add_arc o x y true (dag_copy d)) m = Ok r →
  wf r.1 ∧ acyclic (d_arcs r.1) ∧ d_nodes r.1 = d_nodes d ∧ chick_step (d_nodes d) (d_arcs d) (d_arcs r.1).
Proof.
  intros Hwf Hac Hx Hy Hne Hadj Hf. assert (wf (dag_copy d)) as Hwfc by (destruct d; exact Hwf).
  destruct (add_arc_spec o x y true (dag_copy d)) as (H1 & H2 & H3 & H4); [done|by apply acyclic_oriented|done|intros ?; apply Hadj; by right|].
  destruct (add_arc o x y true (dag_copy d)) as [d' q]. cbn in *. destruct q as [|e]; [|done]. injection Hf as <-. cbn.
  destruct H4 as [(_ & H5 & H6)|(w & _ & ? & _)]; [|done]. rewrite H5. specialize (H6 eq_refl). split; [done|]. split; [done|].
  split; [rewrite H3; cbn; clear -Hx Hy; set_solver|]. by constructor.
Qed.

(** Whatever [imap] is: if the operation returns, it made one step. *)
Lemma apply_edge_operation_step d h os seed r : wf d → acyclic (d_arcs d) → wf h → acyclic (d_arcs h) → d_nodes d = d_nodes h →
  apply_edge_operation d h os seed = Ok r →
  wf r.1 ∧ acyclic (d_arcs r.1) ∧ d_nodes r.1 = d_nodes d ∧ chick_step (d_nodes d) (d_arcs d) (d_arcs r.1).
Proof.
  intros Hwf Hac Hwf' Hac' HN. unfold apply_edge_operation.
  destruct (resolved_sinks_spec d h Hwf Hwf' Hac) as (R & -> & HR & _). cbn [res_bind].
  destruct (induced_subgraph_spec d (os 0) Hac (d_nodes d ∖ R)) as (s & -> & Hs1 & Hs2 & Hs3 & Hs4). cbn [res_bind].
  destruct (induced_subgraph_spec h (os 1) Hac' (d_nodes h ∖ R)) as (t & -> & Ht1 & Ht2 & Ht3 & Ht4). cbn [res_bind].
  rewrite <-HN in Ht3, Ht4. set (X := d_nodes d ∖ R) in *.
  assert (X ⊆ d_nodes d) as HXN by (unfold X; clear; set_solver).
  assert (∀ u v, (u, v) ∈ d_arcs d → v ∈ X → (u, v) ∈ d_arcs s) as HGg.
  { intros u v Huv Hv. apply Hs4. split; [done|]. split; [|done].
    eapply (sinks_closed (d_nodes d) R (d_arcs d)); [apply (wf_over d Hwf)| |done|done]. intros u' v' Hu'. by apply HR. }
  intros (y & Hy & Hf)%res_bind_inv. assert (y ∈ sinks t) as Hyt.
  { destruct seed as [y0|]; [|by apply pick_inv in Hy]. destruct (decide (y0 ∈ sinks t)) as [Hin|]; [by injection Hy as <-|by apply pick_inv in Hy]. }
  assert (y ∈ X) as HyX by (apply elem_of_filter in Hyt as [_ Hyt]; by rewrite Ht3 in Hyt). clear Hy.
  destruct (decide (y ∈ sinks s)) as [Hys|Hys].
  { apply res_bind_inv in Hf as (x & Hx%pick_inv & Hf). apply elem_of_difference in Hx as [Hx1 Hx2].
    rewrite (wf_par t Ht1) in Hx1. rewrite (wf_par s Hs1) in Hx2. pose proof (proj1 (Ht4 _ _) Hx1) as (Hx1' & HxX & _).
    eapply (finish_add_inv (os 4) d x y); [done|done|by apply HXN|by apply HXN| | |exact Hf].
    - intros ->. by apply (acyclic_irr _ y Ht2).
    - intros [Ha|Ha]; [by apply Hx2, HGg|]. apply elem_of_filter in Hys as [Hys _].
      assert (x ∈ children s y) as Hc; [|rewrite Hys in Hc; by apply not_elem_of_empty in Hc]. by apply (wf_chi s Hs1), Hs4. }
  destruct (descendants_of_spec s (os 5) Hs1 y) as (de & Hde' & _). rewrite Hde' in Hf. cbn [res_bind] in Hf.
  destruct (upstream_most_spec t (os 6) Ht1 de) as (um & Hum' & _). rewrite Hum' in Hf. cbn [res_bind] in Hf.
  apply res_bind_inv in Hf as (v & _ & Hf).
  destruct (upstream_most_spec s (os 8) Hs1 (children s y)) as (uc & Huc' & Huc). rewrite Huc' in Hf. cbn [res_bind] in Hf.
  destruct (ancestors_of_spec s (os 9) Hs1 v) as (an & Han' & _). rewrite Han' in Hf. cbn [res_bind] in Hf.
  apply res_bind_inv in Hf as (z & [Hz _]%pick_inv%elem_of_intersection & Hf). apply Huc in Hz as [Hyz Htop].
  rewrite (wf_chi s Hs1) in Hyz. pose proof (proj1 (Hs4 _ _) Hyz) as (Hyz' & _ & HzX).
  assert (∀ u w, w ∈ X → u ∈ parents s w ↔ (u, w) ∈ d_arcs d) as Hpar.
  { intros u w Hw. rewrite (wf_par s Hs1). split; [intros Huw; by apply Hs4|]. intros ?. by apply HGg. }
  destruct (is_reversible s y z) eqn:Hrev.
  { unfold is_reversible in Hrev. apply bool_decide_eq_true in Hrev.
    assert (covered (d_arcs d) y z) as Hcov.
    { split; [done|]. intros u. rewrite <-!Hpar by done. rewrite Hrev. clear. set_solver. }
    destruct (finish_reverse (os 11) d y z (Move y 6 (Some v)) Hwf Hac Hcov) as (d' & Hd & Hd1 & Hd2 & Hd3).
    rewrite Hd in Hf. injection Hf as <-. cbn. rewrite Hd3. split; [done|]. split; [by apply flip_acyclic|]. split; [done|]. by constructor. }
  cbn zeta in Hf. destruct (decide (parents s z ∖ parents s y ∖ {[y]} = ∅)) as [He|He].
  - apply res_bind_inv in Hf as (x & Hx%pick_inv & Hf). apply elem_of_difference in Hx as [Hx1 Hx2]. rewrite Hpar in Hx1, Hx2 by done.
    pose proof (HGg _ _ Hx1 HyX) as Hx1'. pose proof (proj1 (Hs4 _ _) Hx1') as (_ & HxX & _).
    eapply (finish_add_inv (os 13) d x z); [done|done|by apply HXN|by apply HXN| | |exact Hf].
    + intros ->. apply (Hac y). apply (tc_l _ y z y); [done|by apply tc_once].
    + intros [Ha|Ha]; [done|]. apply (Hac x). apply (tc_l _ x y x); [done|]. apply (tc_l _ y z x); [done|by apply tc_once].
  - apply res_bind_inv in Hf as (x & Hx%pick_inv & Hf). apply elem_of_difference in Hx as [[Hx1 Hx2]%elem_of_difference Hx3].
    rewrite elem_of_singleton in Hx3. rewrite Hpar in Hx1, Hx2 by done.
    pose proof (HGg _ _ Hx1 HzX) as Hx1'. pose proof (proj1 (Hs4 _ _) Hx1') as (_ & HxX & _).
    eapply (finish_add_inv (os 15) d x y); [done|done|by apply HXN|by apply HXN|done| |exact Hf].
    intros [Ha|Ha]; [done|]. apply (Htop x); [by apply (wf_chi s Hs1), HGg|]. by apply tc_once.
Qed.
