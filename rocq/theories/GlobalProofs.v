(** The pairwise Markov property of an ancestral graph without undirected edges
    implies the global one, for m-separation in any other mixed graph and for any other
    relation that satisfies the same laws. *)
From Verif Require Import Py Spec SpecDsep SpecMixed TopoProofs StateProofs ReachProofs WalkProofs MWalkProofs InduceProofs.

(** ** Laws of m-separation between single nodes *)
Section laws.
  Context (H : mixed).
  Notation D := (mx_dir H).

  Lemma opened_mono C C' v : C ⊆ C' → opened D C v → opened D C' v.
  Proof using. intros HC (c & Hc & Hr). exists c. split; [by apply HC|done]. Qed.

  Lemma mreach_weaken C x y z : mreach H (C ∪ {[z]}) x y → mreach H C x y ∨ mreach H C x z.
  Proof using.
    intros [m Hr].
    assert (∀ s, rtc (mstep H (C ∪ {[z]})) (x, true) s → mreach H C x z ∨ rtc (mstep H C) (x, true) s) as Hinv.
    { refine (rtc_ind_r _ _ _ _); [right; apply rtc_refl|]. intros [u mu] [w mw] _ (k & He & Hp) [IH|IH]; [by left|]. cbn [fst snd] in *.
      unfold pass in Hp. destruct (mu || k) eqn:Emk.
      - right. eapply rtc_r; [exact IH|]. exists k. split; [done|]. cbn. unfold pass. rewrite Emk. intros Hu. apply Hp. apply elem_of_union. by left.
      - destruct (opened_dec D C u) as [Ho|Ho].
        + right. eapply rtc_r; [exact IH|]. exists k. split; [done|]. cbn. unfold pass. by rewrite Emk.
        + left. destruct Hp as (c & Hc & Hcr). apply elem_of_union in Hc as [Hc|Hc%elem_of_singleton]; [by destruct Ho; exists c|]. subst c.
          apply rtc_tc in Hcr as [->|Hcr]; [by exists mu|]. exists false. etrans; [exact IH|]. by apply descend. }
    destruct (Hinv _ Hr) as [?|?]; [by right|left; by exists m].
  Qed.

  Lemma pass_grow C C' v m k : C ⊆ C' → v ∉ C' ∖ C → pass D C v m k → pass D C' v m k.
  Proof using.
    intros HC Hv. unfold pass. destruct (m || k).
    - intros Hn Hv'. apply Hv. apply elem_of_difference. done.
    - by apply opened_mono.
  Qed.
  Lemma mreach_contract C x y z : mreach H C x z → mreach H C x y ∨ mreach H (C ∪ {[y]}) x z.
  Proof using.
    intros [m Hr].
    assert (∀ s, rtc (mstep H C) (x, true) s → mreach H C x y ∨ (rtc (mstep H C) (x, true) s ∧ rtc (mstep H (C ∪ {[y]})) (x, true) s)) as Hinv.
    { refine (rtc_ind_r _ _ _ _); [right; split; apply rtc_refl|]. intros [u mu] [w mw] _ (k & He & Hp) [IH|[IH1 IH2]]; [by left|]. cbn [fst snd] in *.
      destruct (decide (u = y)) as [->|Huy]; [left; by exists mu|]. right. split; (eapply rtc_r; [done|]); exists k; (split; [done|]); [done|].
      cbn. eapply pass_grow; [apply union_subseteq_l| |exact Hp]. intros Hu. apply Huy. clear -Hu. set_solver. }
    destruct (Hinv _ Hr) as [?|[_ ?]]; [by left|right; by exists m].
  Qed.
  Lemma mreach_intersect C x y z : mreach H C x y → mreach H (C ∪ {[z]}) x y ∨ mreach H (C ∪ {[y]}) x z.
  Proof using.
    intros [m Hr].
    assert (∀ s, rtc (mstep H C) (x, true) s → (mreach H (C ∪ {[z]}) x y ∨ mreach H (C ∪ {[y]}) x z) ∨
      (rtc (mstep H (C ∪ {[z]})) (x, true) s ∧ rtc (mstep H (C ∪ {[y]})) (x, true) s)) as Hinv.
    { refine (rtc_ind_r _ _ _ _); [right; split; apply rtc_refl|]. intros [u mu] [w mw] _ (k & He & Hp) [IH|[IH1 IH2]]; [by left|]. cbn [fst snd] in *.
      destruct (decide (u = y)) as [->|Huy]; [left; left; by exists mu|]. destruct (decide (u = z)) as [->|Huz]; [left; right; by exists mu|].
      right. split; (eapply rtc_r; [done|]); exists k; (split; [done|]); cbn; (eapply pass_grow; [apply union_subseteq_l| |exact Hp]); intros Hu;
        [apply Huz|apply Huy]; clear -Hu; set_solver. }
    destruct (Hinv _ Hr) as [?|[? _]]; [done|left; by exists m].
  Qed.
  (** Conditioning on the endpoint changes nothing. *)
  Lemma mreach_endpoint C x y : mreach H (C ∪ {[y]}) x y ↔ mreach H C x y.
  Proof using.
    split; intros Hr; [apply mreach_weaken in Hr|apply (mreach_intersect C x y y) in Hr]; tauto.
  Qed.
  Lemma mreach_sym C x y : simple H → y ∉ C → mreach H C x y → mreach H C y x.
  Proof using.
    intros Hsi Hy [m Hr]. apply mball_walk in Hr as (l & Hl & _); [|done]. cbn in Hl. apply mwalk_sym in Hl.
    destruct (reverse (y :: l)) as [|v l'] eqn:E; [by destruct Hl|]. assert (v = x) as -> by (destruct Hl; naive_solver).
    apply mwalk_ball in Hl as (m' & Hr' & _); [by exists m'|done|done].
  Qed.
End laws.

(** ** From the pairwise to the global property *)
Section global.
  Context (G : mixed) (N : nset) (I : nset → node → node → Prop).
  Context (HU : mx_un G = ∅) (Hac : acyclic (mx_dir G)) (HN : ∀ x y, madj G x y → x ∈ N ∧ y ∈ N).
  (** Composition with weak union, contraction with decomposition, intersection, symmetry. *)
  Context (Icomp : ∀ W x y z, I W x y → I W x z → I (W ∪ {[z]}) x y).
  Context (Icontr : ∀ W x y z, I W x y → I (W ∪ {[y]}) x z → I W x z).
  Context (Iint : ∀ W x y z, y ≠ z → I (W ∪ {[z]}) x y → I (W ∪ {[y]}) x z → I W x y).
  Context (Isym : ∀ W x y, x ∉ W → y ∉ W → I W x y → I W y x).
  Context (Istab : ∀ W x y, ¬ ¬ I W x y → I W x y).
  Notation D := (mx_dir G).
  Context (Hpw : ∀ i j P, i ∈ N → j ∈ N → i ≠ j → ¬ madj G i j →
    (∀ x, x ∈ P ↔ (rtc (edge D) x i ∨ rtc (edge D) x j) ∧ x ≠ i ∧ x ≠ j) → I P i j).

  Definition anclosed (U : nset) : Prop := ∀ x y, (x, y) ∈ D → y ∈ U → x ∈ U.
  Definition usink (U : nset) (z : node) : Prop := z ∈ U ∧ ∀ w, w ∈ U → (z, w) ∉ D.
  Definition ustep (U : nset) (v w : node) : Prop := spouse G v w ∧ v ∈ U ∧ w ∈ U.
  (** Adjacent, or connected by a walk whose inner nodes are colliders in [U]. *)
  Definition cc (U : nset) (x y : node) : Prop :=
    madj G x y ∨ ∃ v w, into G x v ∧ v ∈ U ∧ rtc (ustep U) v w ∧ into G y w.

  Lemma ustep_sym U v w : ustep U v w → ustep U w v.
  Proof using. intros (? & ? & ?). split_and!; [by apply spouse_sym|done|done]. Qed.
  Lemma ustep_rsym U v w : rtc (ustep U) v w → rtc (ustep U) w v.
  Proof using. intros Hr. apply rtc_flip in Hr. eapply rtc_subrel; [|exact Hr]. intros a b Hab. by apply ustep_sym. Qed.
  Lemma ustep_in U v w : v ∈ U → rtc (ustep U) v w → w ∈ U.
  Proof using. intros Hv Hr. induction Hr as [|a b c (_ & _ & Hb) _ IH]; auto. Qed.
  Lemma cc_sym U x y : cc U x y → cc U y x.
  Proof using.
    intros [Ha|(v & w & H1 & H2 & H3 & H4)]; [left; by apply madj_sym|right]. exists w, v. split_and!; [done|by eapply ustep_in|by apply ustep_rsym|done].
  Qed.
  Lemma cc_mono U U' x y : U ⊆ U' → cc U x y → cc U' x y.
  Proof using.
    intros HUU [Ha|(v & w & H1 & H2 & H3 & H4)]; [by left|right]. exists v, w. split_and!; [done|by apply HUU| |done].
    eapply rtc_subrel; [|exact H3]. intros a b (? & ? & ?). split_and!; [done|by apply HUU..].
  Qed.
  Lemma no_nbr x y : ¬ neighbor G x y.
  Proof using HU. unfold neighbor. rewrite HU. clear. set_solver. Qed.
  Lemma cc_sink_into U x z : x ∈ U → usink U z → cc U x z → ∃ v, into G x v ∧ v ∈ U ∧ rtc (ustep U) v z.
  Proof using HU.
    intros Hx [Hz Hs] [[Ha|[Ha|[Ha|Ha]]]|(v & w & H1 & H2 & H3 & H4)].
    - exists z. split; [by left|]. split; [done|apply rtc_refl].
    - by destruct (Hs x Hx).
    - exists z. split; [by right|]. split; [done|apply rtc_refl].
    - by apply no_nbr in Ha.
    - exists v. split; [done|]. split; [done|]. assert (w ∈ U) as Hw by by eapply ustep_in.
      destruct H4 as [H4|H4]; [by destruct (Hs w Hw)|]. eapply rtc_r; [exact H3|]. split; [by apply spouse_sym|done].
  Qed.
  Lemma cc_trans U x y z : x ∈ U → y ∈ U → usink U z → cc U x z → cc U y z → cc U x y.
  Proof using HU.
    intros Hx Hy Hz H1 H2. apply (cc_sink_into U x z Hx Hz) in H1 as (v & V1 & V2 & V3).
    apply (cc_sink_into U y z Hy Hz) in H2 as (w & W1 & W2 & W3). right. exists v, w. split_and!; [done|done| |done].
    etrans; [exact V3|by apply ustep_rsym].
  Qed.

  Lemma usink_above U x : x ∈ U → ∃ z, usink U z ∧ rtc (edge D) x z.
  Proof using Hac.
    intros Hx. assert (∀ n (L : nset), size L = n → L ⊆ U → (∃ w, w ∈ L) → (∀ a b, a ∈ L → (a, b) ∈ D → b ∈ U → b ∈ L) → ∃ z, usink U z ∧ z ∈ L) as Hind.
    { induction n as [n IH] using (well_founded_induction lt_wf). intros L Hn HL (w & Hw) Hc.
      destruct (decide (set_Exists (λ v, (w, v) ∈ D) U)) as [(v & Hv & Hwv)|Hno].
      - set (L' := filter (λ a, reachb D w a = true) L).
        destruct (IH (size L')) with (L := L') as (z & Hz1 & Hz2); [|done| | | |].
        + rewrite <-Hn. apply subset_size. split; [intros u Hu; by apply elem_of_filter in Hu as [_ ?]|]. intros Hsub.
          assert (w ∈ L') as Hw' by by apply Hsub. apply elem_of_filter in Hw' as [Hw' _]. apply reachb_spec in Hw'. by apply (Hac w).
        + intros u Hu. apply elem_of_filter in Hu as [_ Hu]. by apply HL.
        + exists v. apply elem_of_filter. split; [|by apply (Hc w)]. apply reachb_spec. by apply tc_once.
        + intros a b Ha Hab Hb. apply elem_of_filter in Ha as [Ha1 Ha2]. apply elem_of_filter. split; [|by apply (Hc a)].
          apply reachb_spec. apply reachb_spec in Ha1. by eapply tc_r.
        + exists z. split; [done|]. by apply elem_of_filter in Hz2 as [_ ?].
      - exists w. split; [|done]. split; [by apply HL|]. intros v Hv Hwv. apply Hno. by exists v. }
    set (L := filter (λ a, x = a ∨ reachb D x a = true) U).
    destruct (Hind _ L eq_refl) as (z & Hz1 & Hz2).
    - intros u Hu. by apply elem_of_filter in Hu as [_ ?].
    - exists x. apply elem_of_filter. auto.
    - intros a b Ha Hab Hb. apply elem_of_filter in Ha as [Ha _]. apply elem_of_filter. split; [|done]. right. apply reachb_spec.
      destruct Ha as [->|Ha]; [by apply tc_once|]. apply reachb_spec in Ha. by eapply tc_r.
    - exists z. split; [done|]. apply elem_of_filter in Hz2 as [[->|Hr] _]; [apply rtc_refl|]. by apply tc_rtc, reachb_spec.
  Qed.
  Lemma anclosed_sink U z : anclosed U → usink U z → anclosed (U ∖ {[z]}).
  Proof using.
    intros Hc [Hz Hs] x y Hxy Hy. apply elem_of_difference in Hy as [Hy1 Hy2]. apply elem_of_difference. split; [by eapply Hc|].
    intros ->%elem_of_singleton. by apply (Hs y).
  Qed.
  Lemma anclosed_rtc U x y : anclosed U → rtc (edge D) x y → y ∈ U → x ∈ U.
  Proof using. intros Hc Hr. induction Hr as [|a b c Hab _ IH]; [done|]. intros Hc'. eapply Hc; [exact Hab|by apply IH]. Qed.

  Lemma add_contr W x y z : I W x y → I (W ∪ {[y]}) x z → I (W ∪ {[z]}) x y.
  Proof using Icomp Icontr. intros H1 H2. apply Icomp; [done|]. by eapply Icontr. Qed.

  Lemma pairwise_aug U : U ⊆ N → anclosed U → ∀ x y, x ∈ U → y ∈ U → x ≠ y → ¬ cc U x y → I (U ∖ {[x; y]}) x y.
  Proof using HU Hac Hpw Icomp Icontr Iint Isym Istab.
    clear HN.
    remember (size U) as n eqn:Hn. revert U Hn. induction n as [n IH] using (well_founded_induction lt_wf). intros U Hn HUN Hc.
    assert (∀ z, usink U z → ∀ x y, x ∈ U → y ∈ U → x ≠ z → y ≠ z → x ≠ y → ¬ cc U x y → I (U ∖ {[x; y; z]}) x y) as IH'.
    { intros z Hz x y Hx Hy Hxz Hyz Hxy Hcc. replace (U ∖ {[x; y; z]}) with ((U ∖ {[z]}) ∖ {[x; y]}) by (clear; set_solver).
      apply (IH (size (U ∖ {[z]}))); [|done| |by apply anclosed_sink| | |done|].
      - rewrite Hn. apply subset_size. destruct Hz as [Hz _]. clear -Hz. set_solver.
      - clear -HUN. set_solver.
      - clear -Hx Hxz. set_solver.
      - clear -Hy Hyz. set_solver.
      - intros Hcc'. apply Hcc. eapply cc_mono; [|exact Hcc']. clear. set_solver. }
    assert (∀ x y, x ∈ U → y ∈ U → x ≠ y → ¬ cc U x y → (∀ u, u ∈ U → rtc (edge D) u x ∨ rtc (edge D) u y) → I (U ∖ {[x; y]}) x y) as Hbase.
    { intros x y Hx Hy Hxy Hcc Hall. apply Hpw; [by apply HUN..|done| |].
      - intros Ha. apply Hcc. by left.
      - intros u. split.
        + intros Hu. apply elem_of_difference in Hu as [Hu1 Hu2]. split; [by apply Hall|]. clear -Hu2. set_solver.
        + intros ([Hu|Hu] & Hux & Huy); (apply elem_of_difference; split; [by eapply anclosed_rtc|clear -Hux Huy; set_solver]). }
    assert (∀ x y z, U ∖ {[x; y; z]} ∪ {[z]} = U ∖ {[x; y]} ∨ z ∉ U ∨ z = x ∨ z = y) as Hset.
    { intros x y z. destruct (decide (z ∈ U)) as [Hz|]; [|auto]. destruct (decide (z = x)); [auto|]. destruct (decide (z = y)); [auto|]. left.
      apply set_eq. intros u. destruct (decide (u = z)) as [->|]; set_solver. }
    assert (∀ x y z, z ∈ U → z ≠ x → z ≠ y → U ∖ {[x; y; z]} ∪ {[z]} = U ∖ {[x; y]}) as Hset' by (intros x y z ? ? ?; destruct (Hset x y z) as [?|[?|[?|?]]]; done).
    assert (∀ x y z : node, U ∖ {[x; y; z]} = U ∖ {[x; z; y]}) as Hperm by (intros; set_solver).
    assert (∀ x y z : node, U ∖ {[x; y; z]} = U ∖ {[y; x; z]}) as Hperm2 by (intros; set_solver).
    assert (∀ x y : node, U ∖ {[x; y]} = U ∖ {[y; x]}) as Hcomm by (intros; set_solver).
    clear Hset.
    (* one more sink [z] away from [x], by composition *)
    assert (∀ x y z, usink U y → usink U z → x ∈ U → x ≠ y → x ≠ z → y ≠ z → ¬ cc U x y → ¬ cc U x z → I (U ∖ {[x; y]}) x y) as Hcomp.
    { intros x y z Hy Hz Hx Hxy Hxz Hyz H1 H2. rewrite <-(Hset' x y z) by (done || apply Hz).
      apply Icomp; [by apply IH'; [..|apply Hy| | | |]|]. rewrite Hperm. apply IH'; [done|done|apply Hz|done|done|done|done]. }
    assert (∀ x y, I (U ∖ {[x; y]}) y x → I (U ∖ {[x; y]}) x y) as Hsw by (intros x y Hi; apply Isym; [set_solver|set_solver|done]).
    (* both sinks *)
    assert (∀ x y, usink U x → usink U y → x ≠ y → ¬ cc U x y → I (U ∖ {[x; y]}) x y) as HA.
    { intros x y Hx Hy Hxy Hcc. destruct (decide (set_Exists (λ z, z ≠ x ∧ z ≠ y ∧ set_Forall (λ w, (z, w) ∉ D) U) U)) as [(z & HzU & Hzx & Hzy & Hz)|Hno].
      - assert (usink U z) as Hz' by (split; [done|]; intros w Hw; by apply Hz).
        apply Istab. intros Hr.
        assert (¬ ¬ cc U x z) as Hxz by (intros Hn'; by apply Hr, (Hcomp x y z Hy Hz' (proj1 Hx) Hxy (not_eq_sym Hzx) (not_eq_sym Hzy) Hcc Hn')).
        assert (¬ ¬ cc U y z) as Hyz.
        { intros Hn'. assert (I (U ∖ {[y; x]}) y x) as Hi.
          { apply (Hcomp y x z Hx Hz' (proj1 Hy)); [done|done|done| |done]. intros H1. by apply Hcc, cc_sym. }
          rewrite <-Hcomm in Hi. by apply Hsw in Hi. }
        apply Hxz. intros H1. apply Hyz. intros H2. apply Hcc. by apply (cc_trans U x y z (proj1 Hx) (proj1 Hy) Hz').
      - apply Hbase; [apply Hx|apply Hy|done|done|]. intros u Hu. destruct (usink_above U u Hu) as (z & Hz & Huz).
        destruct (decide (z = x)) as [->|Hzx]; [by left|]. destruct (decide (z = y)) as [->|Hzy]; [by right|]. exfalso. apply Hno.
        exists z. split; [apply Hz|]. split; [done|]. split; [done|]. intros w Hw. by apply Hz. }
    (* [y] a sink *)
    assert (∀ x y, x ∈ U → usink U y → x ≠ y → ¬ cc U x y → I (U ∖ {[x; y]}) x y) as HB.
    { intros x y Hx Hy Hxy Hcc. destruct (decide (set_Forall (λ w, (x, w) ∉ D) U)) as [Hxs|Hxs]; [apply HA; [|done..]; split; [done|]; intros w Hw; by apply Hxs|].
      destruct (decide (set_Exists (λ z, z ≠ y ∧ set_Forall (λ w, (z, w) ∉ D) U) U)) as [(z & HzU & Hzy & Hz)|Hno].
      - assert (usink U z) as Hz' by (split; [done|]; intros w Hw; by apply Hz).
        assert (z ≠ x) as Hzx by (intros ->; done).
        apply Istab. intros Hr.
        assert (¬ ¬ cc U x z) as Hxz by (intros Hn'; by apply Hr, (Hcomp x y z Hy Hz' Hx Hxy (not_eq_sym Hzx) (not_eq_sym Hzy) Hcc Hn')).
        assert (¬ ¬ cc U y z) as Hyz.
        { intros Hn'. assert (I (U ∖ {[y; z]}) y z) as H1 by by apply HA.
          assert (I (U ∖ {[y; x; z]}) y x) as H2.
          { apply IH'; [done|apply Hy|done|done|done|done|]. intros H2. by apply Hcc, cc_sym. }
          assert (I (U ∖ {[y; x; z]} ∪ {[z]}) y x) as H3.
          { apply add_contr; [done|]. rewrite (Hperm y x z), Hset'; [done|done|done|done]. }
          rewrite Hset' in H3 by done. rewrite <-Hcomm in H3. by apply Hsw in H3. }
        apply Hxz. intros H1. apply Hyz. intros H2. apply Hcc. by apply (cc_trans U x y z Hx (proj1 Hy) Hz').
      - apply Hbase; [done|apply Hy|done|done|]. intros u Hu. destruct (usink_above U u Hu) as (z & Hz & Huz).
        destruct (decide (z = y)) as [->|Hzy]; [by right|]. exfalso. apply Hno. exists z. split; [apply Hz|]. split; [done|]. intros w Hw. by apply Hz. }
    intros x y Hx Hy Hxy Hcc.
    destruct (usink_above U x Hx) as (z & Hz & _).
    destruct (decide (z = y)) as [->|Hzy]; [by apply HB|].
    destruct (decide (z = x)) as [->|Hzx]; [apply Hsw; rewrite Hcomm; apply HB; [done|done|done|]; intros H1; by apply Hcc, cc_sym|].
    apply Istab. intros Hr.
    assert (∀ a b, a ∈ U → b ∈ U → a ≠ b → z ≠ a → z ≠ b → ¬ cc U a b → ¬ cc U a z → I (U ∖ {[a; b]}) a b) as Hstep.
    { intros a b Ha Hb Hab Hza Hzb H1 H2. rewrite <-(Hset' a b z) by (done || apply Hz). apply add_contr; [by apply IH'|].
      rewrite (Hperm a b z), Hset'; [|done..]. by apply HB. }
    assert (¬ ¬ cc U x z) as Hxz by (intros Hn'; by apply Hr, (Hstep x y)).
    assert (¬ ¬ cc U y z) as Hyz.
    { intros Hn'. assert (I (U ∖ {[y; x]}) y x) as Hi by (apply Hstep; [done..| |done]; intros H1; by apply Hcc, cc_sym).
      rewrite <-Hcomm in Hi. by apply Hsw in Hi. }
    apply Hxz. intros H1. apply Hyz. intros H2. apply Hcc. by apply (cc_trans U x y z Hx Hy Hz).
  Qed.

  (** Separation in the undirected graph [cc U]. *)
  Definition augstep (U C : nset) (u v : node) : Prop := cc U u v ∧ u ∈ U ∖ C ∧ v ∈ U ∖ C.
  Lemma global_aug U : U ⊆ N → anclosed U → ∀ C a b, C ⊆ U → a ∈ U ∖ C → b ∈ U ∖ C → a ≠ b → ¬ rtc (augstep U C) a b → I C a b.
  Proof using HU Hac HN Hpw Icomp Icontr Iint Isym Istab.
    intros HUN Hc C. remember (size (U ∖ C)) as n eqn:Hn. revert C Hn. induction n as [n IH] using (well_founded_induction lt_wf).
    intros C Hn a b HC Ha Hb Hab Hs.
    destruct (decide (set_Exists (λ z, z ≠ a ∧ z ≠ b) (U ∖ C))) as [(z & Hz & Hza & Hzb)|Hno].
    - assert (∀ z C', z ∈ U ∖ C → C' = C ∪ {[z]} → size (U ∖ C') < n) as Hsz.
      { clear -Hn. intros z C' Hz ->. rewrite Hn. apply subset_size. set_solver. }
      assert (∀ z u v, rtc (augstep U (C ∪ {[z]})) u v → rtc (augstep U C) u v) as Hmono.
      { intros z' u v Hr. eapply rtc_subrel; [|exact Hr]. intros p q (H1 & H2 & H3). split_and!; [done|clear -H2; set_solver|clear -H3; set_solver]. }
      assert (I (C ∪ {[z]}) a b) as H1.
      { eapply (IH (size (U ∖ (C ∪ {[z]})))); [by apply (Hsz z)|done|clear -HC Hz; set_solver|clear -Ha Hza; set_solver|clear -Hb Hzb; set_solver|done|].
        intros Hr. by apply Hs, (Hmono z). }
      apply Istab. intros Hr.
      assert (¬ ¬ rtc (augstep U C) a z) as Haz.
      { intros Hnr. assert (I (C ∪ {[b]}) a z) as H2.
        { eapply (IH (size (U ∖ (C ∪ {[b]})))); [by apply (Hsz b)|done|clear -HC Hb; set_solver|clear -Ha Hab; set_solver|clear -Hz Hzb; set_solver|done|].
          intros Hr'. by apply Hnr, (Hmono b). }
        apply Hr. by apply (Iint C a b z). }
      assert (¬ ¬ rtc (augstep U C) z b) as Hzb'.
      { intros Hnr. assert (I (C ∪ {[a]}) z b) as H2.
        { eapply (IH (size (U ∖ (C ∪ {[a]})))); [by apply (Hsz a)|done|clear -HC Ha; set_solver|clear -Hz Hza; set_solver|clear -Hb Hab; set_solver|done|].
          intros Hr'. by apply Hnr, (Hmono a). }
        apply Hr. apply Isym; [clear -Hb; set_solver|clear -Ha; set_solver|]. apply (Iint C b a z); [done| |].
        - apply Isym; [clear -Ha Hza; set_solver|clear -Hb Hzb; set_solver|done].
        - apply Isym; [clear -Hz Hza; set_solver|clear -Hb Hab; set_solver|done]. }
      apply Haz. intros R1. apply Hzb'. intros R2. apply Hs. by etrans.
    - assert (C = U ∖ {[a; b]}) as ->.
      { apply set_eq. intros u. split.
        - intros Hu. apply elem_of_difference. split; [by apply HC|]. clear -Hu Ha Hb. set_solver.
        - intros Hu. apply elem_of_difference in Hu as [Hu1 Hu2]. destruct (decide (u ∈ C)) as [|Hu3]; [done|]. exfalso. apply Hno. exists u.
          clear -Hu1 Hu2 Hu3. set_solver. }
      apply pairwise_aug; [done|done|clear -Ha; set_solver|clear -Hb; set_solver|done|]. intros Hcc. apply Hs. apply rtc_once. done.
  Qed.

  (** Walks in that graph that avoid [C] give m-connecting walks. *)
  Definition lstep (U C : nset) (s t : node * bool) : Prop :=
    ∃ k, medge G s.1 t.1 k t.2 ∧ s.1 ∈ U ∧ (s.2 || k = true → s.1 ∉ C).
  Lemma lax_walk U C a b s : (∀ u, u ∈ U → opened D C u ∨ rtc (edge D) u a ∨ rtc (edge D) u b) → s.1 ∈ U →
    rtc (lstep U C) (a, true) s → mreach G C a b ∨
      ∃ m, rtc (mstep G C) (a, true) (s.1, m) ∧ (opened D C s.1 ∧ m = s.2 ∨ ¬ opened D C s.1 ∧ m = true).
  Proof using.
    intros HUa Hs1 Hr.
    assert (∀ u m, u ∈ U → rtc (mstep G C) (a, true) (u, m) → mreach G C a b ∨
      ∃ m', rtc (mstep G C) (a, true) (u, m') ∧ (opened D C u ∧ m' = m ∨ ¬ opened D C u ∧ m' = true)) as Hfix.
    { intros u m Hu Hru. destruct (opened_dec D C u) as [Ho|Ho]; [right; exists m; auto|]. destruct (HUa u Hu) as [?|[Hua|Hub]]; [done| |].
      - right. exists true. split; [by apply climb|auto].
      - left. apply rtc_tc in Hub as [->|Hub]; [by exists m|]. exists false. etrans; [exact Hru|]. by apply descend. }
    revert Hs1. refine (rtc_ind_r (λ s, s.1 ∈ U → mreach G C a b ∨
      ∃ m, rtc (mstep G C) (a, true) (s.1, m) ∧ (opened D C s.1 ∧ m = s.2 ∨ ¬ opened D C s.1 ∧ m = true)) _ _ _ s Hr).
    - intros Ha. cbn in *. right. exists true. split; [apply rtc_refl|]. destruct (opened_dec D C a); auto.
    - intros [u mu] [w mw] _ (k & He & Hu & Hk) IH Hw. cbn [fst snd] in *. destruct (IH Hu) as [?|(m & Hm1 & Hm2)]; [by left|].
      apply Hfix; [done|]. eapply rtc_r; [exact Hm1|]. exists k. split; [done|]. cbn. unfold pass.
      destruct Hm2 as [[Ho ->]|[Ho ->]].
      + destruct (mu || k) eqn:E; [by apply Hk|done].
      + cbn. intros HuC. by apply Ho, opened_in.
  Qed.
  Lemma spouses_lax U C v w : v ∈ U → rtc (ustep U) v w → rtc (lstep U C) (v, false) (w, false).
  Proof using.
    intros Hv Hr. induction Hr as [|u v w (H1 & H2 & H3) _ IH]; [apply rtc_refl|]. eapply rtc_l; [|by apply IH].
    exists false. split; [done|]. split; [done|]. done.
  Qed.
  Lemma cc_lax U C u v m : u ∈ U ∖ C → cc U u v → ∃ m', rtc (lstep U C) (u, m) (v, m').
  Proof using HU.
    intros Hu [Ha|(x & y & H1 & H2 & H3 & H4)]; apply elem_of_difference in Hu as [Hu1 Hu2].
    - apply madj_medge in Ha as (k & m' & He). exists m'. apply rtc_once. exists k. done.
    - assert (∃ k, medge G u x k false) as (k & Hk) by (destruct H1 as [?|?]; [by exists true|by exists false]).
      assert (∃ m', medge G y v false m') as (m' & Hm').
      { destruct H4 as [?|?]; [by exists true|exists false; by apply spouse_sym]. }
      exists m'. eapply (rtc_l _ _ (x, false)); [by exists k|]. eapply rtc_r; [by apply (spouses_lax U C x y)|]. exists false. split; [done|]. split; [by eapply ustep_in|done].
  Qed.
  Lemma aug_reach U C a b : (∀ u, u ∈ U → opened D C u ∨ rtc (edge D) u a ∨ rtc (edge D) u b) → b ∈ U →
    rtc (augstep U C) a b → mreach G C a b.
  Proof using HU.
    intros HUa Hb Hr. assert (∃ m, rtc (lstep U C) (a, true) (b, m)) as (m & Hm).
    { refine (rtc_ind_r (λ v, ∃ m, rtc (lstep U C) (a, true) (v, m)) _ _ _ b Hr); [exists true; apply rtc_refl|].
      intros u v _ (H1 & H2 & H3) (m & Hm). destruct (cc_lax U C u v m H2 H1) as (m' & Hm'). exists m'. by etrans. }
    destruct (lax_walk U C a b (b, m) HUa Hb Hm) as [?|(m' & ? & _)]; [done|by exists m'].
  Qed.

  Lemma pairwise_global_rel C a b : C ⊆ N → a ∈ N ∖ C → b ∈ N ∖ C → a ≠ b → ¬ mreach G C a b → I C a b.
  Proof using HU Hac HN Hpw Icomp Icontr Iint Isym Istab.
    intros HC Ha Hb Hab Hn.
    set (U := filter (λ u, set_Exists (λ c, u = c ∨ reachb D u c = true) ({[a; b]} ∪ C)) N).
    assert (∀ u, u ∈ U ↔ u ∈ N ∧ ∃ c, c ∈ ({[a; b]} ∪ C : nset) ∧ rtc (edge D) u c) as HUs.
    { intros u. unfold U. rewrite elem_of_filter. split.
      - intros [(c & Hc & Hu) Hu']. split; [done|]. exists c. split; [done|]. destruct Hu as [->|Hu]; [apply rtc_refl|]. by apply tc_rtc, reachb_spec.
      - intros [Hu (c & Hc & Hr')]. split; [|done]. exists c. split; [done|]. apply rtc_tc in Hr' as [->|Hr']; [by left|right]. by apply reachb_spec. }
    apply elem_of_difference in Ha as [Ha1 Ha2]. apply elem_of_difference in Hb as [Hb1 Hb2].
    assert (∀ c, c ∈ ({[a; b]} ∪ C : nset) → c ∈ U) as Hin.
    { intros c Hc. apply HUs. split; [clear -Hc HC Ha1 Hb1; set_solver|]. exists c. split; [done|apply rtc_refl]. }
    assert (a ∈ U) as HaU by (apply Hin; clear; set_solver). assert (b ∈ U) as HbU by (apply Hin; clear; set_solver).
    eapply (global_aug U).
    - intros u Hu. by apply HUs.
    - intros x y Hxy Hy. apply HUs in Hy as [_ (c & Hc & Hy)]. apply HUs. split; [apply (HN x y); by left|]. exists c. split; [done|].
      by eapply rtc_l.
    - intros c Hc. apply Hin. clear -Hc. set_solver.
    - by apply elem_of_difference.
    - by apply elem_of_difference.
    - done.
    - intros Haug. apply Hn. eapply aug_reach; [|exact HbU|exact Haug]. intros u Hu. apply HUs in Hu as [_ (c & Hc & Hu)].
      apply elem_of_union in Hc as [Hc|Hc]; [|left; by exists c]. right. apply elem_of_union in Hc as [Hc|Hc]; apply elem_of_singleton in Hc as ->; auto.
  Qed.
End global.

(** The instance for m-separation in [H]. *)
Lemma pairwise_global (G H : mixed) (N : nset) :
  mx_un G = ∅ → acyclic (mx_dir G) → (∀ x y, madj G x y → x ∈ N ∧ y ∈ N) → simple H →
  (∀ i j P, i ∈ N → j ∈ N → i ≠ j → ¬ madj G i j →
    (∀ x, x ∈ P ↔ (rtc (edge (mx_dir G)) x i ∨ rtc (edge (mx_dir G)) x j) ∧ x ≠ i ∧ x ≠ j) → ¬ mreach H P i j) →
  ∀ C a b, C ⊆ N → a ∈ N ∖ C → b ∈ N ∖ C → a ≠ b → ¬ mreach G C a b → ¬ mreach H C a b.
Proof.
  intros HU Hac HN Hsi Hpw. apply (pairwise_global_rel G N (λ W x y, ¬ mreach H W x y)); [done..| | | | | |done].
  - intros W x y z H1 H2 Hr. apply mreach_weaken in Hr as [?|?]; [by apply H1|by apply H2].
  - intros W x y z H1 H2 Hr. apply (mreach_contract H W x y z) in Hr as [?|?]; [by apply H1|by apply H2].
  - intros W x y z _ H1 H2 Hr. apply (mreach_intersect H W x y z) in Hr as [?|?]; [by apply H1|by apply H2].
  - intros W x y Hx Hy H1 Hr. apply H1. by apply mreach_sym.
  - intros W x y H1 H2. apply H1. auto.
Qed.
