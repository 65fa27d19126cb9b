(** Towards a larger independence map: one covered reversal or arc addition keeps
    the target an independence map (Meek's conjecture, Chickering 2002). *)
From Verif Require Import Py Spec SpecDsep SpecMec DagModel DsepModel TopoProofs StateProofs ReachProofs OrderProofs QueryProofs
  WalkProofs DsepProofs MarkovProofs ImapProofs EquivProofs.

(** ** Separation of sets and of single nodes *)
Lemma dsepd_pairs E A B C : dsepd E A B C ↔ ∀ a b, a ∈ A → b ∈ B → dsepd E {[a]} {[b]} C.
Proof.
  split.
  - intros H a b Ha Hb. eapply dsepd_mono; [| |exact H]; set_solver.
  - intros H a b l Ha Hb. apply (H a b Ha Hb); set_solver.
Qed.

Lemma one_disj (a : node) (C : nset) : a ∉ C → {[a]} ## C.
Proof. intros Ha x ->%elem_of_singleton. done. Qed.
Lemma one_disj3 (a b : node) (C : nset) : a ≠ b → a ∉ C → b ∉ C → disjoint3 {[a]} {[b]} C.
Proof. intros Hab Ha Hb. split; [|by split; apply one_disj]. apply one_disj. by rewrite elem_of_singleton. Qed.
Lemma one_sub (a : node) (N : nset) : a ∈ N → {[a]} ⊆ N.
Proof. intros Ha x ->%elem_of_singleton. done. Qed.
Lemma one_in (a : node) : a ∈ ({[a]} : nset).
Proof. by apply elem_of_singleton. Qed.

Lemma rtc_tc_ne {R : relation node} x y : rtc R x y → x ≠ y → tc R x y.
Proof. intros H Hne. apply rtc_tc in H as [?|?]; done. Qed.

Lemma tc_first {R : relation node} x y : tc R x y → ∃ z, R x z.
Proof. destruct 1; eauto. Qed.

Lemma imap_adjacent N H G x y : acyclic H → acyclic G → over N H → over N G → imap N H G → adjacent G x y → adjacent H x y.
Proof.
  intros HH HG HoH HoG Hi Hxy.
  assert (x ≠ y) as Hne. { intros ->. apply (HG y). destruct Hxy; by apply tc_once. }
  assert (x ∈ N ∧ y ∈ N) as [Hx Hy]. { destruct Hxy as [Hxy|Hxy]; apply HoG in Hxy; tauto. }
  destruct (decide (adjacent H x y)) as [|Hn]; [done|]. exfalso.
  destruct (nonadjacent_separable N H x y) as (C & H1 & H2 & H3 & H4); [done..|].
  apply (adjacent_not_separated G x y C Hne Hxy). apply Hi; [set_solver|set_solver|done| |done].
  unfold disjoint3. set_solver.
Qed.

(** ** Joining two connections at a node *)
Section join.
  Context (E : arcset) (Hac : acyclic E) (C : nset).

  Lemma reach_join A v dir s : reach E C A (v, dir) → v ∉ C → opened E C v → rtc (bstep E C) (v, true) s →
    s = (v, true) ∨ reach E C A s.
  Proof.
    intros Hr Hv Ho Hs. apply rtc_inv in Hs as [->|([w dir'] & Hst & Hs)]; [by left|]. right.
    assert (reach E C A (w, dir')) as Hw.
    { eapply reach_step; [exact Hr|]. unfold bstep in *. destruct dir'; [destruct dir|]; naive_solver. }
    destruct Hw as (a & Ha & Hw). exists a. split; [done|]. by etrans.
  Qed.

  Lemma connected_through a b v da db : a ∉ C → b ∉ C → v ∉ C → v ≠ b →
    reach E C {[a]} (v, da) → reach E C {[b]} (v, db) →
    opened E C v ∨ rtc (edge E) v a ∨ rtc (edge E) v b → ¬ dsepd E {[a]} {[b]} C.
  Proof.
    intros HaC HbC HvC Hvb Ha Hb Hor Hsep.
    destruct (opened_dec E C v) as [Ho|Ho].
    - assert (dsepd E {[v]} {[b]} C) as Hs.
      { rewrite dsepd_reach by (done || by apply one_disj). intros x dir ->%elem_of_singleton (v' & ->%elem_of_singleton & Hr).
        apply (reach_join {[a]} v da) in Hr; [|done..]. destruct Hr as [[= -> ->]|Hr]; [done|].
        rewrite dsepd_reach in Hsep by (done || by apply one_disj). apply (Hsep b dir); [apply one_in|done]. }
      apply dsepd_sym in Hs. rewrite dsepd_reach in Hs by (done || by apply one_disj). apply (Hs v db); [apply one_in|done].
    - destruct Hor as [?|[Hva|Hvb']]; [done|..].
      + destruct (reach_down E C {[b]} v a db Hb Ho Hva) as [d' Hr]. apply dsepd_sym in Hsep.
        rewrite dsepd_reach in Hsep by (done || by apply one_disj). apply (Hsep a d'); [apply one_in|done].
      + destruct (reach_down E C {[a]} v b da Ha Ho Hvb') as [d' Hr].
        rewrite dsepd_reach in Hsep by (done || by apply one_disj). apply (Hsep b d'); [apply one_in|done].
  Qed.
End join.

(** ** Adding [x -> z] next to [x -> y -> z] *)
Section shortcut.
  Context (G : arcset) (C : nset) (x y z : node) (Hxy : (x, y) ∈ G) (Hyz : (y, z) ∈ G) (Hy : y ∉ C).
  Notation G' := ({[(x, z)]} ∪ G).

  Lemma shortcut_rtc u v : rtc (edge G') u v → rtc (edge G) u v.
  Proof.
    induction 1 as [u|u w v Huw _ IH]; [apply rtc_refl|]. apply elem_of_union in Huw as [[= -> ->]%elem_of_singleton|Huw].
    - eapply rtc_l; [exact Hxy|]. by eapply rtc_l.
    - by eapply rtc_l.
  Qed.
  Lemma shortcut_opened v : opened G' C v → opened G C v.
  Proof. intros (c & Hc & Hv). exists c. split; [done|]. by apply shortcut_rtc. Qed.

  Lemma shortcut_reach A s : reach G' C A s → reach G C A s.
  Proof.
    revert s. apply reach_ind; [apply reach_start|]. intros [v dir] [w dir'] _ IH Hst.
    unfold bstep in Hst. destruct dir'.
    - destruct Hst as [[Heq%elem_of_singleton|Hwv]%elem_of_union Hst].
      + injection Heq as -> ->. assert (reach G C A (y, true)) as Hr.
        { eapply reach_step; [exact IH|]. unfold bstep. split; [done|]. destruct dir; [done|by apply shortcut_opened]. }
        eapply reach_step; [exact Hr|]. unfold bstep. done.
      + eapply reach_step; [exact IH|]. unfold bstep. split; [done|]. destruct dir; [done|by apply shortcut_opened].
    - destruct Hst as [[Heq%elem_of_singleton|Hvw]%elem_of_union Hst].
      + injection Heq as -> ->. assert (reach G C A (y, false)) as Hr by (eapply reach_step; [exact IH|]; done).
        eapply reach_step; [exact Hr|]. done.
      + eapply reach_step; [exact IH|]. done.
  Qed.
End shortcut.

(** ** Adding [x -> y] next to [x -> z <- y] *)
Section addparent.
  Context (G : arcset) (C : nset) (x y z : node) (Hxz : (x, z) ∈ G) (Hyz : (y, z) ∈ G) (Hy : y ∉ C).
  Notation G' := ({[(x, y)]} ∪ G).
  Context (Hac : acyclic G').

  Lemma addparent_rtc u v : rtc (edge G') u v → rtc (edge G) u v ∨ rtc (edge G) u x ∧ rtc (edge G) y v.
  Proof.
    intros H. destruct (decide (u = v)) as [->|Hne]; [left; apply rtc_refl|]. apply rtc_tc_ne in H; [|done].
    apply tc_add_arc in H as [H|H]; [left; by apply tc_rtc|by right].
  Qed.
  Lemma addparent_opened v : opened G' C v → opened G C v ∨ rtc (edge G) v x ∧ opened G C y.
  Proof.
    intros (c & Hc & Hv). apply addparent_rtc in Hv as [Hv|[Hv1 Hv2]]; [left; by exists c|]. right. split; [done|]. by exists c.
  Qed.
  Lemma addparent_no_back : ¬ rtc (edge G) y x.
  Proof.
    intros H. apply (Hac y).
    assert (∀ F u v, rtc (edge G) u v → rtc (edge (F ∪ G)) u v) as Hmono.
    { clear. intros F u v H. induction H as [v|v w u Hvw _ IH]; [apply rtc_refl|]. eapply rtc_l; [|exact IH]. unfold edge in *. set_solver. }
    eapply tc_rtc_l; [apply Hmono, H|]. apply tc_once. unfold edge. set_solver.
  Qed.

  (** The common child is opened: nothing new is connected. *)
  Lemma addparent_reach_opened A s : opened G C z → reach G' C A s →
    reach G C A s ∨ s = (y, false) ∧ reach G C A (y, true).
  Proof.
    intros Hz. assert (∀ v, opened G' C v → opened G C v) as Ho.
    { intros v Hv. apply addparent_opened in Hv as [?|[Hv _]]; [done|]. destruct Hz as (c & Hc & Hzc). exists c. split; [done|].
      etrans; [exact Hv|]. by eapply rtc_l. }
    assert (∀ dir, reach G C A (y, dir) → reach G C A (x, true)) as Hyx.
    { intros dir Hr. eapply (reach_step _ _ _ (z, false)); [eapply reach_step; [exact Hr|]; done|]. done. }
    revert s. apply reach_ind; [intros a Ha; left; by apply reach_start|]. intros [v dir] [w dir'] _ IH Hst.
    destruct IH as [IH|[[= -> ->] IH]].
    - unfold bstep in Hst. destruct dir'.
      + destruct Hst as [[Heq%elem_of_singleton|Hwv]%elem_of_union Hst].
        * injection Heq as -> ->. left. by eapply Hyx.
        * left. eapply reach_step; [exact IH|]. unfold bstep. split; [done|]. destruct dir; [done|by apply Ho].
      + destruct Hst as [[Heq%elem_of_singleton|Hvw]%elem_of_union Hst].
        * injection Heq as -> ->. right. split; [done|].
          eapply (reach_step _ _ _ (z, false)); [eapply reach_step; [exact IH|]; done|]. done.
        * left. eapply reach_step; [exact IH|]. done.
    - unfold bstep in Hst. destruct dir'.
      + destruct Hst as [[Heq%elem_of_singleton|Hwv]%elem_of_union Hst].
        * injection Heq as ->. left. by eapply Hyx.
        * left. eapply reach_step; [exact IH|]. done.
      + destruct Hst as [[Heq%elem_of_singleton|Hvw]%elem_of_union Hst].
        * injection Heq as Heq1 _. exfalso. apply addparent_no_back. rewrite Heq1. apply rtc_refl.
        * left. eapply reach_step; [exact IH|]. done.
  Qed.

  (** It is not: a new connection makes the descendants of [z] connected. *)
  Lemma addparent_reach_closed A s d : ¬ opened G C z → rtc (edge G) z d → reach G' C A s →
    reach G C A s ∨ ∃ dir, reach G C A (d, dir).
  Proof.
    intros Hz Hzd.
    assert (∀ dir, reach G C A (y, dir) → ∃ dir, reach G C A (d, dir)) as Hyd.
    { intros dir Hr. apply (reach_down G C A z d false); [|done|done]. eapply reach_step; [exact Hr|]. done. }
    assert (∀ dir, reach G C A (x, dir) → x ∉ C → ∃ dir, reach G C A (d, dir)) as Hxd.
    { intros dir Hr Hx. apply (reach_down G C A z d false); [|done|done]. eapply reach_step; [exact Hr|]. done. }
    revert s. apply reach_ind; [intros a Ha; left; by apply reach_start|]. intros [v dir] [w dir'] _ IH Hst.
    destruct IH as [IH|IH]; [|by right]. unfold bstep in Hst. destruct dir'.
    - destruct Hst as [[Heq%elem_of_singleton|Hwv]%elem_of_union Hst].
      + injection Heq as -> ->. right. by eapply Hyd.
      + destruct dir.
        * left. eapply reach_step; [exact IH|]. done.
        * destruct (opened_dec G C v) as [Ho|Ho]; [left; eapply reach_step; [exact IH|]; done|].
          apply addparent_opened in Hst as [?|[Hvx _]]; [done|]. right.
          destruct (reach_down G C A v x false IH Ho Hvx) as [dir Hr]. apply (Hxd dir Hr).
          intros Hx. apply Ho. by exists x.
    - destruct Hst as [[Heq%elem_of_singleton|Hvw]%elem_of_union Hst].
      + injection Heq as -> ->. right. by eapply Hxd.
      + left. eapply reach_step; [exact IH|]. done.
  Qed.

  (** Nothing below [y] is involved: nothing new is connected. *)
  Lemma addparent_reach_above a s : ¬ opened G C y → ¬ rtc (edge G) y a → reach G' C {[a]} s →
    (rtc (edge G) y s.1 → s.2 = false) ∧ (¬ rtc (edge G) y s.1 → reach G C {[a]} s).
  Proof.
    intros Hno Ha. assert (∀ v, rtc (edge G) y v → ¬ opened G' C v) as Hv.
    { intros v Hyv Hv. apply addparent_opened in Hv as [(c & Hc & Hvc)|[_ ?]]; [|done]. apply Hno. exists c. split; [done|]. by etrans. }
    revert s. apply reach_ind.
    { intros a' ->%elem_of_singleton. cbn. split; [done|]. intros _. apply reach_start, one_in. }
    intros [v dir] [w dir'] _ [IH1 IH2] Hst. cbn [fst snd] in *. unfold bstep in Hst. destruct dir'.
    - destruct Hst as [Hwv Hst].
      assert (¬ rtc (edge G) y v) as Hyv.
      { intros Hyv. rewrite (IH1 Hyv) in Hst. by apply (Hv v). }
      assert ((w, v) ∈ G) as Hwv'.
      { apply elem_of_union in Hwv as [[= -> ->]%elem_of_singleton|?]; [|done]. exfalso. apply Hyv, rtc_refl. }
      split.
      + intros Hyw. exfalso. apply Hyv. by eapply rtc_r.
      + intros Hyw. eapply reach_step; [by apply IH2|]. unfold bstep. split; [done|]. destruct dir; [done|].
        by apply addparent_opened in Hst as [?|[_ ?]].
    - destruct Hst as [Hvw Hst]. split; [done|]. intros Hyw.
      assert ((v, w) ∈ G) as Hvw'.
      { apply elem_of_union in Hvw as [[= -> ->]%elem_of_singleton|?]; [|done]. exfalso. apply Hyw, rtc_refl. }
      eapply reach_step; [apply IH2|done]. intros Hyv. apply Hyw. by eapply rtc_r.
  Qed.
End addparent.

(** ** The highest descendant *)
Section top.
  Context (N : nset) (H G : arcset) (HacH : acyclic H) (HacG : acyclic G) (HoH : over N H) (HoG : over N G) (Hi : imap N H G).
  Context (y : node) (Hsink : ∀ v, (y, v) ∉ H).

  Definition highest (S : node → Prop) (d : node) : Prop := S d ∧ ∀ e, S e → ¬ tc (edge H) e d.

  Lemma highest_exists (S : node → Prop) `{!∀ v, Decision (S v)} v : S v → v ∈ N → ∃ d, highest S d ∧ (d = v ∨ tc (edge H) d v).
  Proof.
    intros Hv HvN. destruct (exists_topo N H HacH HoH) as [l Hl].
    assert (∀ n v i, i < n → S v → l !! i = Some v → ∃ d, highest S d ∧ (d = v ∨ tc (edge H) d v)) as Hind.
    { clear v Hv HvN. intros n. induction n as [|n IH]; intros v i Hin Hv Hiv; [lia|].
      destruct (decide (set_Exists (λ e, S e ∧ tc (edge H) e v) N)) as [(e & HeN & He & Hev)|Hn].
      - assert (∃ j, l !! j = Some e ∧ j < i) as (j & Hj & Hlt).
        { destruct Hl as (Hnd & HN & Hord). assert (e ∈ l) as He' by by apply HN. apply elem_of_list_lookup in He' as [j Hj]. exists j. split; [done|].
          clear -Hev Hj Hiv Hord HN HoH. revert j Hj. induction Hev as [e v H1|e w v H1 H2 IH]; intros j Hj; [by eapply Hord|].
          destruct (HoH e w H1) as [_ Hw]. apply HN in Hw. apply elem_of_list_lookup in Hw as [k Hk].
          pose proof (IH Hiv k Hk). pose proof (Hord j k e w H1 Hj Hk). lia. }
        destruct (IH e j) as (d & Hd & Hde); [lia|done|done|]. exists d. split; [done|]. right. destruct Hde as [->|Hde]; [done|]. by eapply tc_transitive.
      - exists v. split; [|by left]. split; [done|]. intros e He Hev. apply Hn. exists e. split; [|done].
        by apply (tc_over N H) in Hev as [? _]. }
    destruct Hl as (Hnd & HN & Hord). apply HN in HvN. apply elem_of_list_lookup in HvN as [i Hiv]. by apply (Hind (Datatypes.S i) v i); [lia|..].
  Qed.

  Lemma highest_unique d1 d2 : highest (tc (edge G) y) d1 → highest (tc (edge G) y) d2 → d1 = d2.
  Proof.
    intros [Hd1 Hm1] [Hd2 Hm2]. destruct (decide (d1 = d2)) as [|Hne]; [done|]. exfalso.
    assert (d1 ∈ N ∧ d2 ∈ N) as [HN1 HN2].
    { apply (tc_over N G) in Hd1 as [_ ?]; [|done]. apply (tc_over N G) in Hd2 as [_ ?]; [|done]. done. }
    set (C := filter (λ v, tc (edge H) v d1 ∨ tc (edge H) v d2) N).
    assert (∀ v, v ∈ C ↔ v ∈ N ∧ (tc (edge H) v d1 ∨ tc (edge H) v d2)) as HC.
    { intros v. unfold C. rewrite elem_of_filter. tauto. }
    assert (d1 ∉ C) as Hn1. { rewrite HC. intros [_ [Hc|Hc]]; [by apply HacH in Hc|by apply (Hm2 d1)]. }
    assert (d2 ∉ C) as Hn2. { rewrite HC. intros [_ [Hc|Hc]]; [by apply (Hm1 d2)|by apply HacH in Hc]. }
    assert (pa H d1 ⊆ C) as Hpa.
    { intros p Hp. apply elem_of_pa in Hp. apply HC. split; [by apply HoH in Hp as []|]. left. by apply tc_once. }
    assert (dsepd H {[d1]} {[d2]} C) as Hsep.
    { replace C with (pa H d1 ∪ C ∖ pa H d1) by (symmetry; by apply union_difference_L).
      apply dsepd_weak; [done|apply one_disj; auto|apply one_disj; clear -Hn1; set_solver|]. apply local_markov; [done|].
      intros v [->%elem_of_singleton|[Hv Hvp]%elem_of_difference]%elem_of_union.
      - split; [done|]. split; [auto|]. apply Hm2. done.
      - split; [by intros ->|]. split; [done|]. intros Htc. apply HC in Hv as [_ [Hv|Hv]].
        + apply (HacH d1). by eapply tc_transitive.
        + apply (Hm2 d1 Hd1). by eapply tc_transitive. }
    apply Hi in Hsep; [|by apply one_sub|by apply one_sub|intros v; rewrite HC; tauto|by apply one_disj3].
    assert (¬ opened G C y) as Hno.
    { intros (c & Hc & Hyc). apply HC in Hc as [_ Hc]. destruct (decide (y = c)) as [<-|Hyc'].
      - destruct Hc as [Hc|Hc]; apply tc_first in Hc as (v & Hv); by apply Hsink in Hv.
      - apply rtc_tc_ne in Hyc; [|done]. destruct Hc as [Hc|Hc]; [by apply (Hm1 c)|by apply (Hm2 c)]. }
    rewrite dsepd_reach in Hsep by (done || by apply one_disj).
    destruct (reach_down G C {[d1]} y d2 true) as [dir Hr]; [|done|by apply tc_rtc|].
    - apply (reach_up G C {[d1]} d1); [apply one_in|done|by apply tc_rtc].
    - apply (Hsep d2 dir); [apply one_in|done].
  Qed.

  Lemma highest_below d s : highest (tc (edge G) y) d → tc (edge G) y s → s = d ∨ tc (edge H) d s.
  Proof.
    intros Hd Hs. destruct (highest_exists (tc (edge G) y) s) as (d' & Hd' & Hs'); [done|by apply (tc_over N G) in Hs as [_ ?]|].
    rewrite (highest_unique d' d Hd' Hd) in Hs'. naive_solver.
  Qed.

  (** The separations of [H] among nodes other than [y] survive the new arc. *)
  Context (x z d : node) (Hxz : (x, z) ∈ G) (Hyz : (y, z) ∈ G) (Hd : highest (tc (edge G) y) d) (Hzd : rtc (edge G) z d).
  Notation G' := ({[(x, y)]} ∪ G).
  Context (Hac' : acyclic G').

  Lemma addparent_new a b C dir : a ∉ C → b ∉ C → y ∉ C → b ≠ y → ¬ opened G C z → dsepd G {[a]} {[b]} C →
    reach G' C {[a]} (b, dir) → (∃ dir, reach G C {[a]} (d, dir)) ∧ (opened G C y ∨ rtc (edge G) y a ∨ rtc (edge G) y b).
  Proof.
    intros HaC HbC HyC Hby Hz Hsep Hr. rewrite dsepd_reach in Hsep by (done || by apply one_disj). split.
    - destruct (addparent_reach_closed G C x y z Hxz Hyz HyC {[a]} (b, dir) d Hz Hzd Hr) as [Hr'|?]; [|done].
      exfalso. apply (Hsep b dir); [apply one_in|done].
    - destruct (opened_dec G C y) as [?|Ho]; [by left|]. right.
      destruct (decide (rtc (edge G) y a)) as [?|Ha]; [by left|]. right. destruct (decide (rtc (edge G) y b)) as [?|Hb]; [done|]. exfalso.
      apply (addparent_reach_above G C x y a (b, dir) Ho Ha) in Hr as [_ Hr]. apply (Hsep b dir); [apply one_in|]. by apply Hr.
  Qed.

  Lemma addparent_sep a b C : a ∈ N → b ∈ N → C ⊆ N → a ≠ b → a ∉ C → b ∉ C → y ∉ C → a ≠ y → b ≠ y →
    dsepd H {[a]} {[b]} C → dsepd G' {[a]} {[b]} C.
  Proof.
    intros HaN HbN HCN Hab HaC HbC HyC Hay Hby HsepH.
    assert (dsepd G {[a]} {[b]} C) as HsepG.
    { apply Hi; [by apply one_sub|by apply one_sub|done|by apply one_disj3|done]. }
    assert (HsepG' : dsepd G {[b]} {[a]} C) by by apply dsepd_sym.
    rewrite dsepd_reach by (done || by apply one_disj). intros b' dir ->%elem_of_singleton Hr.
    destruct (opened_dec G C z) as [Hz|Hz].
    { apply (addparent_reach_opened G C x y z Hxz Hyz HyC Hac' {[a]} (b, dir) Hz) in Hr as [Hr|[[= -> ->] _]]; [|done].
      rewrite dsepd_reach in HsepG by (done || by apply one_disj). apply (HsepG b dir); [apply one_in|done]. }
    assert (dsepd G' {[b]} {[a]} C) as Hs; cycle 1.
    { apply dsepd_sym in Hs. rewrite dsepd_reach in Hs by (done || by apply one_disj). apply (Hs b dir); [apply one_in|done]. }
    rewrite dsepd_reach by (done || by apply one_disj). intros a' dir' ->%elem_of_singleton Hr'.
    destruct (addparent_new a b C dir HaC HbC HyC Hby Hz HsepG Hr) as [[da Hda] Hor].
    destruct (addparent_new b a C dir' HbC HaC HyC Hay Hz HsepG' Hr') as [[db Hdb] _].
    assert (d ∉ C) as HdC. { intros HdC. apply Hz. by exists d. }
    assert (tc (edge G) y d) as Hyd. { eapply tc_rtc_r; [by apply tc_once|done]. }
    assert (d ∈ N) as HdN by by apply (tc_over N G) in Hyd as [_ ?].
    assert (d ≠ b) as Hdb'. { intros ->. rewrite dsepd_reach in HsepG by (done || by apply one_disj). apply (HsepG b da); [apply one_in|done]. }
    assert (d ≠ a) as Hda'. { intros ->. rewrite dsepd_reach in HsepG' by (done || by apply one_disj). apply (HsepG' a db); [apply one_in|done]. }
    assert (opened H C d ∨ rtc (edge H) d a ∨ rtc (edge H) d b) as HorH.
    { assert (∀ s, rtc (edge G) y s → s ≠ y → s ≠ d → rtc (edge H) d s) as Hbelow.
      { intros s Hs Hsy Hsd. apply rtc_tc_ne in Hs; [|done]. destruct (highest_below d s Hd Hs) as [->|?]; [done|by apply tc_rtc]. }
      destruct Hor as [(c & Hc & Hyc)|[Hya|Hyb]].
      - left. exists c. split; [done|]. apply Hbelow; [done|by intros ->|by intros ->].
      - right. left. by apply Hbelow.
      - right. right. by apply Hbelow. }
    assert (∀ u du, u ∈ N → u ∉ C → u ≠ d → reach G C {[u]} (d, du) → ¬ dsepd H {[u]} {[d]} C) as HGH.
    { intros u du HuN HuC Hud Hru Hsu. apply Hi in Hsu; [|by apply one_sub|by apply one_sub|done|by apply one_disj3].
      rewrite dsepd_reach in Hsu by (done || by apply one_disj). apply (Hsu d du); [apply one_in|done]. }
    apply (HGH a da HaN HaC); [done|done|]. rewrite dsepd_reach by (done || by apply one_disj). intros d' ea ->%elem_of_singleton Hea.
    apply (HGH b db HbN HbC); [done|done|]. rewrite dsepd_reach by (done || by apply one_disj). intros d' eb ->%elem_of_singleton Heb.
    by apply (connected_through H HacH C a b d ea eb).
  Qed.
End top.
