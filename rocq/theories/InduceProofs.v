(** Inducing walks: edges between their endpoints do not change m-separation. *)
From Verif Require Import Py Spec SpecDsep SpecMixed TopoProofs StateProofs ReachProofs WalkProofs MWalkProofs.

Lemma opened_up D C x y : rtc (edge D) x y → opened D C y → opened D C x.
Proof. intros Hr (c & Hc & Hy). exists c. split; [done|]. by etrans. Qed.
Lemma opened_in D C x : x ∈ C → opened D C x.
Proof. intros Hx. exists x. split; [done|]. apply rtc_refl. Qed.
Lemma acyclic_rtc D x y : acyclic D → (x, y) ∈ D → rtc (edge D) y x → False.
Proof. intros Ha Hxy Hr. apply (Ha x). by eapply tc_rtc_r; [apply tc_once|]. Qed.
Lemma acyclic_tc_rtc D x y : acyclic D → tc (edge D) x y → rtc (edge D) y x → False.
Proof. intros Ha Hxy Hr. apply (Ha x). by eapply tc_rtc_r. Qed.

Lemma opened_dec D C v : opened D C v ∨ ¬ opened D C v.
Proof.
  destruct (decide (set_Exists (λ c, v = c ∨ reachb D v c = true) C)) as [(c & Hc & Hv)|Hn].
  - left. exists c. split; [done|]. destruct Hv as [->|Hv]; [apply rtc_refl|]. by apply tc_rtc, reachb_spec.
  - right. intros (c & Hc & Hv). apply Hn. exists c. split; [done|]. apply rtc_tc in Hv as [->|Hv]; [by left|right]. by apply reachb_spec.
Qed.

Section moves.
  Context (G : mixed) (C : nset).
  Notation D := (mx_dir G).
  Lemma descend x y m : ¬ opened D C x → tc (edge D) x y → rtc (mstep G C) (x, m) (y, false).
  Proof using.
    intros Hx Hr. revert m. assert (∀ x, ¬ opened D C x → ∀ y m, (x, y) ∈ D → mstep G C (x, m) (y, false)) as Hone.
    { clear. intros x Hx y m Hxy. exists true. split; [done|]. cbn [fst snd]. unfold pass. rewrite orb_true_r. intros HC. by apply Hx, opened_in. }
    induction Hr as [x y Hxy|x y z Hxy Hr IH]; intros m; [apply rtc_once; by apply Hone|].
    eapply rtc_l; [apply Hone; [done|exact Hxy]|]. apply IH. intros Ho. apply Hx. eapply opened_up; [|exact Ho]. by apply rtc_once.
  Qed.
  Lemma climb w x : ¬ opened D C w → rtc (edge D) w x → rtc (mstep G C) (x, true) (w, true).
  Proof using.
    intros Hw Hr. induction Hr as [w|w v x Hwv Hr IH]; [apply rtc_refl|].
    assert (¬ opened D C v) as Hv.
    { intros Ho. apply Hw. eapply opened_up; [|exact Ho]. by apply rtc_once. }
    eapply rtc_r; [by apply IH|]. exists false. split; [done|]. cbn. intros HC. by apply Hv, opened_in.
  Qed.
End moves.

(** An inducing walk relative to [L] between [x] and [y]. *)
Definition ip_step (G : mixed) (L : nset) (x y : node) (s t : node * bool) : Prop :=
  ∃ k, medge G s.1 t.1 k t.2 ∧ k && t.2 = false ∧
    if s.2 || k then s.1 ∈ L else rtc (edge (mx_dir G)) s.1 x ∨ rtc (edge (mx_dir G)) s.1 y.
Definition ip_from (G : mixed) (L : nset) (x y : node) (k : bool) (m : bool) : Prop :=
  ∃ v m1, medge G x v k m1 ∧ k && m1 = false ∧ rtc (ip_step G L x y) (v, m1) (y, m).
Definition ip (G : mixed) (L : nset) (x y : node) : Prop := ∃ k m, ip_from G L x y k m.

(** The marks that ancestry prescribes. *)
Definition anc_mark (G : mixed) (x y : node) (k : bool) : Prop := k = true ↔ tc (edge (mx_dir G)) x y.
(** Leaving [v] is at least as easy with mark [m'] as with mark [m]. *)
Definition cov (G : mixed) (C : nset) (v : node) (m m' : bool) : Prop :=
  ∀ k, pass (mx_dir G) C v m k → pass (mx_dir G) C v m' k.

Section ip.
  Context (G : mixed) (L : nset) (Ha : acyclic (mx_dir G)) (x y : node).
  Notation D := (mx_dir G).
  Notation an := (rtc (edge D)).

  (** A tail at an endpoint makes it an ancestor of the other. *)
  Lemma ip_tail_y k m : ip_from G L x y k m → m = true → tc (edge D) y x.
  Proof using Ha.
    intros (v & m1 & He & Hk & Hr) ->.
    assert (∀ s, rtc (ip_step G L x y) (v, m1) s → s.2 = true → ∃ u, (s.1, u) ∈ D ∧ (an u x ∨ an u y)) as Hinv.
    { intros s Hs. refine (rtc_ind_r (λ s, s.2 = true → ∃ u, (s.1, u) ∈ D ∧ (an u x ∨ an u y)) (v, m1) _ _ s Hs).
      - cbn. intros ->. rewrite andb_true_r in Hk. subst k. exists x. split; [done|]. left. apply rtc_refl.
      - intros [u m] [w m'] _ (k' & He' & Hk' & Hc) IH. cbn in *. intros ->. rewrite andb_true_r in Hk'. subst k'.
        exists u. split; [done|]. destruct m; cbn in Hc; [|done]. destruct (IH eq_refl) as (u' & Hu & [H|H]); [left|right];
          (eapply rtc_l; [exact Hu|done]). }
    destruct (Hinv _ Hr eq_refl) as (u & Hu & [H|H]); cbn in Hu.
    - by eapply tc_rtc_r; [apply tc_once|].
    - exfalso. by eapply acyclic_rtc.
  Qed.
  Lemma ip_tail_x k m : ip_from G L x y k m → k = true → tc (edge D) x y.
  Proof using Ha.
    intros (v & m1 & He & Hk & Hr) ->. destruct m1; [done|]. cbn in He.
    assert (∀ s, rtc (ip_step G L x y) (v, false) s → tc (edge D) x y ∨ s.2 = false ∧ tc (edge D) x s.1) as Hinv.
    { intros s Hs. refine (rtc_ind_r (λ s, tc (edge D) x y ∨ s.2 = false ∧ tc (edge D) x s.1) (v, false) _ _ s Hs).
      - right. split; [done|]. by apply tc_once.
      - intros [u m'] [w m''] _ (k' & He' & Hk' & Hc) [IH|[E IH]]; [by left|]. cbn in *. subst m'. destruct k'; cbn in Hc.
        + destruct m''; [done|]. right. split; [done|]. by eapply tc_r.
        + destruct Hc as [Hc|Hc]; [|left; by eapply tc_rtc_r]. exfalso. by eapply acyclic_tc_rtc. }
    destruct (Hinv _ Hr) as [H|[_ H]]; done.
  Qed.

  Context (C : nset) (HCL : C ## L).
  Lemma ip_walk mx k m : ip_from G L x y k m → pass D C x mx k →
    (∀ w, ¬ opened D C w → an w x → rtc (mstep G C) (x, mx) (w, true)) →
    rtc (mstep G C) (x, mx) (y, false) ∨ rtc (mstep G C) (x, mx) (y, m).
  Proof using HCL Ha.
    intros (v & m1 & He & Hk & Hr) Hp Hclimb.
    refine (rtc_ind_r (λ s, rtc (mstep G C) (x, mx) (y, false) ∨ rtc (mstep G C) (x, mx) s) (v, m1) _ _ _ Hr).
    - right. apply rtc_once. by exists k.
    - intros [u mu] [w mw] _ (k' & He' & Hk' & Hc) [IH|IH]; [by left|]. cbn [fst snd] in *.
      destruct (mu || k') eqn:Hm.
      { right. eapply rtc_r; [exact IH|]. exists k'. split; [done|]. cbn [fst snd]. unfold pass. rewrite Hm. set_solver. }
      apply orb_false_iff in Hm as [-> ->].
      destruct (opened_dec D C u) as [Ho|Ho].
      { right. eapply rtc_r; [exact IH|]. exists false. split; [done|]. cbn. exact Ho. }
      destruct Hc as [Hc|Hc].
      + right. eapply rtc_r; [by apply (Hclimb u)|]. exists false. split; [done|]. cbn. intros Hu. by apply Ho, opened_in.
      + left. apply rtc_tc in Hc as [->|Hc]; [done|]. etrans; [exact IH|]. by apply descend.
  Qed.
  Lemma ip_traverse mx kx my :
    ip G L x y → anc_mark G x y kx → anc_mark G y x my → pass D C x mx kx →
    ∃ m', rtc (mstep G C) (x, mx) (y, m') ∧ cov G C y my m'.
  Proof using Ha HCL.
    intros (k & m & Hip) Hkx Hmy Hp.
    assert (my = false → m = false) as Hmm.
    { intros ->. destruct m; [|done]. assert (false = true) by (apply Hmy; by eapply ip_tail_y). done. }
    destruct kx.
    - assert (tc (edge D) x y) as Hxy by by apply Hkx.
      assert (my = false) as ->.
      { destruct my; [|done]. exfalso. apply (acyclic_tc_rtc D x y Ha Hxy). apply tc_rtc. by apply Hmy. }
      assert (x ∉ C) as HxC by (unfold pass in Hp; by rewrite orb_true_r in Hp).
      destruct (opened_dec D C x) as [Ho|Ho].
      + destruct (ip_walk mx k m Hip) as [H|H].
        * unfold pass. destruct (mx || k); done.
        * intros w Hw Hwx. exfalso. apply Hw. by eapply opened_up.
        * exists false. split; [done|]. by intros ?.
        * rewrite Hmm in H by done. exists false. split; [done|]. by intros ?.
      + exists false. split; [by apply descend|]. by intros ?.
    - assert (¬ tc (edge D) x y) as Hxy by (intros H; apply Hkx in H; done).
      assert (k = false) as ->.
      { destruct k; [|done]. exfalso. apply Hxy. by eapply ip_tail_x. }
      assert (∀ w, ¬ opened D C w → an w x → rtc (mstep G C) (x, mx) (w, true)) as Hclimb.
      { intros w Hw Hwx. assert (¬ opened D C x) as Hox by (intros H; apply Hw; by eapply opened_up).
        destruct mx; [by apply climb|]. cbn in Hp. done. }
      assert (∃ m', rtc (mstep G C) (x, mx) (y, m') ∧ (m' = false ∨ m' = m)) as (m' & Hr & Hm').
      { destruct (ip_walk mx false m Hip Hp Hclimb) as [H|H]; [exists false|exists m]; auto. }
      destruct my.
      + assert (tc (edge D) y x) as Hyx by by apply Hmy.
        destruct (decide (y ∈ C)) as [HyC|HyC]; [exists m'; split; [done|]; by intros []|].
        destruct (opened_dec D C y) as [Hoy|Hoy].
        * exists m'. split; [done|]. intros j _. unfold pass. destruct (m' || j); done.
        * exists true. split; [apply Hclimb; [done|by apply tc_rtc]|]. by intros ?.
      + exists m'. split; [done|]. rewrite Hmm in Hm' by done. assert (m' = false) as -> by naive_solver. by intros ?.
  Qed.
End ip.

(** ** Adding edges along inducing walks *)
Section sim.
  Context (G H : mixed) (L C : nset) (Ha : acyclic (mx_dir G)) (HCL : C ## L).
  Notation D := (mx_dir G).
  Context (Hedge : ∀ x y k m, medge H x y k m →
    medge G x y k m ∨ (ip G L x y ∧ anc_mark G x y k ∧ anc_mark G y x m)).
  Context (Hdir : ∀ x y, (x, y) ∈ D → (x, y) ∈ mx_dir H).

  Lemma sim_rtc x y : rtc (edge (mx_dir H)) x y ↔ rtc (edge D) x y.
  Proof using Ha Hedge Hdir.
    split; intros Hr.
    - induction Hr as [|x y z Hxy _ IH]; [apply rtc_refl|]. etrans; [|exact IH]. destruct (Hedge x y true false Hxy) as [He|(_ & Hk & _)].
      + by apply rtc_once.
      + apply tc_rtc. by apply Hk.
    - induction Hr as [|x y z Hxy _ IH]; [apply rtc_refl|]. eapply rtc_l; [by apply Hdir|exact IH].
  Qed.
  Lemma sim_opened v : opened (mx_dir H) C v ↔ opened D C v.
  Proof using Ha Hedge Hdir. unfold opened. by setoid_rewrite sim_rtc. Qed.
  Lemma sim_pass v m k : pass (mx_dir H) C v m k ↔ pass D C v m k.
  Proof using Ha Hedge Hdir. unfold pass. destruct (m || k); [done|]. apply sim_opened. Qed.
  Lemma ip_sim a s : rtc (mstep H C) (a, true) s → ∃ m', rtc (mstep G C) (a, true) (s.1, m') ∧ cov G C s.1 s.2 m'.
  Proof using Ha HCL Hedge Hdir.
    intros Hr. refine (rtc_ind_r (λ s, ∃ m', rtc (mstep G C) (a, true) (s.1, m') ∧ cov G C s.1 s.2 m') (a, true) _ _ s Hr).
    - exists true. split; [apply rtc_refl|]. by intros ?.
    - intros [u mu] [w mw] _ (k & He & Hp) (m' & Hu & Hcov). cbn [fst snd] in *. rewrite sim_pass in Hp. apply Hcov in Hp.
      destruct (Hedge _ _ _ _ He) as [HeG|(Hip & Hk & Hm)].
      + exists mw. split; [|by intros ?]. eapply rtc_r; [exact Hu|]. by exists k.
      + destruct (ip_traverse G L Ha u w C HCL m' k mw Hip Hk Hm Hp) as (m2 & H1 & H2). exists m2. split; [by etrans|done].
  Qed.
  Lemma ip_mreach a b : mreach H C a b → mreach G C a b.
  Proof using Ha HCL Hedge Hdir. intros [m Hr]. apply ip_sim in Hr as (m' & Hr & _). by exists m'. Qed.
  Lemma sub_mreach a b : (∀ x y k m, medge G x y k m → medge H x y k m) → mreach G C a b → mreach H C a b.
  Proof using Ha Hedge Hdir.
    intros Hsub [m Hr]. exists m. eapply (rtc_congruence id); [|exact Hr].
    intros s t (k & He & Hp). exists k. split; [by apply Hsub|]. by apply sim_pass.
  Qed.
End sim.

(** ** Non-adjacent nodes without an inducing path are separated *)
Definition binduced (G : mixed) (x y : node) : Prop :=
  ∃ a b, spouse G x a ∧ spouse G y b ∧ tc (edge (mx_dir G)) a y ∧ tc (edge (mx_dir G)) b x ∧
    tc (λ u w, spouse G u w ∧ (tc (edge (mx_dir G)) w x ∨ tc (edge (mx_dir G)) w y)) a b.

Lemma tc_guard_sym {A} (R : A → A → Prop) (Q : A → Prop) a b : (∀ u w, R u w → R w u) →
  tc (λ u w, R u w ∧ Q w) a b → Q a → tc (λ u w, R u w ∧ Q w) b a.
Proof.
  intros Hs Hr. induction Hr as [a b [Hab _]|a c b [Hac Hc] _ IH]; intros Ha; [apply tc_once; auto|]. eapply tc_r; [by apply IH|]. auto.
Qed.
Lemma binduced_sym G x y : binduced G x y → binduced G y x.
Proof.
  intros (a & b & H1 & H2 & H3 & H4 & H5). exists b, a. split_and!; [done|done|done|done|].
  apply (tc_guard_sym (spouse G) (λ w, tc (edge (mx_dir G)) w x ∨ tc (edge (mx_dir G)) w y)) in H5.
  - eapply tc_iff; [|exact H5]. intros u w. cbn. tauto.
  - apply spouse_sym.
  - by right.
Qed.

Section maximal.
  Context (G : mixed) (Hsi : simple G) (Hse : separate G) (Han : ancestral G).
  Notation D := (mx_dir G).

  Lemma spouse_no_anc x y : spouse G x y → tc (edge D) y x → False.
  Proof using Han. intros Hs Hr. apply (proj2 Han y x); [by apply spouse_sym|by apply tc_rtc]. Qed.
  Lemma binduced_noanc x y : binduced G x y → ¬ rtc (edge D) x y ∧ ¬ rtc (edge D) y x.
  Proof using Han.
    intros (a & b & Hxa & Hyb & Hay & Hbx & _). split; intros Hr.
    - eapply (spouse_no_anc y b); [done|]. by eapply tc_rtc_r.
    - eapply (spouse_no_anc x a); [done|]. by eapply tc_rtc_r.
  Qed.
  Lemma binduced_ip x y : binduced G x y → ip G ∅ x y.
  Proof using.
    intros (a & b & Hxa & Hyb & Hay & Hbx & Hr). exists false, false, a, false. split; [done|]. split; [done|].
    assert (∀ u w, rtc (λ u w, spouse G u w ∧ (tc (edge D) w x ∨ tc (edge D) w y)) u w → tc (edge D) u x ∨ tc (edge D) u y →
      rtc (ip_step G ∅ x y) (u, false) (w, false) ∧ (tc (edge D) w x ∨ tc (edge D) w y)) as Hgo.
    { clear -G. intros u w Hr. induction Hr as [|u v w [Huv Hv] _ IH]; intros Hu; [split; [apply rtc_refl|done]|].
      destruct (IH Hv) as [H1 H2]. split; [|done]. eapply rtc_l; [|exact H1]. exists false. split; [done|]. split; [done|].
      cbn. destruct Hu; [left|right]; by apply tc_rtc. }
    destruct (Hgo a b (tc_rtc _ _ Hr)) as [H1 H2]; [by right|]. eapply rtc_r; [exact H1|].
    exists false. split; [by apply spouse_sym|]. split; [done|]. left. cbn. by apply tc_rtc.
  Qed.

  (** Anterior nodes. *)
  Definition ante (u w : node) : Prop := (u, w) ∈ D ∨ neighbor G u w.
  Lemma ante_into u v w : into G u v → rtc ante v w → rtc (edge D) v w.
  Proof using Hse.
    intros Hi Hr. revert u Hi. induction Hr as [|v z w Hvz _ IH]; intros u Hi; [apply rtc_refl|].
    destruct Hvz as [Hvz|Hvz]; [|by destruct (Hse _ _ _ Hi Hvz)]. eapply rtc_l; [exact Hvz|]. apply (IH v). by left.
  Qed.
  Lemma into_both u v : into G u v → into G v u → spouse G u v.
  Proof using Hsi.
    intros [H1|H1] [H2|H2]; [|by apply spouse_sym|done..]. exfalso. by destruct (simple_dir _ Hsi _ _ H1).
  Qed.
  Lemma tail_ante u v : madj G u v → ¬ into G v u → ante u v.
  Proof using.
    intros [H|[H|[H|H]]] Hn; [by left| | |by right]; exfalso; apply Hn; [by left|right; by apply spouse_sym].
  Qed.

  (** Following a path away from a tail. *)
  Lemma ante_forward C l a b z : madjs G (a :: b :: l) → macts G C (a :: b :: l) → last (b :: l) = Some z → ¬ into G b a →
    ∃ w, rtc ante a w ∧ (w = z ∨ opened D C w).
  Proof using Hse.
    revert a b. induction l as [|c l IH]; intros a b Hj Hc Hl Hn.
    - cbn in Hl. injection Hl as ->. rewrite madjs_cons in Hj. exists z. split; [|by left]. apply rtc_once. by apply tail_ante; [apply Hj|].
    - rewrite madjs_cons in Hj. destruct Hj as [Hab Hj]. rewrite macts_cons in Hc. destruct Hc as [[Hc1 Hc2] Hc].
      pose proof (tail_ante _ _ Hab Hn) as Hab'.
      destruct (decide (into G a b)) as [Hi|Hi]; [destruct (decide (into G c b)) as [Hi'|Hi']|].
      + exists b. split; [by apply rtc_once|]. right. by apply Hc1.
      + destruct (IH b c Hj Hc) as (w & Hw & Hz); [by rewrite last_cons_cons in Hl|done|]. exists w. split; [by eapply rtc_l|done].
      + destruct (IH b c Hj Hc) as (w & Hw & Hz); [by rewrite last_cons_cons in Hl| |exists w; split; [by eapply rtc_l|done]].
        intros Hi'. destruct Hab' as [Hab'|Hab']; [apply Hi; by left|]. by apply (Hse _ _ _ Hi' (neighbor_sym _ _ _ Hab')).
  Qed.

  Lemma interior_ante C x y l p a v c q : madjs G l → macts G C l → head l = Some x → last l = Some y →
    l = p ++ a :: v :: c :: q → ∃ w, rtc ante v w ∧ (w = x ∨ w = y ∨ opened D C w).
  Proof using Hse.
    intros Hj Hc Hh Hl ->. destruct (decide (into G c v)) as [Hi|Hi]; [destruct (decide (into G a v)) as [Hi'|Hi']|].
    - exists v. split; [apply rtc_refl|]. right. right. apply macts_app1_r in Hc. rewrite macts_cons in Hc. by apply Hc.
    - assert (p ++ a :: v :: c :: q = (p ++ [a; v]) ++ c :: q) as E by by rewrite <-app_assoc.
      rewrite E in Hj, Hc, Hh. apply macts_app1_l in Hc.
      assert (madjs G (p ++ [a; v])) as Hj'.
      { assert (p ++ [a; v] = (p ++ [a]) ++ [v]) as E2 by by rewrite <-app_assoc. rewrite E2. apply (madjs_app G (p ++ [a]) v (c :: q)).
        rewrite <-app_assoc in Hj |- *. exact Hj. }
      apply macts_reverse in Hc. apply madjs_reverse in Hj'. rewrite reverse_app in Hc, Hj'. cbn in Hc, Hj'.
      destruct (ante_forward C (reverse p) v a x Hj' Hc) as (w & Hw & Hz); [|done|exists w; split; [done|]; tauto].
      rewrite <-Hh. destruct p as [|z p]; [done|]. rewrite reverse_cons, app_comm_cons, last_snoc. done.
    - apply macts_app1_r in Hc. apply madjs_app1_r in Hj. rewrite macts_cons in Hc. rewrite madjs_cons in Hj.
      destruct (ante_forward C q v c y) as (w & Hw & Hz); [apply Hj|apply Hc| |done|exists w; split; [done|]; tauto].
      by rewrite last_app_cons, !last_cons_cons in Hl.
  Qed.

  Context (N : nset).

  Definition ante_arcs : arcset := D ∪ mx_un G ∪ set_map (λ e : arc, (e.2, e.1)) (mx_un G).
  Lemma ante_arcs_spec u w : edge ante_arcs u w ↔ ante u w.
  Proof using.
    unfold edge, ante_arcs, ante, neighbor. rewrite !elem_of_union, elem_of_map. split.
    - intros [[H|H]|([a b] & [= -> ->] & H)]; auto.
    - intros [H|[H|H]]; [auto|auto|]. right. by exists (w, u).
  Qed.
  Definition ante_set (x y : node) : nset :=
    filter (λ v, v ≠ x ∧ v ≠ y ∧ (reachb ante_arcs v x = true ∨ reachb ante_arcs v y = true)) N.
  Lemma elem_of_ante_set x y v : v ∈ ante_set x y ↔ v ∈ N ∧ v ≠ x ∧ v ≠ y ∧ (rtc ante v x ∨ rtc ante v y).
  Proof using.
    unfold ante_set. rewrite elem_of_filter, !reachb_spec.
    assert (∀ a b, tc (edge ante_arcs) a b ↔ tc ante a b) as E by (intros a b; apply tc_iff, ante_arcs_spec).
    rewrite !E. split.
    - intros ((H1 & H2 & H3) & H4). split_and!; [done..|]. destruct H3; [left|right]; by apply tc_rtc.
    - intros (H1 & H2 & H3 & H4). split_and!; [done|done| |done]. destruct H4 as [H4|H4]; apply rtc_tc in H4 as [->|H4]; naive_solver.
  Qed.

  Context (HN : ∀ u v, madj G u v → u ∈ N ∧ v ∈ N).
  Lemma ante_separates x y : x ≠ y → ¬ madj G x y → ¬ binduced G x y → msepd G {[x]} {[y]} (ante_set x y).
  Proof using Hsi Hse Han HN.
    intros Hxy Hna Hnb a b l ->%elem_of_singleton ->%elem_of_singleton (Hnd & Hh & Hl & Hj & Hc). apply Hnb. clear Hnb.
    rewrite <-madjs_mtrail in Hj. rewrite <-macts_mactive in Hc. set (Z := ante_set x y) in *.
    assert (∀ w, rtc ante w x ∨ rtc ante w y → ∀ v, rtc ante v w → rtc ante v x ∨ rtc ante v y) as Htr.
    { intros w [H|H] v Hv; [left|right]; by etrans. }
    assert (∀ w, opened D Z w → rtc ante w x ∨ rtc ante w y) as HoZ.
    { intros w (z & Hz & Hw). apply elem_of_ante_set in Hz as (_ & _ & _ & Hz). apply (Htr z Hz).
      eapply (rtc_congruence id); [|exact Hw]. intros u v Huv. by left. }
    assert (∀ p a v c q, l = p ++ a :: v :: c :: q → mcollider G a v c ∧ (tc (edge D) v x ∨ tc (edge D) v y)) as Hint.
    { intros p a v c q E. destruct (interior_ante Z x y l p a v c q Hj Hc Hh Hl E) as (w & Hw & Hz).
      assert (rtc ante v x ∨ rtc ante v y) as Hv.
      { apply (Htr w); [|done]. destruct Hz as [->|[->|Hz]]; [left; apply rtc_refl|right; apply rtc_refl|by apply HoZ]. }
      assert (v ≠ x ∧ v ≠ y) as [Hvx Hvy].
      { subst l. clear -Hnd Hh Hl. split; intros ->.
        - destruct p as [|z p]; cbn in Hh; injection Hh as ->; apply NoDup_cons in Hnd as [Hn _]; set_solver.
        - rewrite last_app_cons, !last_cons_cons in Hl. apply NoDup_app in Hnd as (_ & _ & Hnd).
          apply NoDup_cons in Hnd as [_ Hnd]. apply NoDup_cons in Hnd as [Hn _]. apply Hn. apply last_Some in Hl as [l' ->].
          apply elem_of_app. right. apply elem_of_list_here. }
      assert (v ∈ Z) as HvZ.
      { apply elem_of_ante_set. split_and!; [|done..]. subst l. apply madjs_app1_r in Hj. rewrite madjs_cons in Hj.
        apply (HN a v). apply Hj. }
      assert (mcollider G a v c) as Hcol.
      { subst l. apply macts_app1_r in Hc. rewrite macts_cons in Hc. destruct Hc as [[_ Hc] _].
        unfold mcollider. destruct (decide (into G a v)), (decide (into G c v)); [done|..]; exfalso; apply Hc; unfold mcollider; tauto. }
      split; [done|]. destruct Hcol as [Hi _].
      destruct Hv as [Hv|Hv]; apply (ante_into _ _ _ Hi) in Hv; apply rtc_tc in Hv as [->|Hv]; auto; done. }
    destruct l as [|x' l]; [done|]. cbn in Hh. injection Hh as ->.
    destruct l as [|v1 l]; [cbn in Hl; congruence|].
    destruct l as [|c l].
    { cbn in Hl. injection Hl as ->. exfalso. apply Hna. rewrite madjs_cons in Hj. apply Hj. }
    destruct (Hint [] x v1 c l eq_refl) as [[Hxv Hcv] Hv1].
    assert (∃ p vk, x :: v1 :: c :: l = p ++ [vk; y]) as (p & vk & Ep).
    { apply last_Some in Hl as [l' El]. destruct l' as [|z l'] using rev_ind; [cbn in El; congruence|]. exists l', z. by rewrite El, <-app_assoc. }
    assert (∃ p' u, p = p' ++ [u]) as (p' & u & ->).
    { destruct p as [|z p] using rev_ind; [cbn in Ep; congruence|]. by exists p, z. }
    rewrite <-app_assoc in Ep. cbn in Ep.
    destruct (Hint p' u vk y [] Ep) as [[Huk Hyk] Hvk].
    assert (∀ z v, into G z v → tc (edge D) v z → False) as Hcy.
    { intros z v [Hz|Hz] Hr; [|by eapply spouse_no_anc]. eapply acyclic_tc_rtc; [apply Han|exact Hr|]. by apply rtc_once. }
    destruct Hv1 as [Hv1|Hv1]; [by destruct (Hcy _ _ Hxv Hv1)|]. destruct Hvk as [Hvk|Hvk]; [|by destruct (Hcy _ _ Hyk Hvk)].
    assert (spouse G x v1) as Hs1.
    { destruct Hxv as [Hd|]; [|done]. exfalso. apply (Hcy y vk Hyk). etrans; [exact Hvk|]. by eapply tc_l. }
    assert (spouse G y vk) as Hsk.
    { destruct Hyk as [Hd|]; [|done]. exfalso. apply (Hcy x v1 Hxv). etrans; [exact Hv1|]. by eapply tc_l. }
    exists v1, vk. split_and!; [done|done|done|done|].
    assert (rtc (λ u w, spouse G u w ∧ (tc (edge D) w x ∨ tc (edge D) w y)) v1 vk) as Hr.
    { assert (∀ m a v, (∃ p0 q0, x :: v1 :: c :: l = p0 ++ a :: v :: m ++ q0 ∧ q0 ≠ []) → 
        ∀ z, last (v :: m) = Some z → rtc (λ u w, spouse G u w ∧ (tc (edge D) w x ∨ tc (edge D) w y)) v z) as Hgo.
      { intros m. induction m as [|w m IH]; intros a v (p0 & q0 & E & Hq) z Hz; [cbn in Hz; injection Hz as ->; apply rtc_refl|].
        rewrite last_cons_cons in Hz. eapply rtc_l; [|apply (IH v w); [|done]].
        - destruct (Hint p0 a v w (m ++ q0) E) as [[_ H1] _].
          destruct (m ++ q0) as [|w' r] eqn:Em; [by destruct m, q0|].
          destruct (Hint (p0 ++ [a]) v w w' r) as [[H2 _] H3]; [rewrite E, <-app_assoc; cbn; by rewrite Em|].
          split; [by apply into_both|done].
        - exists (p0 ++ [a]), q0. split; [|done]. by rewrite E, <-app_assoc. }
      assert (∃ m, v1 :: c :: l = m ++ [vk; y] ∧ head (m ++ [vk]) = Some v1) as (m & Em & Hm).
      { destruct p' as [|z p'].
        - cbn in Ep. exists []. injection Ep as -> -> -> ->. done.
        - cbn in Ep. injection Ep as <- E2. exists (p' ++ [u]). rewrite <-!app_assoc. cbn. split; [done|].
          destruct p'; cbn in E2 |- *; congruence. }
      destruct (m ++ [vk]) as [|z m'] eqn:Em'; [done|]. cbn in Hm. injection Hm as ->.
      apply (Hgo m' x v1); [|rewrite <-Em'; by rewrite last_snoc].
      exists [], [y]. split; [|done]. cbn. rewrite Em. f_equal.
      change (v1 :: m' ++ [y]) with ((v1 :: m') ++ [y]). rewrite <-Em', <-app_assoc. done. }
    apply rtc_tc in Hr as [->|Hr]; [|done]. by destruct (Hcy _ _ Hxv Hvk).
  Qed.
End maximal.
