(** Triples of nodes that cannot be taken apart, in terms of districts and ancestors. *)
From Verif Require Import Py Spec SpecDsep SpecMixed SpecMagMec SpecMagTriple TopoProofs StateProofs ReachProofs MWalkProofs InduceProofs MagMecProofs MagMecCore MagMecMain MagMecNec.

Section connect.
  Context (G : mixed) (C : nset) (x y : node).
  Notation D := (mx_dir G).
  Notation an := (rtc (edge D)).
  Definition good (u : node) : Prop := an u x ∨ an u y ∨ opened D C u.
  Notation R u := (rtc (mstep G C) (x, true) (u, false)).

  (** From a node that is reached along an arrowhead over another edge with an arrowhead. *)
  Lemma conn_step u w m : R u → good u → medge G u w false m → mreach G C x y ∨ rtc (mstep G C) (x, true) (w, m).
  Proof using.
    intros Hr Hg Hs. destruct (opened_dec D C u) as [Ho|Ho].
    { right. eapply rtc_r; [exact Hr|]. exists false. by split. }
    destruct Hg as [Hg|[Hg|Hg]]; [| |done].
    - right. eapply rtc_r; [by apply (climb G C u x)|]. exists false. split; [done|]. cbn. intros HC. by apply Ho, opened_in.
    - left. apply rtc_tc in Hg as [->|Hg]; [by exists false|]. exists false. etrans; [exact Hr|]. by apply descend.
  Qed.
  Lemma conn_along u w : R u → good u → rtc (λ a b, spouse G a b ∧ good b) u w → mreach G C x y ∨ (R w ∧ good w).
  Proof using.
    intros Hr Hg Hw. induction Hw as [u|u v w [Hs Hv] _ IH]; [by right|].
    destruct (conn_step u v false Hr Hg Hs) as [H|H]; [by left|]. by apply IH.
  Qed.
  Context (HxC : x ∉ C).
  Lemma conn_start u : into G x u → R u.
  Proof using HxC.
    intros [H|H]; apply rtc_once; [exists true|exists false]; by split.
  Qed.
  (** A path of colliders. *)
  Lemma conn_path u w : into G x u → good u → rtc (λ a b, spouse G a b ∧ good b) u w → into G y w → mreach G C x y.
  Proof using HxC.
    intros Hi Hg Hr Hy. destruct (conn_along u w (conn_start u Hi) Hg Hr) as [H|[H1 H2]]; [done|].
    assert (∃ m, medge G w y false m) as [m Hm] by (destruct Hy as [Hy|Hy]; [by exists true|exists false; by apply spouse_sym]).
    destruct (conn_step w y m H1 H2 Hm) as [H|H]; [done|]. by exists m.
  Qed.
  Lemma conn_to u : into G x u → good u → rtc (λ a b, spouse G a b ∧ good b) u y → mreach G C x y.
  Proof using HxC.
    intros Hi Hg Hr. destruct (conn_along u y (conn_start u Hi) Hg Hr) as [H|[H1 H2]]; [done|]. by exists false.
  Qed.
  Lemma conn_district : x ≠ y → rtc (λ a b, spouse G a b ∧ good b) x y → mreach G C x y.
  Proof using HxC.
    intros Hne Hr. inversion Hr as [|? u ? [Hs Hg] Hr']; subst; [done|]. apply (conn_to u); [by right|done|done].
  Qed.
End connect.

Section triple.
  Context (G : mixed) (Hsi : simple G) (Hse : separate G) (Han : ancestral G) (N : nset)
    (HN : ∀ u v, madj G u v → u ∈ N ∧ v ∈ N).
  Notation D := (mx_dir G).
  Notation an := (rtc (edge D)).

  Lemma reach_not_sep C x y : x ∉ C → mreach G C x y → ¬ msepd G {[x]} {[y]} C.
  Proof using Hsi Hse.
    clear -Hsi Hse. intros HC Hr. rewrite msepd_reach by (done || set_solver). intros H. by apply (H x y); [set_solver..|].
  Qed.
  Lemma an_dec u v : Decision (an u v).
  Proof using.
    destruct (decide (u = v)) as [->|Hne]; [left; apply rtc_refl|].
    destruct (reachb D u v) eqn:E; [left; by apply tc_rtc, reachb_spec|right].
    intros Hr. apply rtc_tc in Hr as [?|Hr]; [done|]. apply reachb_spec in Hr. congruence.
  Qed.
  Lemma an_antisym u v : an u v → an v u → u = v.
  Proof using Han.
    intros H1 H2. apply rtc_tc in H1 as [?|H1]; [done|]. exfalso. by apply (acyclic_tc_rtc D u v (proj1 Han)).
  Qed.
  Lemma an_arrow u v : an u v → u ≠ v → ∃ w, (w, v) ∈ D.
  Proof using. intros H Hne. destruct (rtc_inv_r _ _ H) as [?|(w & _ & Hw)]; [done|]. by exists w. Qed.
  Lemma dir_no_an u v : (u, v) ∈ D → an v u → False.
  Proof using Han. intros H Hr. by apply (acyclic_rtc D u v (proj1 Han)). Qed.
  Lemma spo_no_an u v : spouse G u v → ¬ an u v ∧ ¬ an v u.
  Proof using Han. intros H. split; [by apply Han|]. by apply Han, spouse_sym. Qed.

  (** [u] is an ancestor of a node of [T]. *)
  Definition gT (T : nset) (u : node) : Prop := ∃ t, t ∈ T ∧ an u t.
  (** Adjacent or connected by colliders that are ancestors of [T]. *)
  Definition link (T : nset) (a b : node) : Prop :=
    madj G a b ∨ ∃ u w, into G a u ∧ into G b w ∧ gT T u ∧ rtc (λ p q, spouse G p q ∧ gT T q) u w.
  Lemma link_sym T a b : link T a b → link T b a.
  Proof using.
    intros [H|(u & w & H1 & H2 & H3 & H4)]; [left; by apply madj_sym|right]. exists w, u.
    assert (gT T w) as Hw.
    { clear -H3 H4. induction H4 as [|u v w [_ H] _ IH]; [done|by apply IH]. }
    split_and!; [done|done|done|]. clear -H3 H4. induction H4 as [|u v w [Hs H] _ IH]; [apply rtc_refl|].
    eapply rtc_r; [by apply IH|]. split; [by apply spouse_sym|done].
  Qed.

  Lemma unseparated_link T p q : p ∈ T → q ∈ T → p ≠ q → T ⊆ N →
    (∀ C, C ⊆ N ∖ {[p; q]} → T ∖ {[p; q]} ⊆ C → ¬ msepd G {[p]} {[q]} C) → ¬ ¬ link T p q.
  Proof using Hsi Hse HN.
    intros Hp Hq Hpq HT Hns Hnl.
    set (Z := filter (λ v, v ≠ p ∧ v ≠ q ∧ set_Exists (λ t, v = t ∨ reachb (ante_arcs G) v t = true) T) N : nset).
    assert (∀ v, v ∈ Z ↔ v ∈ N ∧ v ≠ p ∧ v ≠ q ∧ ∃ t, t ∈ T ∧ rtc (ante G) v t) as HZ.
    { intros v. unfold Z. rewrite elem_of_filter.
      assert (∀ a b, tc (edge (ante_arcs G)) a b ↔ tc (ante G) a b) as E by (intros a b; apply tc_iff, ante_arcs_spec).
      split.
      - intros ((H1 & H2 & t & Ht & H3) & H4). split_and!; [done..|]. exists t. split; [done|].
        destruct H3 as [->|H3]; [apply rtc_refl|]. apply tc_rtc, E. by apply reachb_spec.
      - intros (H1 & H2 & H3 & t & Ht & H4). split_and!; [done|done| |done]. exists t. split; [done|].
        apply rtc_tc in H4 as [->|H4]; [by left|right]. by apply reachb_spec, E. }
    apply (Hns Z).
    { intros v Hv. apply HZ in Hv as (H1 & H2 & H3 & _). apply elem_of_difference. split; [done|].
      clear -H2 H3. set_solver. }
    { intros v [Hv Hn]%elem_of_difference. apply HZ. split_and!; [by apply HT|clear -Hn; set_solver..|]. exists v. split; [done|apply rtc_refl]. }
    intros a b l ->%elem_of_singleton ->%elem_of_singleton (Hnd & Hh & Hl & Hj & Hc). apply Hnl.
    rewrite <-madjs_mtrail in Hj. rewrite <-macts_mactive in Hc. clearbody Z. clear Hns Hnl.
    assert (∀ p0 a v c r, l = p0 ++ a :: v :: c :: r → mcollider G a v c ∧ gT T v) as Hint.
    { intros p0 a v c r E. destruct (interior_ante G Hse Z p q l p0 a v c r Hj Hc Hh Hl E) as (w & Hw & Hz).
      assert (∃ t, t ∈ T ∧ rtc (ante G) v t) as Hv.
      { destruct Hz as [->|[->|(z & Hz & Hwz)]]; [by exists p|by exists q|]. apply HZ in Hz as (_ & _ & _ & t & Ht & Hz). exists t. split; [done|].
        etrans; [exact Hw|]. etrans; [|exact Hz]. eapply (rtc_congruence id); [|exact Hwz]. intros u v' Huv. by left. }
      assert (v ≠ p ∧ v ≠ q) as [Hvx Hvy].
      { subst l. clear -Hnd Hh Hl. split; intros ->.
        - destruct p0 as [|z p0]; cbn in Hh; injection Hh as ->; apply NoDup_cons in Hnd as [Hn _]; set_solver.
        - rewrite last_app_cons, !last_cons_cons in Hl. apply NoDup_app in Hnd as (_ & _ & Hnd).
          apply NoDup_cons in Hnd as [_ Hnd]. apply NoDup_cons in Hnd as [Hn _]. apply Hn. apply last_Some in Hl as [l' ->].
          apply elem_of_app. right. apply elem_of_list_here. }
      assert (v ∈ Z) as HvZ.
      { apply HZ. split_and!; [|done..]. subst l. apply madjs_app1_r in Hj. rewrite madjs_cons in Hj. apply (HN a v). apply Hj. }
      assert (mcollider G a v c) as Hcol.
      { subst l. apply macts_app1_r in Hc. rewrite macts_cons in Hc. destruct Hc as [[_ Hc] _].
        unfold mcollider. destruct (decide (into G a v)), (decide (into G c v)); [done|..]; exfalso; apply Hc; unfold mcollider; tauto. }
      split; [done|]. destruct Hcol as [Hi _]. destruct Hv as (t & Ht & Hv). exists t. split; [done|]. by apply (ante_into G Hse a). }
    destruct l as [|x' l]; [done|]. cbn in Hh. injection Hh as ->.
    destruct l as [|v1 l]; [cbn in Hl; congruence|].
    destruct l as [|c l].
    { cbn in Hl. injection Hl as ->. left. rewrite madjs_cons in Hj. apply Hj. }
    right.
    assert (∀ l0 p0 a v c0, p :: v1 :: c :: l = p0 ++ a :: v :: c0 :: l0 →
      ∃ w, into G q w ∧ rtc (λ p q, spouse G p q ∧ gT T q) v w) as Hgo.
    { intros l0. induction l0 as [|e l0 IH]; intros p0 a v c0 E; destruct (Hint _ _ _ _ _ E) as [[H1 H2] H3].
      - exists v. split; [|apply rtc_refl]. rewrite E in Hl. rewrite last_app_cons in Hl. cbn in Hl. by injection Hl as ->.
      - assert (p :: v1 :: c :: l = (p0 ++ [a]) ++ v :: c0 :: e :: l0) as E' by (rewrite E, <-app_assoc; done).
        destruct (IH _ _ _ _ E') as (w & Hw & Hr). exists w. split; [done|]. destruct (Hint _ _ _ _ _ E') as [[H4 H5] H6].
        eapply rtc_l; [|exact Hr]. split; [by apply into_both|done]. }
    destruct (Hgo l [] p v1 c eq_refl) as (w & Hw & Hr). destruct (Hint [] p v1 c l eq_refl) as [[H1 _] H2].
    by exists v1, w.
  Qed.

  Context (Hmax : maximal N G).
  Lemma max_adj x y : x ∈ N → y ∈ N → x ≠ y → (∀ C, x ∉ C → y ∉ C → mreach G C x y) → madj G x y.
  Proof using Hsi Hse Hmax.
    clear HN Han. intros Hx Hy Hne H. destruct (madj_dec G x y) as [|Hn]; [done|]. exfalso.
    destruct (Hmax x y Hx Hy Hne Hn) as (C & HC & Hs). apply (reach_not_sep C x y); [set_solver| |done]. apply H; set_solver.
  Qed.

  (** The triples that the library looks for. *)
  Definition tri_head (v w z : node) : Prop :=
    (∃ d, rtc (λ a b, spouse G a b ∧ (an b v ∨ an b w)) v d ∧ (d = z ∨ (z, d) ∈ D)) ∨
    (¬ an z v ∧ ¬ an z w ∧ ¬ an v z ∧ ¬ an w z ∧ rtc (λ a b, spouse G a b ∧ (an b v ∨ an b w ∨ an b z)) v z).
  Definition tri (T : nset) : Prop :=
    (∃ x z y, T = {[x; z; y]} ∧ mvstruct G x z y) ∨
    (∃ v w z, T = {[v; w; z]} ∧ spouse G v w ∧ ¬ (madj G v z ∧ madj G w z) ∧ z ≠ v ∧ z ≠ w ∧ tri_head v w z).

  Lemma guard_rev (Q : node → Prop) a b : Q a → rtc (λ a b, spouse G a b ∧ Q b) a b → Q b ∧ rtc (λ a b, spouse G a b ∧ Q b) b a.
  Proof using.
    intros Ha Hr. induction Hr as [a|a b c [Hs Hb] _ IH]; [split; [done|apply rtc_refl]|]. destruct (IH Hb) as [H1 H2]. split; [done|].
    eapply rtc_r; [exact H2|]. split; [by apply spouse_sym|done].
  Qed.

  (** *** Such triples cannot be taken apart *)
  Lemma tri_head_conn C v w z : spouse G v w → z ≠ v → tri_head v w z → v ∉ C → z ∉ C → w ∈ C → mreach G C z v.
  Proof using.
    clear -G. intros Hs Hzv Ht HvC HzC HwC.
    set (Q u := good G C z v u).
    assert (∀ u, an u v → Q u) as Qv by (intros u Hu; right; by left).
    assert (∀ u, an u z → Q u) as Qz by (intros u Hu; by left).
    assert (∀ u, an u w → Q u) as Qw by (intros u Hu; right; right; by exists w).
    destruct Ht as [(d & Hr & Hd)|(_ & _ & _ & _ & Hr)].
    - assert (rtc (λ a b, spouse G a b ∧ Q b) v d) as Hr'.
      { eapply (rtc_congruence id); [|exact Hr]. intros a b [H1 [H2|H2]]; (split; [done|]); auto. }
      destruct (guard_rev Q v d (Qv v (rtc_refl _ _)) Hr') as [Hq Hr2].
      destruct Hd as [->|Hd]; [by apply conn_district|]. apply (conn_to G C z v HzC d); [by left|done|done].
    - assert (rtc (λ a b, spouse G a b ∧ Q b) v z) as Hr'.
      { eapply (rtc_congruence id); [|exact Hr]. intros a b [H1 [H2|[H2|H2]]]; (split; [done|]); auto. }
      destruct (guard_rev Q v z (Qv v (rtc_refl _ _)) Hr') as [Hq Hr2]. by apply conn_district.
  Qed.
  Lemma tri_head_swap v w z : spouse G v w → tri_head v w z → tri_head w v z.
  Proof using.
    clear -G. intros Hs [(d & Hr & Hd)|(H1 & H2 & H3 & H4 & Hr)]; [left|right].
    - exists d. split; [|done]. eapply rtc_l; [split; [by apply spouse_sym|right; apply rtc_refl]|].
      eapply (rtc_congruence id); [|exact Hr]. intros a b. cbn. tauto.
    - split_and!; [done..|]. eapply rtc_l; [split; [by apply spouse_sym|right; left; apply rtc_refl]|].
      eapply (rtc_congruence id); [|exact Hr]. intros a b. cbn. tauto.
  Qed.

  Lemma size3 (a b c : node) : a ≠ b → a ≠ c → b ≠ c → size ({[a; b; c]} : nset) = 3.
  Proof using.
    clear. intros H1 H2 H3. rewrite !size_union by set_solver. by rewrite !size_singleton.
  Qed.
  Lemma tri_inseparable T : tri T → inseparable_triple N G T.
  Proof using Hsi Hse HN.
    clear Hmax Han. intros [(x & z & y & -> & (Hc1 & Hc2) & Hne & Hna)|(v & w & z & -> & Hs & Hop & Hzv & Hzw & Hh)].
    - pose proof (into_adj G _ _ Hc1) as A1. pose proof (into_adj G _ _ Hc2) as A2.
      pose proof (adj_ne G Hsi _ _ A1) as N1. pose proof (adj_ne G Hsi _ _ A2) as N2. destruct (HN _ _ A1) as [I1 I2]. destruct (HN _ _ A2) as [I3 _].
      assert (∀ C, x ∉ C → z ∈ C → ¬ msepd G {[x]} {[y]} C) as Hxy.
      { intros C H1 H2. apply reach_not_sep; [done|]. apply (conn_path G C x y H1 z z); [done|right; right; by apply opened_in|apply rtc_refl|done]. }
      split.
      + clear -I1 I2 I3. set_solver.
      + by apply size3.
      + exists x, z. split_and!; [clear; set_solver..|done].
      + exists x, y. split_and!; [clear; set_solver..|done|done].
      + intros a b C Ha Hb Hab HC HT.
        assert (a = x ∨ a = z ∨ a = y) as Ha' by (clear -Ha; set_solver). assert (b = x ∨ b = z ∨ b = y) as Hb' by (clear -Hb; set_solver).
        destruct Ha' as [->|[->| ->]], Hb' as [->|[->| ->]]; try done; try (apply adj_not_msepd; (done || by apply madj_sym)).
        * apply Hxy; [clear -HC; set_solver|]. apply HT. clear -N1 N2. set_solver.
        * intros H%msepd_sym. revert H. apply Hxy; [clear -HC; set_solver|]. apply HT. clear -N1 N2. set_solver.
    - assert (madj G v w) as A1 by (right; right; by left). pose proof (adj_ne G Hsi _ _ A1) as N1. destruct (HN _ _ A1) as [I1 I2].
      assert (z ∈ N) as I3.
      { destruct Hh as [(d & Hr & Hd)|(_ & _ & _ & _ & Hr)].
        - destruct Hd as [->|Hd]; [|apply (HN z d); by left]. destruct (rtc_inv_r _ _ Hr) as [?|(u & _ & Hu & _)]; [congruence|].
          apply (HN u z). right. right. by left.
        - destruct (rtc_inv_r _ _ Hr) as [?|(u & _ & Hu & _)]; [congruence|]. apply (HN u z). right. right. by left. }
      assert (∀ C, v ∉ C → z ∉ C → w ∈ C → ¬ msepd G {[z]} {[v]} C) as H1.
      { intros C C1 C2 C3. apply reach_not_sep; [done|]. by apply (tri_head_conn C v w z). }
      assert (∀ C, w ∉ C → z ∉ C → v ∈ C → ¬ msepd G {[z]} {[w]} C) as H2.
      { intros C C1 C2 C3. apply reach_not_sep; [done|]. apply (tri_head_conn C w v z); try done. by apply tri_head_swap. }
      split.
      + clear -I1 I2 I3. set_solver.
      + by apply size3.
      + exists v, w. split_and!; [clear; set_solver..|done].
      + destruct (madj_dec G v z) as [Hv|Hv].
        * exists w, z. split_and!; [clear; set_solver..|done|tauto].
        * exists v, z. split_and!; [clear; set_solver..|done|tauto].
      + intros a b C Ha Hb Hab HC HT.
        assert (a = v ∨ a = w ∨ a = z) as Ha' by (clear -Ha; set_solver). assert (b = v ∨ b = w ∨ b = z) as Hb' by (clear -Hb; set_solver).
        assert (v ∉ ({[w; z]} : nset) ∧ w ∉ ({[v; z]} : nset) ∧ w ∉ ({[z; v]} : nset) ∧ v ∉ ({[z; w]} : nset)) as (K1 & K2 & K3 & K4) by (clear -N1 Hzv Hzw; set_solver).
        destruct Ha' as [->|[->| ->]], Hb' as [->|[->| ->]]; try done; try (apply adj_not_msepd; (done || by apply madj_sym)).
        * intros H%msepd_sym. revert H. apply H1; [clear -HC; set_solver..|]. apply HT. clear -K2. set_solver.
        * intros H%msepd_sym. revert H. apply H2; [clear -HC; set_solver..|]. apply HT. clear -K1. set_solver.
        * apply H1; [clear -HC; set_solver..|]. apply HT. clear -K3. set_solver.
        * apply H2; [clear -HC; set_solver..|]. apply HT. clear -K4. set_solver.
  Qed.

  (** *** Triples that cannot be taken apart are found *)
  Section find.
    Context (T : nset) (HTN : T ⊆ N).
    Definition barren (h : node) : Prop := h ∈ T ∧ ∀ t, t ∈ T → t ≠ h → ¬ an h t.
    Lemma barren_dir h u : barren h → gT T u → (h, u) ∉ D.
    Proof using Han.
      clear -Han. intros [Hh Hb] (t & Ht & Hu) Hd. destruct (decide (t = h)) as [->|Hne]; [by apply (dir_no_an h u)|].
      apply (Hb t Ht Hne). by eapply rtc_l.
    Qed.
    Lemma barren_into h u : barren h → gT T u → into G h u → spouse G h u.
    Proof using Han. intros Hb Hu [H|H]; [|done]. by destruct (barren_dir h u Hb Hu). Qed.
    Lemma barren_adj h k : barren h → barren k → madj G h k → spouse G h k ∨ neighbor G h k.
    Proof using Han.
      intros Hh Hk [H|[H|[H|H]]]; [| |by left|by right]; exfalso.
      - apply (barren_dir h k Hh); [|done]. exists k. split; [apply Hk|apply rtc_refl].
      - apply (barren_dir k h Hk); [|done]. exists h. split; [apply Hh|apply rtc_refl].
    Qed.
    Lemma barren_neighbor h k : barren h → link T h k → (∃ e, neighbor G h e) → madj G h k.
    Proof using Hse Han.
      intros Hh [H|(u & w & H1 & _ & H3 & _)] [e He]; [done|]. exfalso. pose proof (barren_into _ _ Hh H3 H1) as Hs.
      apply (Hse u h e); [|done]. right. by apply spouse_sym.
    Qed.
    (** The part of a district between a barren node and a node it is linked to. *)
    Lemma barren_link h k : barren h → link T h k → madj G h k ∨ ∃ w, into G k w ∧ rtc (λ a b, spouse G a b ∧ gT T b) h w.
    Proof using Han.
      intros Hh [H|(u & w & H1 & H2 & H3 & H4)]; [by left|right]. exists w. split; [done|]. eapply rtc_l; [|exact H4].
      split; [by apply barren_into|done].
    Qed.
    Lemma barren_both h k : barren h → barren k → link T h k → ¬ neighbor G h k → rtc (λ a b, spouse G a b ∧ gT T b) h k.
    Proof using Han.
      intros Hh Hk Hl Hn. assert (gT T k) as Hgk by (exists k; split; [apply Hk|apply rtc_refl]).
      destruct (barren_link h k Hh Hl) as [H|(w & H1 & H2)].
      - destruct (barren_adj h k Hh Hk H) as [H'|H']; [|done]. by apply rtc_once.
      - eapply rtc_r; [exact H2|]. split; [|done]. apply spouse_sym. apply barren_into; [done| |done].
        destruct (rtc_inv_r _ _ H2) as [<-|(u & _ & _ & Hg)]; [|done]. exists h. split; [apply Hh|apply rtc_refl].
    Qed.

    Lemma find_three v w z : T = {[v; w; z]} → z ≠ v → z ≠ w → barren v → barren w → barren z →
      madj G v w → ¬ (madj G v z ∧ madj G w z) → link T v z → link T w z → tri T.
    Proof using Hse Han.
      intros ET Hzv Hzw Bv Bw Bz Ha Hop Lv Lw. right. exists v, w, z.
      assert (spouse G v w) as Hs.
      { destruct (barren_adj v w Bv Bw Ha) as [|Hn]; [done|]. exfalso. apply Hop. split.
        - apply barren_neighbor; [done|done|by exists w].
        - apply barren_neighbor; [done|done|exists v; by apply neighbor_sym]. }
      split_and!; [done..|]. right. pose proof (proj1 Bv) as Tv. pose proof (proj1 Bw) as Tw. pose proof (proj1 Bz) as Tz.
      split_and!; [apply Bz; done|apply Bz; done|by apply Bv|by apply Bw|].
      assert (¬ neighbor G v z) as Hn by (apply (Hse w v z); right; by apply spouse_sym).
      eapply (rtc_congruence id); [|exact (barren_both v z Bv Bz Lv Hn)]. intros a b [H1 (t & Ht & Hb)]. split; [done|]. cbn.
      rewrite ET in Ht. assert (t = v ∨ t = w ∨ t = z) as Ht' by (clear -Ht; set_solver). clear -Ht' Hb. naive_solver.
    Qed.
    Lemma find_two v w z : T = {[v; w; z]} → v ≠ w → z ≠ v → z ≠ w → barren v → barren w → an z v ∨ an z w →
      link T v w → link T v z → ¬ (madj G v w ∧ madj G v z ∧ madj G w z) → tri T.
    Proof using Hsi Hse Han HTN Hmax.
      intros ET Hvw Hzv Hzw Bv Bw Bz Lvw Lvz Hop.
      assert (∀ u, gT T u → an u v ∨ an u w) as Hg.
      { intros u (t & Ht & Hu). rewrite ET in Ht. assert (t = v ∨ t = w ∨ t = z) as [->|[->| ->]] by (clear -Ht; set_solver); [by left|by right|].
        destruct Bz; [left|right]; by etrans. }
      assert (¬ neighbor G v w) as Hn.
      { intros Hn. destruct Bz as [Bz|Bz]; apply an_arrow in Bz as [e He]; try done.
        - apply (Hse e v w); [by left|done].
        - apply (Hse e w v); [by left|by apply neighbor_sym]. }
      assert (∀ C, v ∉ C → mreach G C v w) as Hvc.
      { intros C HC. apply conn_district; [done|done|]. eapply (rtc_congruence id); [|exact (barren_both v w Bv Bw Lvw Hn)].
        intros a b [H1 H2]. split; [done|]. destruct (Hg _ H2); [by left|right; by left]. }
      assert (madj G v w) as Ha.
      { apply max_adj; [apply HTN, Bv|apply HTN, Bw|done|]. intros C HC _. by apply Hvc. }
      assert (spouse G v w) as Hs by (destruct (barren_adj v w Bv Bw Ha); done).
      right. exists v, w, z. split_and!; [done|done|tauto|done|done|]. left.
      assert (gT T z) as Hgz by (exists z; split; [rewrite ET; clear; set_solver|apply rtc_refl]).
      destruct (barren_link v z Bv Lvz) as [H|(u & H1 & H2)].
      - destruct H as [H|[H|[H|H]]].
        + by destruct (barren_dir v z Bv Hgz).
        + exists v. split; [apply rtc_refl|by right].
        + exists z. split; [|by left]. apply rtc_once. split; [done|]. done.
        + exfalso. apply (Hse w v z); [right; by apply spouse_sym|done].
      - assert (rtc (λ a b, spouse G a b ∧ (an b v ∨ an b w)) v u) as Hr.
        { eapply (rtc_congruence id); [|exact H2]. intros a b [? ?]. split; [done|]. by apply Hg. }
        destruct H1 as [H1|H1]; [exists u; split; [done|by right]|]. exists z. split; [|by left].
        eapply rtc_r; [exact Hr|]. split; [by apply spouse_sym|done].
    Qed.
    Lemma find_parent h a : h ∈ T → a ∈ T → a ≠ h → an a h → (∀ u, gT T u → an u h) → link T a h → (a, h) ∈ D.
    Proof using Hsi Hse Han HTN Hmax.
      intros Hh Ha Hne Hah Hg Hl.
      assert (madj G a h) as Hadj.
      { destruct Hl as [Hl|(u & w & H1 & H2 & H3 & H4)]; [done|]. apply max_adj; [by apply HTN|by apply HTN|done|]. intros C HC _.
        apply (conn_path G C a h HC u w); [done|right; left; by apply Hg| |done]. eapply (rtc_congruence id); [|exact H4].
        intros p q [? ?]. split; [done|]. right. left. by apply Hg. }
      destruct Hadj as [H|[H|[H|H]]]; [done|exfalso..].
      - by apply (dir_no_an h a).
      - by apply (proj1 (spo_no_an a h H)).
      - apply an_arrow in Hah as [e He]; [|done]. apply (Hse e h a); [by left|by apply neighbor_sym].
    Qed.
    Lemma find_one h a b : T = {[h; a; b]} → a ≠ h → b ≠ h → a ≠ b → an a h → an b h → link T a h → link T b h →
      ¬ (madj G h a ∧ madj G h b ∧ madj G a b) → tri T.
    Proof using Hsi Hse Han HTN Hmax.
      intros ET Hah Hbh Hab Ha Hb La Lb Hop.
      assert (∀ u, gT T u → an u h) as Hg.
      { intros u (t & Ht & Hu). rewrite ET in Ht. assert (t = h ∨ t = a ∨ t = b) as [->|[->| ->]] by (clear -Ht; set_solver); [done|by etrans..]. }
      assert (h ∈ T ∧ a ∈ T ∧ b ∈ T) as (Ih & Ia & Ib) by (rewrite ET; clear; set_solver).
      pose proof (find_parent h a Ih Ia Hah Ha Hg La) as P1. pose proof (find_parent h b Ih Ib Hbh Hb Hg Lb) as P2.
      left. exists a, h, b. split; [rewrite ET; clear; set_solver|]. split; [split; by left|]. split; [done|]. intros H. apply Hop.
      split_and!; [right; by left..|done].
    Qed.
  End find.

  Lemma three_cases p q r : p ≠ q → p ≠ r → q ≠ r →
    (¬ an p q ∧ ¬ an p r ∧ ¬ an q p ∧ ¬ an q r ∧ ¬ an r p ∧ ¬ an r q) ∨
    (∃ v w z, ((v, w, z) = (p, q, r) ∨ (v, w, z) = (p, r, q) ∨ (v, w, z) = (q, r, p)) ∧ ¬ an v w ∧ ¬ an w v ∧ ¬ an v z ∧ ¬ an w z ∧ (an z v ∨ an z w)) ∨
    (∃ h a b, ((h, a, b) = (p, q, r) ∨ (h, a, b) = (q, p, r) ∨ (h, a, b) = (r, p, q)) ∧ an a h ∧ an b h).
  Proof using Han.
    clear -Han. intros H1 H2 H3. pose proof an_antisym as As. assert (∀ u v w, an u v → an v w → an u w) as Tr by (intros u v w; apply rtc_transitive).
    destruct (an_dec p q), (an_dec p r), (an_dec q p), (an_dec q r), (an_dec r p), (an_dec r q);
      try (by left; tauto);
      try (by exfalso; eauto);
      try (by right; right; exists p, q, r; eauto 6);
      try (by right; right; exists q, p, r; eauto 6);
      try (by right; right; exists r, p, q; eauto 8);
      try (by right; left; exists p, q, r; tauto);
      try (by right; left; exists p, r, q; tauto);
      try (by right; left; exists q, r, p; tauto).
  Qed.
  Lemma inseparable_tri T : inseparable_triple N G T → ¬ ¬ tri T.
  Proof using Hsi Hse Han HN Hmax.
    intros [HTN Hsz (x & y & Hx & Hy & Hadj) (x' & y' & Hx' & Hy' & Hne' & Hna) Hsep] Hnt.
    assert (∃ p q r, p ≠ q ∧ p ≠ r ∧ q ≠ r ∧ T = {[p; q; r]}) as (p & q & r & Npq & Npr & Nqr & ET).
    { clear -Hsz. unfold size, set_size in Hsz. cbn in Hsz. pose proof (NoDup_elements T) as Hnd.
      pose proof (list_to_set_elements_L T) as E. destruct (elements T) as [|p [|q [|r [|? ?]]]]; try done.
      apply NoDup_cons in Hnd as [N1 Hnd]. apply NoDup_cons in Hnd as [N2 _]. exists p, q, r. split_and!; [set_solver..|]. rewrite <-E. cbn. set_solver. }
    assert (p ∈ T ∧ q ∈ T ∧ r ∈ T) as (Ip & Iq & Ir) by (rewrite ET; clear; set_solver).
    apply (unseparated_link T p q Ip Iq Npq HTN (λ C, Hsep p q C Ip Iq Npq)). intros Lpq.
    apply (unseparated_link T p r Ip Ir Npr HTN (λ C, Hsep p r C Ip Ir Npr)). intros Lpr.
    apply (unseparated_link T q r Iq Ir Nqr HTN (λ C, Hsep q r C Iq Ir Nqr)). intros Lqr.
    apply Hnt. clear Hsep Hnt Hsz.
    assert (∀ t, t ∈ T → t = p ∨ t = q ∨ t = r) as Hel by (intros t Ht; rewrite ET in Ht; clear -Ht; set_solver).
    assert (¬ (madj G p q ∧ madj G p r ∧ madj G q r)) as Hop.
    { intros (A1 & A2 & A3). apply Hna. pose proof (madj_sym _ _ _ A1). pose proof (madj_sym _ _ _ A2). pose proof (madj_sym _ _ _ A3).
      apply Hel in Hx' as [-> |[-> | ->]], Hy' as [-> |[-> | ->]]; done. }
    assert (madj G p q ∨ madj G p r ∨ madj G q r) as Hadj'.
    { pose proof (madj_sym _ _ _ Hadj) as Hs. pose proof (simple_irr G Hsi) as Hirr.
      apply Hel in Hx as [-> |[-> | ->]], Hy as [-> |[-> | ->]]; first [tauto|by destruct (Hirr _ Hadj)]. }
    clear x y Hx Hy Hadj x' y' Hx' Hy' Hne' Hna.
    assert (∀ a b, link T a b → link T b a) as Ls by (intros a b; apply link_sym).
    assert (∀ a b, madj G a b ↔ madj G b a) as Ms by (intros a b; split; apply madj_sym).
    assert (T = {[p; r; q]} ∧ T = {[q; r; p]} ∧ T = {[q; p; r]} ∧ T = {[r; p; q]}) as (E1 & E2 & E3 & E4) by (rewrite ET; clear; set_solver).
    assert (∀ h, h ∈ T → (∀ t, t = p ∨ t = q ∨ t = r → t ≠ h → ¬ an h t) → barren T h) as Hbar.
    { intros h Hh H. split; [done|]. intros t Ht. apply H. by apply Hel. }
    destruct (three_cases p q r Npq Npr Nqr) as [(A1 & A2 & A3 & A4 & A5 & A6)|[(v & w & z & Hc & B1 & B2 & B3 & B4 & B5)|(h & a & b & Hc & B1 & B2)]].
    - assert (barren T p ∧ barren T q ∧ barren T r) as (Bp & Bq & Br) by (split_and!; apply Hbar; naive_solver).
      destruct Hadj' as [Ha|[Ha|Ha]].
      + apply (find_three T p q r); auto; tauto.
      + apply (find_three T p r q); auto. rewrite (Ms r q). tauto.
      + apply (find_three T q r p); auto. rewrite (Ms q p), (Ms r p). tauto.
    - destruct Hc as [[= -> -> ->]|[[= -> -> ->]|[= -> -> ->]]].
      + apply (find_two T HTN p q r); auto; apply Hbar; naive_solver.
      + apply (find_two T HTN p r q); auto; [apply Hbar; naive_solver..|]. rewrite (Ms r q). tauto.
      + apply (find_two T HTN q r p); auto; [apply Hbar; naive_solver..|]. rewrite (Ms q p), (Ms r p). tauto.
    - destruct Hc as [[= -> -> ->]|[[= -> -> ->]|[= -> -> ->]]].
      + apply (find_one T HTN p q r); auto.
      + apply (find_one T HTN q p r); auto. rewrite (Ms q p). tauto.
      + apply (find_one T HTN r p q); auto. rewrite (Ms r p), (Ms r q). tauto.
  Qed.
End triple.
