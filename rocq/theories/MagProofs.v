(** Depth-first components and the search for a bidirected path. *)
From Verif Require Import Py Spec SpecDsep SpecMixed DagModel DsepModel UGraphModel InterveneModel AncestralModel MsepModel MagModel
  TopoProofs StateProofs ReachProofs OrderProofs QueryProofs UGraphProofs PdagProofs WalkProofs DsepProofs InterveneProofs AncestralState
  AncestralProofs AncestralCopy MWalkProofs MsepProofs PropertiesAncestral.

(** ** Depth-first search *)
Section dfs.
  Context (next : node → nset) (o : oracle) (U : nset) (HU : ∀ v, next v ⊆ U).
  Notation R := (λ x y, y ∈ next x).

  (** What one call adds to both sets. *)
  Definition dfs_adds (v : node) (st st' : nset * nset) (X : nset) : Prop :=
    (∀ x, x ∈ st'.1 ↔ x ∈ st.1 ∨ x ∈ X) ∧ (∀ x, x ∈ st'.2 ↔ x ∈ st.2 ∨ x ∈ X) ∧
    (∀ x, x ∈ X → x ∉ st.2 ∧ rtc R v x ∧ ∀ y, y ∈ next x → y ∈ st'.2).

  Lemma dfs_spec fuel v st :
    v ∉ st.2 → size (U ∖ st.2) + 1 < fuel ∨ (v ∈ U ∧ size (U ∖ st.2) < fuel) →
    ∃ st' X, dfs next o fuel v st = Ok st' ∧ v ∈ X ∧ dfs_adds v st st' X.
  Proof using HU.
    revert v st. induction fuel as [|fuel IH]; intros v st Hv Hf; [lia|]. cbn [dfs].
    set (vis0 := {[v]} ∪ st.2).
    assert (size (U ∖ vis0) < fuel) as Hf'.
    { destruct Hf as [Hf|[HvU Hf]].
      - assert (size (U ∖ vis0) ≤ size (U ∖ st.2)) by (apply subseteq_size; set_solver). lia.
      - assert (size (U ∖ vis0) < size (U ∖ st.2)); [|lia]. apply subset_size. set_solver. }
    assert (∀ l st0, (∀ w, w ∈ l → w ∈ next v) → vis0 ⊆ st0.2 →
      ∃ st' X, loopR (λ w st, if decide (w ∈ st.2) then Ok st else dfs next o fuel w st) l st0 = Ok st' ∧
        dfs_adds v st0 st' X ∧ ∀ w, w ∈ l → w ∈ st'.2) as Hloop.
    { intros l. induction l as [|w l IHl]; intros st0 Hl Hsub; cbn [loopR].
      { exists st0, ∅. split; [done|]. split; [|set_solver]. unfold dfs_adds. set_solver. }
      destruct (decide (w ∈ st0.2)) as [Hw|Hw].
      - destruct (IHl st0) as (st' & X & E & HX & Hin); [set_solver|done|]. exists st', X. split; [done|]. split; [done|].
        intros u [-> |Hu]%elem_of_cons; [|by apply Hin]. apply HX. by left.
      - destruct (IH w st0 Hw) as (st1 & X1 & -> & Hw1 & A1 & A2 & A3).
        { right. split; [apply (HU v), Hl; set_solver|].
          assert (size (U ∖ st0.2) ≤ size (U ∖ vis0)) by (apply subseteq_size; set_solver). lia. }
        destruct (IHl st1) as (st' & X & E & (B1 & B2 & B3) & Hin); [set_solver| |].
        { intros x Hx. apply A2. left. by apply Hsub. }
        exists st', (X1 ∪ X). split; [done|]. split.
        + split; [intros x; rewrite B1, A1, elem_of_union; tauto|]. split; [intros x; rewrite B2, A2, elem_of_union; tauto|].
          intros x [Hx|Hx]%elem_of_union.
          * destruct (A3 x Hx) as (H1 & H2 & H3). split; [done|]. split.
            -- eapply rtc_l; [|exact H2]. apply Hl. set_solver.
            -- intros y Hy. apply B2. left. by apply H3.
          * destruct (B3 x Hx) as (H1 & H2 & H3). split; [|done]. intros H. apply H1, A2. by left.
        + intros u [-> |Hu]%elem_of_cons; [|by apply Hin]. apply B2. left. apply A2. by right. }
    destruct (Hloop (on o [92; v] (next v)) ({[v]} ∪ st.1, vis0)) as (st' & X & -> & (B1 & B2 & B3) & Hin).
    { intros w. by rewrite elem_of_on. }
    { done. }
    cbn [fst snd] in B1, B2, B3. exists st', ({[v]} ∪ X). split; [done|]. split; [set_solver|].
    split; [intros x; rewrite B1; clear; set_solver|]. split; [intros x; rewrite B2; unfold vis0; clear; set_solver|].
    intros x [->%elem_of_singleton|Hx]%elem_of_union.
    - split; [done|]. split; [apply rtc_refl|]. intros y Hy. apply Hin. by rewrite elem_of_on.
    - destruct (B3 x Hx) as (H1 & H2 & H3). split; [set_solver|]. done.
  Qed.

  (** From an empty or a closed [visited] the call adds what is reachable. *)
  Lemma dfs_closed fuel v st :
    v ∉ st.2 → size U + 1 < fuel → (∀ x y, x ∉ st.2 → y ∈ next x → y ∉ st.2) →
    ∃ st', dfs next o fuel v st = Ok st' ∧ (∀ x, x ∈ st'.1 ↔ x ∈ st.1 ∨ rtc R v x) ∧ (∀ x, x ∈ st'.2 ↔ x ∈ st.2 ∨ rtc R v x).
  Proof using HU.
    intros Hv Hf Hcl. destruct (dfs_spec fuel v st Hv) as (st' & X & E & HvX & A1 & A2 & A3).
    { left. assert (size (U ∖ st.2) ≤ size U) by (apply subseteq_size; set_solver). lia. }
    exists st'. split; [done|].
    assert (∀ x, x ∈ X ↔ rtc R v x) as HX.
    { intros x. split; [intros Hx; by apply A3|]. intros Hr.
      assert (∀ u, u ∈ X → rtc R u x → x ∈ X) as Hgo; [|by apply (Hgo v)]. clear Hr.
      intros u Hu Hr. induction Hr as [u|u w x Huw _ IHr]; [done|]. apply IHr.
      destruct (A3 u Hu) as (H1 & _ & H3). specialize (H3 _ Huw). apply A2 in H3 as [H3|H3]; [|done].
      exfalso. by apply (Hcl u w). }
    split; intros x; [rewrite A1|rewrite A2]; by rewrite HX.
  Qed.

  (** The component loop, for a symmetric relation. *)
  Context (Hsym : ∀ x y, y ∈ next x → x ∈ next y).
  Lemma dfs_all_spec (N : nset) : size U ≤ size N →
    ∃ cs vis, dfs_all next o N = Ok (cs, vis) ∧
      (∀ c, c ∈ cs → ∃ v, v ∈ N ∧ ∀ x, x ∈ c ↔ rtc R v x) ∧
      (∀ v, v ∈ N → ∃ c, c ∈ cs ∧ v ∈ c) ∧
      (∀ i j c c', cs !! i = Some c → cs !! j = Some c' → i ≠ j → c ## c').
  Proof using HU Hsym.
    intros Hsize. unfold dfs_all.
    assert (∀ x y, rtc R x y → rtc R y x) as Hrs.
    { intros x y Hr. induction Hr as [|x y z Hxy _ IH]; [apply rtc_refl|]. eapply rtc_r; [exact IH|]. by apply Hsym. }
    set (Inv := λ (l : list node) (st : list nset * nset),
      (∀ c, c ∈ st.1 → ∃ v, v ∈ N ∧ ∀ x, x ∈ c ↔ rtc R v x) ∧ (∀ x, x ∈ st.2 ↔ ∃ c, c ∈ st.1 ∧ x ∈ c) ∧
      (∀ v, v ∈ N → v ∈ l ∨ v ∈ st.2) ∧
      (∀ i j c c', st.1 !! i = Some c → st.1 !! j = Some c' → i ≠ j → c ## c')).
    assert (∀ l st, (∀ v, v ∈ l → v ∈ N) → Inv l st →
      ∃ st', loopR (λ v st, if decide (v ∈ st.2) then Ok st
        else res_bind (dfs next o (dfs_fuel N) v (∅, st.2)) (λ r, Ok (st.1 ++ [r.1], r.2))) l st = Ok st' ∧ Inv [] st') as H.
    { intros l. induction l as [|v l IH]; intros [cs vis] Hl HI; cbn [loopR]; [by eexists|].
      destruct HI as (I1 & I2 & I3 & I4). cbn [fst snd] in *.
      destruct (decide (v ∈ vis)) as [Hv|Hv].
      - apply IH; [set_solver|]. split; [done|]. split; [done|]. split; [|done]. cbn [fst snd]. intros x Hx.
        destruct (I3 x Hx) as [[-> |H]%elem_of_cons|H]; auto.
      - assert (∀ x y, x ∉ vis → y ∈ next x → y ∉ vis) as Hcl.
        { intros x y Hx Hxy Hy. apply Hx. apply I2 in Hy as (c & Hc & Hy). destruct (I1 c Hc) as (u & _ & Hu).
          apply I2. exists c. split; [done|]. apply Hu. eapply rtc_r; [by apply Hu|]. by apply Hsym. }
        destruct (dfs_closed (dfs_fuel N) v (∅, vis) Hv) as ((c & vis') & -> & Hc & Hvis'); [unfold dfs_fuel; lia|done|].
        cbn [fst snd res_bind] in *.
        assert (∀ x, x ∈ c ↔ rtc R v x) as Hc' by (intros x; rewrite Hc; set_solver).
        assert (∀ x, rtc R v x → x ∉ vis) as Hfresh.
        { intros x Hr. clear -Hr Hv Hcl. induction Hr as [|x y z Hxy _ IH]; [done|]. apply IH. by apply (Hcl x). }
        apply IH; [set_solver|]. split; cbn [fst snd].
        { intros c0 [H| ->%elem_of_list_singleton]%elem_of_app; [by apply I1|]. exists v. split; [apply Hl; set_solver|done]. }
        split.
        { intros x. rewrite Hvis', I2. split.
          - intros [(c0 & ? & ?)|Hr]; [exists c0|exists c]; (split; [|by try apply Hc']); apply elem_of_app; [by left|right]. by apply elem_of_list_singleton.
          - intros (c0 & [H| ->%elem_of_list_singleton]%elem_of_app & Hx); [left; by exists c0|right; by apply Hc']. }
        split.
        { intros x Hx. destruct (I3 x Hx) as [[-> |H]%elem_of_cons|H]; [|by left|]; right; apply Hvis'; [right; apply rtc_refl|by left]. }
        assert (∀ c0, c0 ∈ cs → c0 ## c) as Hd.
        { intros c0 Hc0 x Hx Hx'. apply (Hfresh x); [by apply Hc'|]. apply I2. by exists c0. }
        intros i j c1 c2 H1 H2 Hij.
        assert (∀ k c0, (cs ++ [c]) !! k = Some c0 → cs !! k = Some c0 ∨ k = length cs ∧ c0 = c) as Hlk.
        { intros k c0 [H|[H H']]%lookup_app_Some; [by left|]. right. apply list_lookup_singleton_Some in H' as [? ->]. split; [lia|done]. }
        apply Hlk in H1 as [H1|[-> ->]]; apply Hlk in H2 as [H2|[-> ->]].
        + by apply (I4 i j).
        + apply Hd. by eapply elem_of_list_lookup_2.
        + symmetry. apply Hd. by eapply elem_of_list_lookup_2.
        + done. }
    destruct (H (on o [93] N) ([], ∅)) as ([cs vis] & E & I1 & I2 & I3 & I4).
    { intros v. by rewrite elem_of_on. }
    { split; [set_solver|]. split; [cbn; set_solver|]. split; [|done]. intros v Hv. left. by rewrite elem_of_on. }
    exists cs, vis. split; [done|]. split; [done|]. split; [|done]. intros v Hv.
    destruct (I3 v Hv) as [Hn|Hn]; [by apply elem_of_nil in Hn|]. by apply I2.
  Qed.
End dfs.

(** ** [_reachable] *)
Section reachable_to.
  Context (next : node → nset) (o : oracle) (U : nset) (HU : ∀ v, next v ⊆ U) (e : node).
  Notation R := (λ x y, y ∈ next x).

  Lemma reachable_to_spec fuel v vis :
    size (U ∖ vis) < fuel →
    ∃ b vis', reachable_to next o e fuel v vis = Ok (b, vis') ∧ vis ⊆ vis' ∧
      (b = true → tc R v e) ∧
      (e ∉ vis → b = false → e ∉ vis' ∧ (∀ y, y ∈ next v → y ∈ vis') ∧ ∀ x, x ∈ vis' → x ∉ vis → ∀ y, y ∈ next x → y ∈ vis').
  Proof using HU.
    revert v vis. induction fuel as [|fuel IH]; intros v vis Hf; [lia|]. cbn [reachable_to].
    set (go := fix go (l : list node) (results : bool) (vis : nset) : res (bool * nset) := _).
    assert (∀ l acc vis0, (∀ w, w ∈ l → w ∈ next v) → vis ⊆ vis0 → (acc = true → tc R v e) →
      ∃ b vis', go l acc vis0 = Ok (b, vis') ∧ vis0 ⊆ vis' ∧ (b = true → tc R v e) ∧
        (b = false → acc = false ∧ (e ∉ vis0 → e ∉ vis' ∧ (∀ y, y ∈ l → y ∈ vis') ∧
          ∀ x, x ∈ vis' → x ∉ vis0 → ∀ y, y ∈ next x → y ∈ vis'))) as Hgo.
    { intros l. induction l as [|w l IHl]; intros acc vis0 Hl Hsub Hacc.
      { exists acc, vis0. cbn. split; [done|]. split; [done|]. split; [done|]. intros ->. split; [done|]. intros He. clear -He. set_solver. }
      change (go (w :: l) acc vis0) with (if decide (w ∈ vis0) then go l acc vis0 else if decide (w = e) then Ok (true, {[w]} ∪ vis0)
        else res_bind (reachable_to next o e fuel w ({[w]} ∪ vis0)) (λ r, go l (acc || r.1) r.2)).
      assert (w ∈ next v) as Hwv by (apply Hl, elem_of_list_here).
      assert (∀ x, x ∈ l → x ∈ next v) as Hl' by (intros x Hx; apply Hl; by apply elem_of_list_further).
      destruct (decide (w ∈ vis0)) as [Hw|Hw].
      { destruct (IHl acc vis0) as (b & vis' & E & H1 & H2 & H3); [done|done|done|]. exists b, vis'.
        split; [done|]. split; [done|]. split; [done|]. intros Hb. destruct (H3 Hb) as (G1 & G2).
        split; [done|]. intros He. destruct (G2 He) as (G3 & G4 & G5).
        split; [done|]. split; [|done]. intros y [-> |Hy]%elem_of_cons; [by apply H1|by apply G4]. }
      destruct (decide (w = e)) as [->|Hwe].
      { exists true, ({[e]} ∪ vis0). split; [done|]. split; [clear; set_solver|]. split; [|done]. intros _. by apply tc_once. }
      destruct (IH w ({[w]} ∪ vis0)) as (b1 & vis1 & -> & A1 & A2 & A3).
      { assert (size (U ∖ ({[w]} ∪ vis0)) < size (U ∖ vis)); [|lia]. apply subset_size. split; [clear -Hsub; set_solver|].
        assert (w ∈ U) as HwU by (by apply (HU v)). intros Hc.
        assert (w ∈ U ∖ ({[w]} ∪ vis0)) as Hx by (apply Hc; clear -HwU Hw Hsub; set_solver). clear -Hx. set_solver. }
      cbn [res_bind fst snd].
      assert (vis0 ⊆ vis1) as H01 by (clear -A1; set_solver).
      destruct (IHl (acc || b1) vis1) as (b & vis' & -> & B1 & B2 & B3).
      { done. }
      { by etrans. }
      { intros [Ha|Hb]%orb_true_iff; [by apply Hacc|]. eapply tc_l; [exact Hwv|]. by apply A2. }
      exists b, vis'. split; [done|]. split; [by etrans|]. split; [done|]. intros Hb.
      destruct (B3 Hb) as [[Hacc' ->]%orb_false_iff G]. split; [done|]. intros He.
      destruct A3 as (C1 & C2 & C3); [clear -He Hwe; set_solver|done|]. destruct (G C1) as (G1 & G2 & G3).
      split; [done|]. split.
      { intros y [-> |Hy]%elem_of_cons; [|by apply G2]. apply B1, A1. clear. set_solver. }
      intros x Hx Hx0 y Hy. destruct (decide (x ∈ vis1)) as [Hx1|Hx1]; [|by apply (G3 x)].
      apply B1. destruct (decide (x = w)) as [->|Hxw]; [by apply C2|]. apply (C3 x); [done| |done]. clear -Hxw Hx0. set_solver. }
    destruct (Hgo (on o [95; v] (next v)) false vis) as (b & vis' & E & H1 & H2 & H3); [intros w; by rewrite elem_of_on|done|done|].
    exists b, vis'. split; [done|]. split; [done|]. split; [done|]. intros He Hb. destruct (H3 Hb) as [_ G].
    destruct (G He) as (G1 & G2 & G3). split; [done|]. split; [|done]. intros y Hy. apply G2. by rewrite elem_of_on.
  Qed.
  Lemma reachable_to_start fuel v : size U < fuel → ∃ b vis', reachable_to next o e fuel v ∅ = Ok (b, vis') ∧ (b = true ↔ tc R v e).
  Proof using HU.
    intros Hf. destruct (reachable_to_spec fuel v ∅) as (b & vis' & E & _ & H1 & H2); [by rewrite difference_empty_L|].
    exists b, vis'. split; [done|]. split; [done|]. intros Hr. destruct b; [done|]. exfalso.
    destruct H2 as (G1 & G2 & G3); [apply not_elem_of_empty|done|]. apply G1.
    assert (∀ x, x ∈ vis' → rtc R x e → e ∈ vis') as Hgo.
    { intros x Hx Hr'. refine (rtc_ind_r (λ z, z ∈ vis') x Hx _ e Hr'). intros y z _ Hyz Hy. apply (G3 y); [done|apply not_elem_of_empty|done]. }
    assert (∃ y, y ∈ next v ∧ rtc R y e) as (y & Hy & Hr') by (inversion Hr; subst; [by eexists; split; [done|apply rtc_refl]|eexists; split; [done|by apply tc_rtc]]). apply (Hgo y); [by apply G2|exact Hr'].
  Qed.
End reachable_to.
