(** The clique tree connects cliques over their common nodes. *)
From Verif Require Import Py Spec DagModel DctModel SpecDct DctUf DctGraph DctTree.

Lemma rtc_back {B} (R : relation B) x y : (∀ x y, R x y → R y x) → rtc R x y → rtc R y x.
Proof. intros HR. induction 1 as [|x y z H _ IH]; [done|]. eapply rtc_r; [exact IH|by apply HR]. Qed.
Lemma conn_sym F X U V : connected_over F X U V → connected_over F X V U.
Proof. unfold connected_over. apply rtc_back. intros a b (H & H1 & H2). split; [by apply linked_sym|done]. Qed.
Lemma conn_mono F X X' U V : X' ⊆ X → connected_over F X U V → connected_over F X' U V.
Proof. intros HX. apply rtc_subrel. intros a b (H & H1 & H2). split; [done|]. set_solver. Qed.
Lemma conn_mono_edges F F' X U V : (∀ e, e ∈ F → e ∈ F') → connected_over F X U V → connected_over F' X U V.
Proof. intros HX. apply rtc_subrel. intros a b ([H|H] & H1 & H2); (split; [|done]); [left|right]; by apply HX. Qed.
Lemma conn_tree F X U V : connected_over F X U V → rtsc (tree_rel F) U V.
Proof. apply rtc_subrel. intros a b ([H|H] & _ & _); [by left|by right]. Qed.
Lemma outcome_sym A F X Y : outcome A F X Y → outcome A F Y X.
Proof.
  unfold outcome. replace (Y ∩ X) with (X ∩ Y) by set_solver. intros [H|(Z & HZ & Hi & Hb)].
  - left. revert H. apply rtc_back. intros a b [H1 H2]. split; [by apply linked_sym|]. replace (b ∩ a) with (a ∩ b) by set_solver. done.
  - right. exists Z. split; [tauto|]. split; [tauto|done].
Qed.
Lemma inter_size (X X' : nset) : X ⊆ X' → size X' ≤ size X → X' = X.
Proof. intros H1 H2. apply leibniz_equiv. intros x. split; [|apply H1]. intros Hx. destruct (decide (x ∈ X)) as [|Hn]; [done|]. exfalso.
  assert (X ⊂ X') as H by (split; [done|]; intros H; by apply Hn, H). apply subset_size in H. lia. Qed.

Section span.
  Context (N : nset) (A : arcset) (r : node → nat) (cl : list nset).
  Context (Hr : ∀ x y, (x, y) ∈ A → r x < r y) (Hmoral : moral_arcs A) (Hov : over N A).
  Context (Hcl : ∀ C, C ∈ cl ↔ maximal_clique N A C).
  Notation initial := (initial A).
  Context (F : list cedge) (HF : ∀ X Y, (X, Y) ∈ F → X ∈ cl ∧ Y ∈ cl).

  Section one.
    Context (X : nset) (IH : ∀ U V, U ∈ cl → V ∈ cl → X ⊂ U ∩ V → connected_over F X U V).
    Lemma clique_full C x : C ∈ cl → X ⊆ C → x ∈ C → x ∉ X → full A X x.
    Proof using Hcl. intros HC HX Hx Hn. apply Hcl in HC as (_ & _ & HC & _). split; [done|]. intros s Hs. apply HC; [by apply HX|done|by intros ->]. Qed.
    Lemma two C : C ∈ cl → clique A C ∧ C ⊆ N.
    Proof using Hcl. intros HC. apply Hcl in HC as (_ & ? & ? & _). done. Qed.
    Lemma bridge_full x z : rtc (λ x y, joined A x y ∧ full A X x ∧ full A X y) x z → ∀ L Z, L ∈ cl → Z ∈ cl → X ⊆ L → X ⊆ Z → x ∈ L → z ∈ Z → x ∉ X → z ∉ X →
      connected_over F X L Z.
    Proof using Hcl IH Hov HF Hr Hmoral.
      induction 1 as [x|x y z (Hxy & [HxX Hx] & [HyX Hy]) _ IHr]; intros L Z HL HZ HXL HXZ HxL HzZ HnxX HnzX.
      - apply IH; [done|done|]. split; [set_solver|]. intros H. apply HnxX, H. set_solver.
      - destruct (extend N A ({[x; y]} ∪ X))  as (M & HM & HMm).
        + set_solver.
        + pose proof (proj2 (two L HL)). assert (y ∈ N) by (destruct Hxy as [H'|H']; apply Hov in H'; apply H'). assert (X ⊆ N) by (by transitivity L). intros a. rewrite !elem_of_union, !elem_of_singleton. intros [[->| ->]|Ha]; auto.
        + assert (∀ s, s ∈ X → joined A s x ∧ joined A s y) as Hs by (intros s Hs; split; [by apply Hx|by apply Hy]). pose proof (proj1 (two L HL)) as HLc.
          intros a b. rewrite !elem_of_union, !elem_of_singleton. intros [[->| ->]|Ha] [[->| ->]|Hb] Hab; try done.
          all: first [by apply joined_sym|by apply Hs|by apply joined_sym, Hs|apply HLc; [by apply HXL|by apply HXL|done]].
        + apply Hcl in HMm. transitivity M.
          * apply IH; [done|done|]. split; [set_solver|]. intros H. apply HnxX, H. set_solver.
          * assert (X ⊆ M ∧ y ∈ M) as [? ?] by (clear -HM; set_solver). by apply IHr.
    Qed.
    Lemma bridge x z L Z : rtc (λ x y, joined A x y ∧ x ∉ X ∧ y ∉ X) x z → L ∈ cl → Z ∈ cl → X ⊆ L → X ⊆ Z → x ∈ L → z ∈ Z → x ∉ X → z ∉ X →
      connected_over F X L Z.
    Proof using Hcl IH Hov Hr Hmoral HF.
      intros H HL HZ HXL HXZ HxL HzZ HnxX HnzX. apply (bridge_full x z); try done. apply (chain_rtc A r Hr Hmoral); [done|by apply (clique_full L)|by apply (clique_full Z)].
    Qed.
    (** Along a walk of heavy links. *)
    Lemma walk_over U V : rtc (heavy F (size X)) U V → V ∈ cl → X ⊆ V → (∃ v, v ∈ V ∧ v ∉ X) → ∀ L x u, U ∈ cl → L ∈ cl → X ⊆ L → x ∈ L → x ∉ X → u ∈ U → u ∉ X →
      rtc (λ x y, joined A x y ∧ x ∉ X ∧ y ∉ X) x u → connected_over F X L V.
    Proof using Hcl IH Hov Hr Hmoral HF.
      induction 1 as [U|U W V [HUW Hw] _ IHw]; intros HV HXV (v & HvV & Hv) L x u HU HL HXL HxL Hx HuU Hu Hxu.
      - by apply (bridge x u).
      - assert (W ∈ cl) as HW by (destruct HUW as [H|H]; apply HF in H; apply H).
        destruct (decide (X ⊆ U ∩ W ∧ size (U ∩ W) ≤ size X)) as [[H1 H2]|H].
        + pose proof (inter_size _ _ H1 H2) as E. transitivity U; [apply (bridge x u); try done; set_solver|]. transitivity W.
          { apply rtc_once. split; [done|]. set_solver. }
          assert (∃ y, y ∈ W ∧ y ∉ X) as (y & HyW & Hy).
          { destruct (decide (Exists (λ y, y ∉ X) (elements W))) as [He|He].
            - apply Exists_exists in He as (y & ?%elem_of_elements & ?). by exists y.
            - exfalso. assert (W ⊆ X) as HWX. { intros y Hy. destruct (decide (y ∈ X)) as [|Hn]; [done|]. exfalso. apply He, Exists_exists. exists y. by rewrite elem_of_elements. }
              apply Hcl in HW as (_ & _ & _ & Hmax). destruct (two V HV) as [HVc HVN]. apply Hv, HWX, (Hmax V); [done|done|by transitivity X|done]. }
          by apply (IHw HV HXV (ex_intro _ v (conj HvV Hv)) W y y); set_solver.
        + assert (∃ t, t ∈ U ∩ W ∧ t ∉ X) as (t & Ht & HtX).
          { destruct (decide (Exists (λ y, y ∉ X) (elements (U ∩ W)))) as [He|He].
            - apply Exists_exists in He as (y & ?%elem_of_elements & ?). by exists y.
            - exfalso. assert (U ∩ W ⊆ X) as HWX. { intros y Hy. destruct (decide (y ∈ X)) as [|Hn]; [done|]. exfalso. apply He, Exists_exists. exists y. by rewrite elem_of_elements. }
              apply H. rewrite (inter_size (U ∩ W) X HWX) by done. done. }
          apply (IHw HV HXV (ex_intro _ v (conj HvV Hv)) L x t); try done; [set_solver|].
          destruct (decide (t = u)) as [->|Htu]; [done|]. eapply rtc_r; [exact Hxu|]. split; [|done]. apply (proj1 (two U HU)); [done|set_solver|by intros ->].
    Qed.
  End one.
  Context (p : list cedge) (h : nset → nat) (w : nat) (Hini : ∀ X Y, (X, Y) ∈ F → initial (X ∩ Y) Y) (Hh : heights F h).
  Context (Hout : ∀ X Y, (X, Y) ∈ p → outcome A F X Y).
  Context (Hall : ∀ X Y, X ∈ cl → Y ∈ cl → X ≠ Y → X ∩ Y ≠ ∅ → w ≤ size (X ∩ Y) → (X, Y) ∈ p ∨ (Y, X) ∈ p).

  Lemma chain_down (X Z Y : nset) : rtc (bidir F (size X)) Z Y → initial X Z → connected_over F X Z Y ∧ initial X Y ∧ h Z = h Y.
  Proof using All.
    induction 1 as [Z|Z W Y [[H1 H2] Hw] _ IHc]; intros HX; [done|].
    pose proof (Hini _ _ H1) as I1. pose proof (Hini _ _ H2) as I2. replace (W ∩ Z) with (Z ∩ W) in I2 by set_solver.
    pose proof (initial_nested A r Hr _ _ _ HX I2 Hw) as Hsub. pose proof (initial_through A _ _ _ _ HX I2 I1 Hsub) as HX'.
    destruct (IHc HX') as (C & I & E). split; [|split; [done|]].
    - eapply rtc_l; [|exact C]. split; [by left|]. set_solver.
    - rewrite <-E. by apply (Hh Z W).
  Qed.

  Lemma spans X Y : X ∈ cl → Y ∈ cl → X ∩ Y ≠ ∅ → w ≤ size (X ∩ Y) → connected_over F (X ∩ Y) X Y.
  Proof using All.
    remember (size N - size (X ∩ Y)) as n eqn:Hn. revert X Y Hn. induction n as [n IH1] using lt_wf_ind. intros X Y ->.
    remember (h X + h Y) as m eqn:Hm. remember (size (X ∩ Y)) as k eqn:Hk. revert X Y Hk Hm. induction m as [m IH2] using lt_wf_ind. intros X Y Hk Hm HX HY Hne Hw.
    assert (∀ U V, U ∈ cl → V ∈ cl → X ∩ Y ⊂ U ∩ V → connected_over F (X ∩ Y) U V) as IH.
    { intros U V HU HV Hsub. apply (conn_mono F (U ∩ V)); [apply Hsub|]. pose proof (subset_size _ _ Hsub) as Hs.
      assert (size (U ∩ V) ≤ size N) by (apply subseteq_size; pose proof (proj2 (two U HU)); set_solver).
      apply (IH1 (size N - size (U ∩ V))); [lia|done|done|done| |lia]. intros E. apply Hne. rewrite E in Hsub. set_solver. }
    destruct (decide (X = Y)) as [->|HXY]; [done|].
    assert (initial (X ∩ Y) X ∨ initial (X ∩ Y) Y ∨ (¬ initial (X ∩ Y) X ∧ ¬ initial (X ∩ Y) Y)) as Hcase.
    { pose proof (all_into_spec A X Y) as S1. pose proof (all_into_spec' A X Y) as S2. rewrite <-S1, <-S2. clear.
      destruct (all_into A (X ∩ Y) X), (all_into A (X ∩ Y) Y); [tauto|tauto|tauto|]. right. right. by split. }
    assert (¬ initial (X ∩ Y) X → ¬ initial (X ∩ Y) Y → connected_over F (X ∩ Y) X Y) as Hneither.
    { intros H1 H2. destruct (third N A r Hr Hmoral Hov X Y) as (Z & HZ & HZX & HZY); [by apply Hcl|by apply Hcl|done|done|done|].
      apply Hcl in HZ. transitivity Z; [apply IH; [done|done|]|by apply IH]. by replace (X ∩ Z) with (Z ∩ X) by set_solver. }
    assert (initial (X ∩ Y) X ∨ initial (X ∩ Y) Y → connected_over F (X ∩ Y) X Y) as Hone; [|tauto].
    clear Hneither Hcase. intros Hi.
    assert (outcome A F X Y) as [Hwalk|(Z & HZ & HiZ & Y' & C & Hc & HCF & HCn & HwC)].
    { destruct (Hall X Y) as [H|H]; [done|done|done|done|lia|by apply Hout|]. by apply outcome_sym, Hout. }
    - assert (∀ U V, U ∈ cl → V ∈ cl → U ≠ V → ∃ x, x ∈ U ∧ x ∉ U ∩ V) as Hx.
      { intros U V HU HV HUV. destruct (decide (Exists (λ y, y ∉ V) (elements U))) as [He|He].
        - apply Exists_exists in He as (y & ?%elem_of_elements & ?). exists y. set_solver.
        - exfalso. assert (U ⊆ V) as Hsub. { intros y Hy. destruct (decide (y ∈ V)) as [|Hn]; [done|]. exfalso. apply He, Exists_exists. exists y. by rewrite elem_of_elements. }
          apply Hcl in HU as (_ & _ & _ & Hmax). destruct (two V HV) as [HVc HVN]. specialize (Hmax V HVN HVc Hsub). apply HUV. set_solver. }
      destruct (Hx X Y) as (x & HxX & Hxn); [done|done|done|]. destruct (Hx Y X) as (y & HyY & Hyn); [done|done|done|].
      apply (walk_over (X ∩ Y) IH X Y) with x x; try done; [set_solver| |set_solver]. exists y. set_solver.
    - assert (∃ W, W ∈ cl ∧ h W + h Z = h X + h Y ∧ X ∩ Y ⊆ W ∧ (connected_over F (X ∩ Y) W Z → connected_over F (X ∩ Y) X Y)) as (W & HW & Em & HSW & Hfin).
      { destruct HZ as [->| ->]; [exists Y|exists X]; (split; [done|]); (split; [lia|]); (split; [set_solver|]); [apply conn_sym|done]. }
      destruct (chain_down (X ∩ Y) Z Y') as (C1 & I1 & E1); [done|by apply HiZ|].
      pose proof (initial_nested A r Hr _ _ _ I1 (Hini _ _ HCF) HwC) as Hsub. destruct (Hh _ _ HCF) as [_ E2]. specialize (E2 HCn).
      destruct (HF _ _ HCF) as [HC HY']. apply Hfin. transitivity C.
      + assert (X ∩ Y ⊆ W ∩ C) as HSWC by (clear -HSW Hsub; set_solver).
        destruct (decide (size (W ∩ C) ≤ size (X ∩ Y))) as [Hs|Hs].
        * pose proof (inter_size _ _ HSWC Hs) as E. rewrite <-E. apply (IH2 (h W + h C)); [lia|by rewrite E|done|done|done|by rewrite E|]. lia.
        * apply IH; [done|done|]. split; [done|]. intros H. apply subseteq_size in H. lia.
      + apply conn_sym. transitivity Y'; [done|]. apply rtc_once. split; [by right|]. set_solver.
  Qed.
End span.
