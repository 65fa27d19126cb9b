(** The loop of [directed_clique_tree]. *)
From Verif Require Import Py Spec DagModel DctModel SpecDct DctUf DctGraph.

Lemma linked_sym F X Y : linked F X Y → linked F Y X.
Proof. unfold linked. tauto. Qed.
Lemma uf_idem u rt x : uf_ok u rt → rt (rt x) = rt x.
Proof.
  intros (dep & Hp & Hn). destruct (uf_par u !! x) as [y|] eqn:E; [|destruct (Hn x E) as [Ex _]; by rewrite !Ex].
  assert (∀ n b, dep b = n → is_Some (uf_par u !! b) → rt (rt b) = rt b) as Hd; [|apply (Hd (dep x)); [done|by eexists]].
  induction n as [n IHn] using lt_wf_ind. intros b Hb [c Hc]. destruct (Hp b c Hc) as (E1 & E2 & [[-> E3]|E3]); [by rewrite !E3|].
  rewrite <-E1. by apply (IHn (dep c)); [lia|..].
Qed.
Lemma uf_root u rt x y : uf_ok u rt → uf_par u !! x = Some y → rt y = rt x.
Proof. intros (dep & Hp & _) H. by apply Hp. Qed.

(** Adding an edge between two trees. *)
Definition tree_rel (F : list cedge) : relation nset := λ X Y, (X, Y) ∈ F.
Definition bid_rel (F : list cedge) : relation nset := λ X Y, (X, Y) ∈ F ∧ (Y, X) ∈ F.
Definition new_edges (U V : nset) (both : bool) : list cedge := (U, V) :: if both then [(V, U)] else [].
Definition heights (F : list cedge) (h : nset → nat) : Prop :=
  ∀ X Y, (X, Y) ∈ F → ((Y, X) ∈ F → h X = h Y) ∧ ((Y, X) ∉ F → h Y = S (h X)).

Section add.
  Context (F : list cedge) (rt : nset → nset) (U V : nset) (both : bool).
  Context (Hrt : classifies rt (tree_rel F)) (HUV : rt U ≠ rt V).
  Notation F' := (F ++ new_edges U V both).

  Lemma in_add X Y : (X, Y) ∈ F' ↔ (X, Y) ∈ F ∨ (X = U ∧ Y = V) ∨ (both = true ∧ X = V ∧ Y = U).
  Proof.
    rewrite elem_of_app. unfold new_edges. rewrite elem_of_cons. split.
    - intros [?|[[= -> ->]|H]]; [by left|right; by left|]. destruct both; [|by apply elem_of_nil in H].
      apply elem_of_list_singleton in H as [= -> ->]. by right; right.
    - intros [?|[[-> ->]|(-> & -> & ->)]]; [by left|right; by left|right; right; by left].
  Qed.
  Lemma same_root X Y : linked F X Y → rt X = rt Y.
  Proof using Hrt. intros [H|H]; [|symmetry]; apply Hrt, rtsc_once; done. Qed.
  Lemma new_not_linked X Y : linked F X Y → ¬ (X = U ∧ Y = V) ∧ ¬ (X = V ∧ Y = U).
  Proof using Hrt HUV. intros H%same_root. split; intros [-> ->]; congruence. Qed.
  Lemma add_back X Y : (X, Y) ∈ F → (Y, X) ∈ F' ↔ (Y, X) ∈ F.
  Proof using Hrt HUV. intros H. rewrite in_add. destruct (new_not_linked X Y) as [H1 H2]; [by left|]. naive_solver. Qed.
  Lemma add_tree X Y : rtsc (tree_rel F') X Y ↔ rtsc (plus_edge (tree_rel F) U V) X Y.
  Proof.
    split; apply rtsc_mono; intros x y.
    - intros [H|[[-> ->]|(_ & -> & ->)]]%in_add; [apply rtsc_once; by left|apply rtsc_once; by right|apply rtsc_symm, rtsc_once; by right].
    - intros [H|[-> ->]]; apply rtsc_once, in_add; [by left|right; by left].
  Qed.
  Lemma add_bid X Y : rtsc (bid_rel F') X Y ↔ rtsc (if both then plus_edge (bid_rel F) U V else bid_rel F) X Y.
  Proof using Hrt HUV.
    assert (both = true ∨ both = false) as [Eb|Eb] by (destruct both; tauto).
    - replace (if both then plus_edge (bid_rel F) U V else bid_rel F) with (plus_edge (bid_rel F) U V) by (by rewrite Eb).
      split; apply rtsc_mono; intros x y.
      + intros [H1 H2]. apply in_add in H1. destruct H1 as [H1|[[-> ->]|(_ & -> & ->)]].
        * apply rtsc_once. left. split; [done|]. by apply add_back in H2.
        * apply rtsc_once. by right.
        * apply rtsc_symm, rtsc_once. by right.
      + intros [[H1 H2]|[-> ->]]; apply rtsc_once; split; apply in_add; tauto.
    - replace (if both then plus_edge (bid_rel F) U V else bid_rel F) with (bid_rel F) by (by rewrite Eb).
      apply rtsc_equiv. intros x y. unfold bid_rel. rewrite !in_add. split; [|tauto]. assert (both ≠ true) as Eb' by (by rewrite Eb).
      intros [[H1|[[E1 E2]|[? _]]] [H2|[[E3 E4]|[? _]]]]; try done.
      + destruct (new_not_linked x y) as [_ H]; [by left|tauto].
      + destruct (new_not_linked y x) as [_ H]; [by left|tauto].
      + congruence.
  Qed.
  Lemma add_heights h : heights F h → ∃ h', heights F' h'.
  Proof using Hrt HUV.
    intros Hh. set (k := if both then h U else S (h U)).
    exists (λ X, if decide (rt X = rt V) then h X + k else h X + h V). intros X Y HXY. apply in_add in HXY as [HXY|HXY].
    - assert (rt X = rt Y) as E by (apply same_root; by left). destruct (Hh X Y HXY) as [H1 H2]. rewrite add_back by done. rewrite E.
      split; intros H; case_decide; (rewrite H1 by done) || (rewrite H2 by done); lia.
    - assert ((∀ X Y, (X = U ∧ Y = V) ∨ (X = V ∧ Y = U) → (X, Y) ∉ F)) as Hno.
      { intros X' Y' H H'. destruct (new_not_linked X' Y') as [H1 H2]; [by left|]. tauto. }
      rewrite in_add. destruct HXY as [[-> ->]|(Eb & -> & ->)].
      + rewrite (decide_False (P := rt U = rt V)), (decide_True (P := rt V = rt V)) by done. unfold k. destruct both eqn:Eb; split.
        * intros _. lia.
        * intros H. destruct H. right. right. done.
        * intros [H|[[EVU _]|[? _]]]; [|congruence|done]. destruct (Hno V U); [by right|done].
        * intros _. lia.
      + rewrite (decide_False (P := rt U = rt V)), (decide_True (P := rt V = rt V)) by done. unfold k. rewrite Eb. split; [intros _; lia|].
        intros H. destruct H. right. by left.
  Qed.
  Lemma add_forest : forest F → forest F'.
  Proof using Hrt HUV.
    intros HF X Y HXY. apply in_add in HXY.
    assert (∀ u v, linked F' u v → linked F u v ∨ (u = U ∧ v = V) ∨ (u = V ∧ v = U)) as Hl.
    { intros u v [H|H]; apply in_add in H as [H|[[-> ->]|(_ & -> & ->)]]; unfold linked; tauto. }
    destruct HXY as [HXY|HXY].
    - destruct (HF X Y HXY) as [Hne Hno]. split; [done|]. intros Hr. set (R := λ u v, linked F u v ∧ (u, v) ≠ (X, Y) ∧ (u, v) ≠ (Y, X)) in *.
      assert (∀ u v, R u v → R v u) as HRs.
      { intros u v (H1 & H2 & H3). split; [by apply linked_sym|]. split; intros [= -> ->]; done. }
      assert (∀ u v, rtsc R u v → rt u = rt v) as HRr.
      { intros u v H. apply Hrt. revert H. apply rtsc_mono. intros a b ([?|?] & _ & _); [by apply rtsc_once|]. apply rtsc_symm. by apply rtsc_once. }
      assert (rtsc (plus_edge R U V) X Y) as Hr'.
      { revert Hr. clear -Hl. induction 1 as [|a b c (H1 & H2 & H3) _ IH]; [done|]. eapply rtc_l; [|exact IH].
        destruct (Hl _ _ H1) as [?|[[-> ->]|[-> ->]]]; [left; by left|left; by right|right; by right]. }
      assert (rt X = rt Y) as EXY by (apply same_root; by left).
      apply rtsc_plus in Hr' as [Hr'|[[H1 H2]|[H1 H2]]].
      + apply Hno. by apply rtsc_sym.
      + apply HRr in H1, H2. congruence.
      + apply HRr in H1, H2. congruence.
    - assert (rt X ≠ rt Y) as HrXY by (destruct HXY as [[-> ->]|(_ & -> & ->)]; congruence). split; [by intros ->|]. intros Hr. apply HrXY, Hrt.
      assert (∀ u v, (u = U ∧ v = V) ∨ (u = V ∧ v = U) → (u, v) = (X, Y) ∨ (u, v) = (Y, X)) as Hbad.
      { intros u v. destruct HXY as [[-> ->]|(_ & -> & ->)]; intros [[-> ->]|[-> ->]]; tauto. }
      clear -Hr Hl Hbad. induction Hr as [|a b c (H1 & H2 & H3) _ IH]; [done|]. eapply rtc_l; [|exact IH].
      destruct (Hl _ _ H1) as [[?|?]|H]; [by left|by right|]. destruct (Hbad _ _ H); done.
  Qed.
End add.

Section loop.
  Context (A : arcset) (tie : nset → nset → bool).
  Notation initial := (initial A).

  Lemma all_into_spec X Y : all_into A (X ∩ Y) Y = true ↔ initial (X ∩ Y) Y.
  Proof using Type.
    clear tie. unfold all_into. rewrite bool_decide_eq_true. unfold DctGraph.initial. split.
    - intros H. split; [set_solver|]. intros s y Hs Hy Hn. apply (H s Hs). set_solver.
    - intros [_ H] s Hs y Hy. apply elem_of_difference in Hy as [? ?]. by apply H.
  Qed.
  Lemma all_into_spec' X Y : all_into A (X ∩ Y) X = true ↔ initial (X ∩ Y) X.
  Proof using Type. clear tie. replace (X ∩ Y) with (Y ∩ X) by set_solver. apply all_into_spec. Qed.
  #[local] Instance initial_dec X Z : Decision (initial (X ∩ Z) Z).
  Proof. destruct (all_into A (X ∩ Z) Z) eqn:E; [left; by apply all_into_spec|right]. intros H%all_into_spec. congruence. Defined.

  Definition heavy (F : list cedge) (w : nat) : relation nset := λ X Y, linked F X Y ∧ w ≤ size (X ∩ Y).
  Definition bidir (F : list cedge) (w : nat) : relation nset := λ X Y, bid_rel F X Y ∧ w ≤ size (X ∩ Y).
  Definition blocked (F : list cedge) (w : nat) (Z : nset) : Prop :=
    ∃ Y C, rtc (bidir F w) Z Y ∧ (C, Y) ∈ F ∧ (Y, C) ∉ F ∧ w ≤ size (C ∩ Y).
  Definition outcome (F : list cedge) (X Y : nset) : Prop :=
    rtc (heavy F (size (X ∩ Y))) X Y ∨
    ∃ Z, (Z = X ∨ Z = Y) ∧ (initial (X ∩ Y) X ∨ initial (X ∩ Y) Y → initial (X ∩ Y) Z) ∧ blocked F (size (X ∩ Y)) Z.

  Record Inv (p : list cedge) (st : dct_state) : Prop := {
    i_sub : ∃ rt, uf_ok (s_sub st) rt ∧ classifies rt (tree_rel (s_ct st));
    i_bid : ∃ rt, uf_ok (s_bid st) rt ∧ classifies rt (bid_rel (s_ct st));
    i_in : ∀ X Y, (X, Y) ∈ s_ct st → (X, Y) ∈ p ∨ (Y, X) ∈ p;
    i_h : ∃ h, heights (s_ct st) h;
    i_forest : forest (s_ct st);
    i_out : ∀ X Y, (X, Y) ∈ p → outcome (s_ct st) X Y;
  }.
  Lemma Inv0 : Inv [] (Dct [] uf0 uf0).
  Proof.
    split; cbn.
    - exists (λ x, x). split; [apply uf0_ok|]. eapply classifies_ext; [|apply classifies_id]. intros x y. unfold tree_rel. by rewrite elem_of_nil.
    - exists (λ x, x). split; [apply uf0_ok|]. eapply classifies_ext; [|apply classifies_id]. intros x y. unfold bid_rel. rewrite elem_of_nil. tauto.
    - intros X Y H. by apply elem_of_nil in H.
    - exists (λ _, 0). intros X Y H. by apply elem_of_nil in H.
    - intros X Y H. by apply elem_of_nil in H.
    - intros X Y H. by apply elem_of_nil in H.
  Qed.
  Lemma outcome_add F (rt : nset → nset) U V both X Y : classifies rt (tree_rel F) → rt U ≠ rt V → outcome F X Y → outcome (F ++ new_edges U V both) X Y.
  Proof.
    intros Hrt HUV [H|(Z & HZ & Hi & Y' & C & H1 & H2 & H3 & H4)].
    - left. eapply rtc_subrel; [|exact H]. intros a b [[?|?] ?]; (split; [|done]); [left|right]; apply elem_of_app; by left.
    - right. exists Z. split; [done|]. split; [done|]. exists Y', C. split; [|split; [apply elem_of_app; by left|split; [|done]]].
      + eapply rtc_subrel; [|exact H1]. intros a b [[? ?] ?]. split; [|done]. split; apply elem_of_app; by left.
      + by rewrite (add_back F rt U V both Hrt HUV).
  Qed.
  Lemma has_source_blocked F u (rt : nset → nset) Z w :
    uf_ok u rt → classifies rt (bid_rel F) → (∀ X Y, (X, Y) ∈ F → w ≤ size (X ∩ Y)) → has_source F u (rt Z) = true → blocked F w Z.
  Proof.
    intros Hok Hrt Hw. unfold has_source. rewrite existsb_exists. intros ([k x] & Hin & H12). cbn in H12. apply andb_true_iff in H12 as [H1 H2].
    apply bool_decide_eq_true in H1 as ->. apply elem_of_list_In, elem_of_map_to_list in Hin. pose proof (uf_root u rt _ _ Hok Hin) as E. rewrite (uf_idem u rt) in E by done.
    unfold is_target in H2. apply existsb_exists in H2 as ([C y] & HC%elem_of_list_In & H%bool_decide_eq_true). cbn in H. destruct H as [-> Hn].
    exists k, C. split; [|split; [done|split; [done|by apply Hw]]].
    apply Hrt in E. revert E. clear -Hw. intros E. assert (∀ x y, bid_rel F x y → bid_rel F y x) as Hs by (intros x y [H1 H2]; by split). apply (proj1 (rtsc_sym (bid_rel F) _ _ Hs)) in E. eapply rtc_subrel; [|exact E]. intros x y Hxy. split; [done|]. apply Hw, Hxy.
  Qed.

  (** What a step does. *)
  Inductive step_case (F F' : list cedge) (X Y : nset) : Prop :=
    | step_none : F' = F → outcome F X Y → step_case F F' X Y
    | step_both : F' = F ++ new_edges X Y true → initial (X ∩ Y) X → initial (X ∩ Y) Y → ¬ rtsc (tree_rel F) X Y → step_case F F' X Y
    | step_one U V : F' = F ++ new_edges U V false → (U = X ∧ V = Y ∨ U = Y ∧ V = X) →
        (initial (X ∩ Y) X ∨ initial (X ∩ Y) Y → initial (X ∩ Y) V ∧ ¬ initial (X ∩ Y) U) → ¬ rtsc (tree_rel F) X Y → step_case F F' X Y.
  Lemma dct_step_spec p st X Y : Inv p st → (∀ e, e ∈ p → meet (X, Y) ≤ meet e) → X ≠ Y →
    ∃ st', dct_step A tie (X, Y) st = Ok st' ∧ Inv (p ++ [(X, Y)]) st' ∧ step_case (s_ct st) (s_ct st') X Y.
  Proof.
    intros HI Hw Hne. destruct HI as [(rt & Hok & Hrt) (rb & Hokb & Hrb) Hin (h & Hh) Hfor Hout]. destruct st as [F su bi]. cbn in *.
    assert (∀ U V, (U, V) ∈ F → size (X ∩ Y) ≤ size (U ∩ V)) as HwF.
    { intros U V [H|H]%Hin; apply Hw in H; unfold meet in H; cbn in H; [done|]. replace (U ∩ V) with (V ∩ U) by set_solver. done. }
    assert (∀ U V, rt U = rt V → rtc (heavy F (size (X ∩ Y))) U V) as Hheavy.
    { intros U V E%Hrt. induction E as [|a b c Hab _ IH]; [done|]. eapply rtc_l; [|exact IH]. destruct Hab as [H|H]; split; [by left|by apply HwF|by right|].
      replace (a ∩ b) with (b ∩ a) by set_solver. by apply HwF. }
    (* nothing is added *)
    assert (∀ su' bi' (rb' : nset → nset), uf_ok su' rt → uf_ok bi' rb' → classifies rb' (bid_rel F) → outcome F X Y → Inv (p ++ [(X, Y)]) (Dct F su' bi')) as Hnone.
    { intros su' bi' rb' H1 H2 H2' H3. split; cbn; [by exists rt|by exists rb'| |by exists h|done|].
      - intros U V [?|?]%Hin; [left|right]; apply elem_of_app; by left.
      - intros U V [?|[= -> ->]%elem_of_list_singleton]%elem_of_app; [by apply Hout|done]. }
    (* an edge is added *)
    assert (∀ su' bi' (rt' rb' : nset → nset) (U V : nset) (both : bool), (U = X ∧ V = Y ∨ U = Y ∧ V = X) → rt U ≠ rt V → uf_ok su' rt' → classifies rt' (plus_edge (tree_rel F) U V) → uf_ok bi' rb' →
      classifies rb' (if both then plus_edge (bid_rel F) U V else bid_rel F) → Inv (p ++ [(X, Y)]) (Dct (F ++ new_edges U V both) su' bi')) as Hadd.
    { intros su' bi' rt' rb' U V both HUV HrUV H1 H2 H3 H4. split; cbn.
      - exists rt'. split; [done|]. intros x y. rewrite add_tree. apply H2.
      - exists rb'. split; [done|]. intros x y. rewrite (add_bid F rt U V both Hrt HrUV). apply H4.
      - intros a b Hab. apply in_add in Hab as [Hab|Hab].
        + destruct (Hin a b Hab); [left|right]; apply elem_of_app; by left.
        + rewrite !elem_of_app, !elem_of_list_singleton. destruct HUV as [[-> ->]|[-> ->]], Hab as [[-> ->]|(_ & -> & ->)]; tauto.
      - by apply (add_heights F rt U V both Hrt HrUV h).
      - by apply (add_forest F rt U V both Hrt HrUV).
      - intros a b [Hab|[= -> ->]%elem_of_list_singleton]%elem_of_app.
        + apply (outcome_add F rt); [done|done|by apply Hout].
        + left. apply rtc_once. split; [|done]. destruct HUV as [[-> ->]|[-> ->]]; [left|right]; apply in_add; right; by left. }
    unfold dct_step. cbn [s_sub s_ct s_bid].
    destruct (uf_find_spec su rt X Hok) as (su1 & -> & Hok1 & _). cbn [res_bind fst snd].
    destruct (uf_find_spec su1 rt Y Hok1) as (su2 & -> & Hok2 & _). cbn [res_bind fst snd].
    case_decide as Hroot.
    { eexists. split; [done|]. assert (outcome F X Y) as Ho by (left; by apply Hheavy). split; [by apply (Hnone _ _ rb)|]. by apply step_none. }
    assert (¬ rtsc (tree_rel F) X Y) as Hnc by (intros H; by apply Hroot, Hrt).
    assert (rb X ≠ rb Y) as HrbXY.
    { intros E. apply Hroot, Hrt. apply Hrb in E. revert E. apply rtsc_mono. intros a b [? _]. by apply rtsc_once. }
    destruct (all_into A (X ∩ Y) X && all_into A (X ∩ Y) Y) eqn:Eboth.
    - apply andb_true_iff in Eboth as [E1%all_into_spec' E2%all_into_spec].
      destruct (uf_find_spec bi rb X Hokb) as (bi1 & -> & Hokb1 & _). cbn [res_bind fst snd].
      destruct (uf_find_spec bi1 rb Y Hokb1) as (bi2 & -> & Hokb2 & _). cbn [res_bind fst snd].
      destruct (has_source F bi2 (rb X) && has_source F bi2 (rb Y)) eqn:Es.
      + apply andb_true_iff in Es as [_ Es]. eexists. split; [done|].
        assert (outcome F X Y) as Ho. { right. exists Y. split; [by right|]. split; [done|]. by apply (has_source_blocked F bi2 rb). }
        split; [by apply (Hnone _ _ rb)|]. by apply step_none.
      + destruct (uf_union_spec tie su2 rt X Y Hok2 Hroot) as (su3 & rt' & c & d & -> & Hok3 & Hcd & Hrt'). cbn [res_bind].
        destruct (uf_union_spec tie bi2 rb X Y Hokb2 HrbXY) as (bi3 & rb' & cb & db & -> & Hokb3 & Hcdb & Hrb'). cbn [res_bind].
        eexists. split; [done|]. split; [|by apply step_both]. apply (Hadd _ _ rt' rb' X Y true); [by left|done|done| |done|].
        * by eapply classifies_plus.
        * by eapply classifies_plus.
    - set (UV := if all_into A (X ∩ Y) Y then (X, Y) else (Y, X)). destruct UV as [U V] eqn:EUV.
      assert ((U = X ∧ V = Y ∨ U = Y ∧ V = X) ∧ (initial (X ∩ Y) X ∨ initial (X ∩ Y) Y → initial (X ∩ Y) V ∧ ¬ initial (X ∩ Y) U)) as [HUV HiV].
      { unfold UV in EUV. destruct (all_into A (X ∩ Y) Y) eqn:E2; injection EUV as <- <-.
        - rewrite andb_true_r in Eboth. split; [by left|]. intros _. split; [by apply all_into_spec|]. intros H%all_into_spec'. congruence.
        - split; [by right|]. assert (¬ initial (X ∩ Y) Y) by (intros H%all_into_spec; congruence). tauto. }
      assert (rt U ≠ rt V) as HrUV by (destruct HUV as [[-> ->]|[-> ->]]; congruence).
      destruct (uf_find_spec bi rb V Hokb) as (bi1 & -> & Hokb1 & _). cbn [res_bind fst snd].
      destruct (has_source F bi1 (rb V)) eqn:Es.
      + eexists. split; [done|].
        assert (outcome F X Y) as Ho. { right. exists V. split; [destruct HUV as [[_ ->]|[_ ->]]; tauto|]. split; [tauto|]. by apply (has_source_blocked F bi1 rb). }
        split; [by apply (Hnone _ _ rb)|]. by apply step_none.
      + destruct (uf_union_spec tie su2 rt U V Hok2 HrUV) as (su3 & rt' & c & d & -> & Hok3 & Hcd & Hrt'). cbn [res_bind].
        eexists. split; [done|]. split; [|by eapply (step_one _ _ _ _ U V)]. apply (Hadd _ _ rt' rb U V false); [done|done|done| |done|done].
        by eapply classifies_plus.
  Qed.
  (** Pairs in the order of the sizes of their intersections. *)
  Definition descending (l : list cedge) : Prop := ∀ p e q, l = p ++ e :: q → ∀ e', e' ∈ p → meet e ≤ meet e'.
  Lemma loop_spec l : descending l → (∀ X Y, (X, Y) ∈ l → X ≠ Y) → ∃ st, loopR (dct_step A tie) l (Dct [] uf0 uf0) = Ok st ∧ Inv l st.
  Proof.
    induction l as [|[X Y] l IH] using rev_ind; intros Hd Hne; [exists (Dct [] uf0 uf0); split; [done|apply Inv0]|].
    destruct IH as (st & E & HI).
    { intros p e q -> e' He'. apply (Hd p e (q ++ [(X, Y)])); [by rewrite <-app_assoc|done]. }
    { intros U V H. apply Hne. apply elem_of_app. by left. }
    destruct (dct_step_spec l st X Y HI) as (st' & E' & HI' & _).
    { by apply (Hd l (X, Y) []). } { apply Hne, elem_of_app. right. by left. }
    exists st'. split; [|done]. clear -E E'. revert E. generalize (Dct [] uf0 uf0). induction l as [|e l IH]; intros s; cbn [app loopR].
    - intros [= ->]. by rewrite E'.
    - destruct (dct_step A tie e s) as [s'|]; [apply IH|done].
  Qed.
End loop.
