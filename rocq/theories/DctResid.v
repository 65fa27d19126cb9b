(** The whole clique tree, its contraction and the residuals. *)
From Verif Require Import Py Spec DagModel DctModel SpecDct DctUf DctGraph DctTree DctProofs.

(** ** The pairs *)
Lemma pairs_in {A} (l : list A) x y : (x, y) ∈ pairs l → x ∈ l ∧ y ∈ l.
Proof.
  induction l as [|a l IH]; cbn [pairs]; [by intros ?%elem_of_nil|]. rewrite elem_of_app, elem_of_list_fmap, !elem_of_cons.
  intros [(b & [= -> ->] & Hb)|H]; [tauto|]. destruct (IH H). tauto.
Qed.
Lemma pairs_ne {A} (l : list A) x y : NoDup l → (x, y) ∈ pairs l → x ≠ y.
Proof.
  induction l as [|a l IH]; cbn [pairs]; [by intros _ ?%elem_of_nil|]. intros [Ha Hl]%NoDup_cons. rewrite elem_of_app, elem_of_list_fmap.
  intros [(b & [= -> ->] & Hb)|H]; [by intros ->|by apply IH].
Qed.
Lemma pairs_all {A} (l : list A) x y : x ∈ l → y ∈ l → x ≠ y → (x, y) ∈ pairs l ∨ (y, x) ∈ pairs l.
Proof.
  induction l as [|a l IH]; cbn [pairs]; [by intros ?%elem_of_nil|]. rewrite !elem_of_app, !elem_of_list_fmap, !elem_of_cons.
  intros [->|Hx] [->|Hy] Hne; [done| | |].
  - left. left. by exists y.
  - right. left. by exists x.
  - destruct (IH Hx Hy Hne); tauto.
Qed.
Lemma elem_of_by_size l e : e ∈ by_size l ↔ e ∈ l ∧ 1 ≤ meet e.
Proof.
  unfold by_size. rewrite elem_of_list_In, in_concat. split.
  - intros (f & Hf & He). apply elem_of_list_In in Hf, He. apply elem_of_list_fmap in Hf as (w & -> & Hw). apply elem_of_reverse, elem_of_seq in Hw.
    apply elem_of_list_filter in He as [<- He]. split; [done|lia].
  - intros [He Hm]. exists (filter (λ e', meet e' = meet e) l). rewrite <-!elem_of_list_In. split; [|by apply elem_of_list_filter].
    apply elem_of_list_fmap. exists (meet e). split; [done|]. apply elem_of_reverse, elem_of_seq. split; [done|].
    assert (meet e ≤ foldr (λ e m, meet e `max` m) 0 l); [|lia]. clear -He. induction l as [|a l IH]; [by apply elem_of_nil in He|].
    cbn. apply elem_of_cons in He as [->|He]; [lia|]. specialize (IH He). lia.
Qed.
Lemma by_size_descending l : descending (by_size l).
Proof.
  assert (StronglySorted (λ a b, meet b ≤ meet a) (by_size l)) as H.
  { unfold by_size. generalize (foldr (λ e m, meet e `max` m) 0 l). induction n as [|n IH]; [constructor|].
    rewrite seq_S, reverse_snoc. cbn [fmap list_fmap concat]. set (L := concat _) in *.
    assert (∀ e, e ∈ L → meet e ≤ n) as HL.
    { intros e He. apply elem_of_list_In, in_concat in He as (f & Hf & He). apply elem_of_list_In in Hf, He.
      apply elem_of_list_fmap in Hf as (w & -> & Hw%elem_of_reverse%elem_of_seq). apply elem_of_list_filter in He as [<- _]. lia. }
    assert (∀ e, e ∈ filter (λ e, meet e = 1 + n) l → meet e = S n) as Hf by (intros e [? _]%elem_of_list_filter; done).
    revert Hf. generalize (filter (λ e, meet e = 1 + n) l). intros f. induction f as [|a f IHf]; intros Hf; [done|]. cbn. constructor.
    - apply IHf. intros e He. apply Hf. by right.
    - apply Forall_forall. rewrite (Hf a) by left. intros b [Hb|Hb]%elem_of_app; [rewrite (Hf b); [done|by right]|]. specialize (HL b Hb). lia. }
  intros p e q E e' He'. rewrite E in H. apply (elem_of_StronglySorted_app (λ a b, meet b ≤ meet a) p (e :: q) e' e); [done|done|by left].
Qed.
Lemma loopR_snoc {S B} (f : B → S → res S) l b s s' : loopR f l s = Ok s' → loopR f (l ++ [b]) s = f b s'.
Proof.
  revert s. induction l as [|a l IH]; intros s; cbn [app loopR].
  - intros [= ->]. by destruct (f b s').
  - destruct (f a s); [apply IH|done].
Qed.

(** ** The tree *)
Definition pointing (A : arcset) (F : list cedge) : Prop :=
  ∀ X Y, (X, Y) ∈ F → initial A (X ∩ Y) Y ∧ ((Y, X) ∉ F → ¬ initial A (X ∩ Y) X).
Section tree.
  Context (N : nset) (A : arcset) (r : node → nat) (cl : list nset) (tie : nset → nset → bool).
  Context (Hr : ∀ x y, (x, y) ∈ A → r x < r y) (Hmoral : moral_arcs A) (Hov : over N A).
  Context (Hcl : ∀ C, C ∈ cl ↔ maximal_clique N A C).
  Context (l : list cedge) (Hd : descending l).
  Context (Hl : ∀ X Y, (X, Y) ∈ l → X ∈ cl ∧ Y ∈ cl ∧ X ≠ Y ∧ X ∩ Y ≠ ∅).
  Context (Hall : ∀ X Y, X ∈ cl → Y ∈ cl → X ≠ Y → X ∩ Y ≠ ∅ → (X, Y) ∈ l ∨ (Y, X) ∈ l).

  Lemma Inv_spans p q st w : l = p ++ q → Inv A p st → pointing A (s_ct st) → (∀ X Y, (X, Y) ∈ q → size (X ∩ Y) < w) →
    ∀ X Y, X ∈ cl → Y ∈ cl → X ∩ Y ≠ ∅ → w ≤ size (X ∩ Y) → connected_over (s_ct st) (X ∩ Y) X Y.
  Proof using All.
    intros E HI HP Hq. destruct (i_h _ _ _ HI) as [h Hh]. apply (spans N A r cl Hr Hmoral Hov Hcl (s_ct st)) with (p := p) (h := h).
    - intros X Y H. assert ((X, Y) ∈ l ∨ (Y, X) ∈ l) as [H'|H'].
      { rewrite E, !elem_of_app. destruct (i_in _ _ _ HI X Y H); tauto. }
      + apply Hl in H'. tauto.
      + apply Hl in H'. tauto.
    - intros X Y H. by apply HP.
    - done.
    - by apply (i_out _ _ _ HI).
    - intros X Y HX HY Hne HXY Hw. assert (∀ X Y, (X, Y) ∈ l → w ≤ size (X ∩ Y) → (X, Y) ∈ p) as Hp.
      { intros X' Y'. rewrite E. intros [?|H%Hq]%elem_of_app; [done|lia]. }
      destruct (Hall X Y HX HY Hne HXY) as [H|H]; [left; by apply Hp|right; apply Hp; [done|]]. by replace (Y ∩ X) with (X ∩ Y) by (clear; set_solver).
  Qed.
  Lemma loop_moral p : ∀ q, l = p ++ q → ∃ st, loopR (dct_step A tie) p (Dct [] uf0 uf0) = Ok st ∧ Inv A p st ∧ pointing A (s_ct st).
  Proof using All.
    induction p as [|[X Y] p IH] using rev_ind; intros q E.
    { exists (Dct [] uf0 uf0). split; [done|]. split; [by apply Inv0|]. intros X Y H. by apply elem_of_nil in H. }
    rewrite <-app_assoc in E. cbn in E. destruct (IH _ E) as (st & El & HI & HP).
    destruct (Hl X Y) as (HX & HY & Hne & HXY); [rewrite E; apply elem_of_app; right; by left|].
    destruct (dct_step_spec A tie p st X Y HI) as (st' & Es & HI' & Hc); [by apply (Hd p (X, Y) q)|done|].
    exists st'. split; [by rewrite (loopR_snoc _ _ _ _ st)|]. split; [done|].
    assert (∀ F' : list cedge, (∀ e, e ∈ s_ct st → e ∈ F') → (∀ U V, (U, V) ∈ s_ct st → (V, U) ∈ F' → (V, U) ∈ s_ct st) →
      ∀ U V, (U, V) ∈ s_ct st → initial A (U ∩ V) V ∧ ((V, U) ∉ F' → ¬ initial A (U ∩ V) U)) as Hold.
    { intros F' H1 H2 U V HUV. destruct (HP U V HUV) as [H3 H4]. split; [done|]. intros H5. apply H4. intros H6. by apply H5, H1. }
    destruct (i_sub _ _ _ HI) as (rt & _ & Hrt).
    destruct Hc as [-> _|Ec I1 I2 Hnc|U V Ec HUV HiV Hnc]; [done| |].
    - rewrite Ec. assert (rt X ≠ rt Y) as HrXY by (intros H; by apply Hnc, Hrt). intros U V HUV. pose proof HUV as HUV'. apply in_add in HUV as [HUV|[[-> ->]|(_ & -> & ->)]].
      + apply Hold; [intros e He; apply elem_of_app; by left| |done]. intros U' V' H' H''. by apply (add_back _ rt X Y true Hrt HrXY) in H''.
      + split; [done|]. intros H. destruct H. apply in_add. tauto.
      + replace (Y ∩ X) with (X ∩ Y) by (clear; set_solver). split; [done|]. intros H. destruct H. apply in_add. tauto.
    - rewrite Ec. assert (rt U ≠ rt V) as HrUV.
      { intros H. apply Hnc. destruct HUV as [[-> ->]|[-> ->]]; [by apply Hrt|]. apply Hrt. done. }
      assert (initial A (X ∩ Y) X ∨ initial A (X ∩ Y) Y) as Hone.
      { destruct (all_into A (X ∩ Y) X) eqn:E1; [left; by apply all_into_spec'|]. destruct (all_into A (X ∩ Y) Y) eqn:E2; [right; by apply all_into_spec|]. exfalso.
        destruct (third N A r Hr Hmoral Hov X Y) as (Z & HZ & HZX & HZY); [by apply Hcl|by apply Hcl|done|by intros H%all_into_spec'; congruence|by intros H%all_into_spec; congruence|].
        apply Hcl in HZ. assert (∀ W, W ∈ cl → X ∩ Y ⊂ Z ∩ W → connected_over (s_ct st) (Z ∩ W) Z W) as Hcon.
        { intros W HW Hsub. pose proof (subset_size _ _ Hsub) as Hs. apply (Inv_spans p ((X, Y) :: q) st (S (size (X ∩ Y))) E HI HP); [|done|done| |lia].
          - intros X' Y' [[= -> ->]|H]%elem_of_cons; [lia|]. apply elem_of_list_split in H as (q1 & q2 & ->).
            pose proof (Hd (p ++ (X, Y) :: q1) (X', Y') q2) as H. rewrite E, <-app_assoc in H. specialize (H eq_refl (X, Y)). unfold meet in H. cbn in H.
            assert (size (X' ∩ Y') ≤ size (X ∩ Y)); [|lia]. apply H. apply elem_of_app. right. by left.
          - intros H0. apply HXY. rewrite H0 in Hsub. clear -Hsub. set_solver. }
        apply Hnc. transitivity Z.
        - apply rtsc_symm. eapply conn_tree, Hcon; [done|done].
        - eapply conn_tree, Hcon; [done|done]. }
      destruct (HiV Hone) as [HiV1 HiV2]. intros U' V' H'. apply in_add in H' as [H'|[[-> ->]|[? _]]]; [| |done].
      + apply Hold; [intros e He; apply elem_of_app; by left| |done]. intros U1 V1 H1 H2. by apply (add_back _ rt U V false Hrt HrUV) in H2.
      + assert (U ∩ V = X ∩ Y) as -> by (clear -HUV; destruct HUV as [[-> ->]|[-> ->]]; set_solver). done.
  Qed.
End tree.

(** ** All directed graphs *)
Definition clique_pairs (cl : list nset) : list cedge := by_size (filter (λ e : cedge, e.1 ∩ e.2 ≠ ∅) (pairs cl)).
Lemma meet_pos (X Y : nset) : X ∩ Y ≠ ∅ → 1 ≤ size (X ∩ Y).
Proof. intros H. destruct (decide (size (X ∩ Y) = 0)) as [E|]; [|lia]. apply size_empty_inv in E. destruct H. by apply leibniz_equiv. Qed.
Lemma clique_pairs_in cl X Y : NoDup cl → (X, Y) ∈ clique_pairs cl → X ∈ cl ∧ Y ∈ cl ∧ X ≠ Y ∧ X ∩ Y ≠ ∅.
Proof.
  intros Hnd H. apply elem_of_by_size in H as [H _]. apply elem_of_list_filter in H as [H1 H2]. destruct (pairs_in _ _ _ H2). split; [done|]. split; [done|]. split; [by apply (pairs_ne cl)|done].
Qed.
Lemma clique_pairs_all cl X Y : X ∈ cl → Y ∈ cl → X ≠ Y → X ∩ Y ≠ ∅ → (X, Y) ∈ clique_pairs cl ∨ (Y, X) ∈ clique_pairs cl.
Proof.
  intros HX HY Hne HXY. assert (Y ∩ X ≠ ∅) as HYX by (by replace (Y ∩ X) with (X ∩ Y) by set_solver).
  destruct (pairs_all cl X Y HX HY Hne); [left|right]; apply elem_of_by_size; (split; [by apply elem_of_list_filter|]); by apply meet_pos.
Qed.
Lemma tree_general tie cl d : NoDup cl → ∃ F, directed_clique_tree tie cl d = Ok F ∧ forest F ∧
  (∀ X Y, (X, Y) ∈ F → X ∈ cl ∧ Y ∈ cl ∧ X ∩ Y ≠ ∅) ∧ ∃ h, heights F h.
Proof.
  intros Hnd. destruct (loop_spec (d_arcs d) tie (clique_pairs cl)) as (st & E & HI).
  { apply by_size_descending. } { intros X Y H. by apply (clique_pairs_in cl _ _ Hnd) in H as (_ & _ & ? & _). }
  exists (s_ct st). split; [unfold directed_clique_tree; fold (clique_pairs cl); by rewrite E|]. split; [apply (i_forest _ _ _ HI)|]. split; [|apply (i_h _ _ _ HI)].
  intros X Y H. apply (i_in _ _ _ HI) in H as [H|H]; apply (clique_pairs_in cl _ _ Hnd) in H as (H1 & H2 & _ & H3); (split; [done|]); (split; [done|]); [done|]. by replace (X ∩ Y) with (Y ∩ X) by set_solver.
Qed.

(** ** Components *)
Lemma labels_fold es : ∀ (L : nset → nset) (R : relation nset), classifies L R → classifies (foldl join_label L es) (λ x y, R x y ∨ (x, y) ∈ es).
Proof.
  induction es as [|[a b] es IH]; intros L R HL; cbn [foldl].
  - eapply classifies_ext; [|exact HL]. intros x y. rewrite elem_of_nil. tauto.
  - eapply classifies_ext; [|apply IH, (classifies_plus L _ R a b (L a) (L b)); [done|by left|done]].
    intros x y. unfold plus_edge. rewrite elem_of_cons. split; [intros [[?|[-> ->]]|?]; tauto|]. intros [?|[[= -> ->]|?]]; tauto.
Qed.
Lemma labels_spec ct : classifies (labels ct) (bid_rel ct).
Proof.
  unfold labels. eapply classifies_ext; [|apply (labels_fold _ _ (λ _ _, False)), classifies_id].
  intros x y. unfold bid_rel. rewrite elem_of_list_filter. cbn. tauto.
Qed.
Section comps.
  Context (ct : list cedge) (cl : list nset) (h : nset → nat).
  Context (Hct : ∀ X Y, (X, Y) ∈ ct → X ∈ cl ∧ Y ∈ cl) (Hh : heights ct h).
  Notation comp := (comp_of ct cl).
  Notation g := (contracted ct cl).

  Lemma elem_of_comp X Y : Y ∈ comp X ↔ Y ∈ cl ∧ rtsc (bid_rel ct) Y X.
  Proof using Type. unfold comp_of. rewrite elem_of_list_filter. rewrite <-(labels_spec ct Y X). tauto. Qed.
  Lemma comp_eq X Y : X ∈ cl → comp X = comp Y ↔ rtsc (bid_rel ct) X Y.
  Proof using Type.
    intros HX. split.
    - intros E. assert (X ∈ comp X) as H by (apply elem_of_comp; split; [done|]; reflexivity). rewrite E in H. apply elem_of_comp in H. apply H.
    - intros H. apply labels_spec in H. unfold comp_of. by rewrite H.
  Qed.
  Lemma same_height X Y : rtsc (bid_rel ct) X Y → h X = h Y.
  Proof using Hh. induction 1 as [|x y z Hxy _ IH]; [done|]. rewrite <-IH. destruct Hxy as [[H1 H2]|[H1 H2]]; [exact (proj1 (Hh x y H1) H2)|symmetry; exact (proj1 (Hh y x H1) H2)]. Qed.
  Lemma elem_of_components c : c ∈ g.1 ↔ ∃ X, X ∈ cl ∧ c = comp X.
  Proof using Type. cbn. rewrite elem_of_reverse, elem_of_remove_dups, elem_of_reverse, elem_of_list_fmap. clear. naive_solver. Qed.
  Lemma NoDup_components : NoDup g.1.
  Proof using Type. cbn. rewrite reverse_Permutation. apply NoDup_remove_dups. Qed.
  Lemma elem_of_arcs a b : (a, b) ∈ g.2 ↔ a ≠ b ∧ ∃ X Y, (X, Y) ∈ ct ∧ a = comp X ∧ b = comp Y.
  Proof using Type.
    cbn. rewrite elem_of_remove_dups, elem_of_list_filter, elem_of_list_fmap. cbn. split.
    - intros (Hne & [X Y] & [= -> ->] & H). split; [done|]. by exists X, Y.
    - intros (Hne & X & Y & H & -> & ->). split; [done|]. by exists (X, Y).
  Qed.
  Lemma arc_heights a b X Y : (a, b) ∈ g.2 → X ∈ a → Y ∈ b → h Y = S (h X).
  Proof using Hct Hh.
    intros Hab HX HY. apply elem_of_arcs in Hab as (Hne & U & V & HUV & -> & ->). apply elem_of_comp in HX as [_ HX], HY as [_ HY].
    apply same_height in HX, HY. rewrite HX, HY. apply (Hh U V); [done|]. intros HVU. apply Hne, comp_eq; [by apply (Hct U V)|]. by apply rtsc_once.
  Qed.
  Lemma arcs_acyclic c : ¬ tc (λ a b, (a, b) ∈ g.2) c c.
  Proof using Hct Hh.
    assert (∀ a b, (a, b) ∈ g.2 → (∃ X, X ∈ a) ∧ ∃ Y, Y ∈ b) as Hne.
    { intros a b (_ & X & Y & H & -> & ->)%elem_of_arcs. destruct (Hct X Y H). split; [exists X|exists Y]; (apply elem_of_comp; split; [done|]; reflexivity). }
    assert (∀ a b, tc (λ a b, (a, b) ∈ g.2) a b → (∃ X, X ∈ a) ∧ (∃ Y, Y ∈ b) ∧ ∀ X Y, X ∈ a → Y ∈ b → h X < h Y) as H.
    { induction 1 as [a b H|a b c' H _ (IH1 & IH2 & IH3)].
      - destruct (Hne _ _ H). split; [done|]. split; [done|]. intros X Y HX HY. rewrite (arc_heights a b X Y); [lia|done..].
      - destruct (Hne _ _ H) as [? [Y HY]]. split; [done|]. split; [done|]. intros X Z HX HZ. specialize (IH3 Y Z HY HZ). rewrite (arc_heights a b X Y) in IH3; [lia|done..]. }
    intros Hc. destruct (H c c Hc) as ([X HX] & _ & Hlt). specialize (Hlt X X HX HX). lia.
  Qed.
  Lemma elem_of_parents a c : a ∈ parents_in g c ↔ (a, c) ∈ g.2.
  Proof using Type.
    unfold parents_in. rewrite elem_of_list_fmap. split.
    - intros ([a' b] & -> & [Hb H]%elem_of_list_filter). cbn in *. by subst.
    - intros H. exists (a, c). split; [done|]. by apply elem_of_list_filter.
  Qed.
  Lemma elem_of_residual ord c v : (∀ l, ord l ≡ₚ l) →
    v ∈ residual ord g c ↔ (∃ X, X ∈ c ∧ v ∈ X) ∧ ∀ a, head (ord (parents_in g c)) = Some a → ∀ X, X ∈ a → v ∉ X.
  Proof using Type.
    intros Hord. unfold residual. rewrite elem_of_difference, elem_of_union_list. destruct (ord (parents_in g c)) as [|a l]; cbn.
    - clear. set_solver.
    - rewrite elem_of_union_list. clear. naive_solver.
  Qed.
  Lemma residual_cover ord v : (∀ l, ord l ≡ₚ l) → (∃ X, X ∈ cl ∧ v ∈ X) → ∃ c, c ∈ g.1 ∧ v ∈ residual ord g c.
  Proof using Hct Hh.
    intros Hord (X0 & HX0 & Hv0).
    assert (∃ X, X ∈ cl ∧ v ∈ X ∧ ∀ Y, Y ∈ cl → v ∈ Y → h X ≤ h Y) as (X & HX & Hv & Hmin).
    { remember (h X0) as n eqn:Hn. revert X0 Hn HX0 Hv0. induction n as [n IH] using lt_wf_ind. intros X0 -> HX0 Hv0.
      destruct (decide (Exists (λ Y, v ∈ Y ∧ h Y < h X0) cl)) as [H|H].
      - apply Exists_exists in H as (Y & HY & HvY & Hlt). by apply (IH (h Y) Hlt Y).
      - exists X0. split; [done|]. split; [done|]. intros Y HY HvY. destruct (decide (h X0 ≤ h Y)) as [|Hn]; [done|]. exfalso. apply H, Exists_exists. exists Y. split; [done|]. split; [done|lia]. }
    exists (comp X). split; [apply elem_of_components; by exists X|]. apply elem_of_residual; [done|].
    assert (X ∈ comp X) as HXc by (apply elem_of_comp; split; [done|]; reflexivity). split; [by exists X|].
    intros a Ha Y HY HvY. assert (a ∈ parents_in g (comp X)) as Hp.
    { rewrite <-(Hord (parents_in g (comp X))). destruct (ord (parents_in g (comp X))); cbn in Ha; [done|]. injection Ha as ->. by left. }
    apply elem_of_parents in Hp. pose proof (arc_heights a (comp X) Y X Hp HY HXc) as E.
    assert (Y ∈ cl) as HYcl. { apply elem_of_arcs in Hp as (_ & U & V & _ & -> & _). apply elem_of_comp in HY. apply HY. }
    specialize (Hmin Y HYcl HvY). lia.
  Qed.
  (** From the component in whose residual [v] is, one gets down to all components with [v]. *)
  Definition down (v : node) (a b : list nset) : Prop := (a, b) ∈ g.2 ∧ ∃ X, X ∈ a ∧ v ∈ X.
  Lemma residual_parents ord v c : (∀ l, ord l ≡ₚ l) → (∀ a b c, (a, c) ∈ g.2 → (b, c) ∈ g.2 → a = b) →
    v ∈ residual ord g c → ∀ a, (a, c) ∈ g.2 → ∀ X, X ∈ a → v ∉ X.
  Proof using Type.
    intros Hord Huniq Hv a Ha. apply elem_of_residual in Hv as [_ H]; [|done].
    apply elem_of_parents in Ha. rewrite <-(Hord (parents_in g c)) in Ha. destruct (ord (parents_in g c)) as [|b l] eqn:E; [by apply elem_of_nil in Ha|].
    assert (b ∈ parents_in g c) as Hb by (rewrite <-(Hord (parents_in g c)), E; by left).
    assert (a ∈ parents_in g c) as Ha' by (rewrite <-(Hord (parents_in g c)), E; done).
    apply elem_of_parents in Hb, Ha'. rewrite (Huniq a b c); [|done|done]. by apply H.
  Qed.
  Lemma residual_above ord v c X : (∀ l, ord l ≡ₚ l) → (∀ a b c, (a, c) ∈ g.2 → (b, c) ∈ g.2 → a = b) →
    (∀ X Y, X ∈ cl → Y ∈ cl → v ∈ X → v ∈ Y → connected_over ct {[v]} X Y) →
    c ∈ g.1 → v ∈ residual ord g c → X ∈ cl → v ∈ X → rtc (down v) c (comp X).
  Proof using Hct Hh.
    intros Hord Huniq Hconn Hc Hv HX HvX. pose proof (residual_parents ord v c Hord Huniq Hv) as Hv1. apply elem_of_residual in Hv as [(Y & HY & HvY) _]; [|done].
    apply elem_of_components in Hc as (U & HU & ->). apply elem_of_comp in HY as [HYc HY].
    cut (∀ Z, connected_over ct {[v]} Y Z → rtc (down v) (comp U) (comp Z)); [intros H; by apply H, Hconn|].
    unfold connected_over. apply (rtc_ind_r (λ Z, rtc (down v) (comp U) (comp Z)) Y); [|intros Z W HZ (HZW & HvZ & HvW) IH].
    - assert (comp U = comp Y) as ->; [|done]. apply comp_eq; [done|]. by apply rtsc_symm.
    - assert (Z ∈ cl ∧ W ∈ cl) as [HZc HWc] by (destruct HZW as [H|H]; apply Hct in H; tauto).
      destruct (decide (comp Z = comp W)) as [<-|Hne]; [done|]. destruct HZW as [H|H].
      + eapply rtc_r; [exact IH|]. split; [apply elem_of_arcs; split; [done|by exists Z, W]|]. exists Z. split; [|set_solver]. apply elem_of_comp. split; [done|]. reflexivity.
      + assert ((comp W, comp Z) ∈ g.2) as HWZ by (apply elem_of_arcs; split; [done|by exists W, Z]).
        apply rtc_inv_r in IH as [E|(b & Hb & [Hb' _])].
        * exfalso. apply (Hv1 (comp W)) with W; [by rewrite E| |set_solver]. apply elem_of_comp. split; [done|]. reflexivity.
        * by rewrite (Huniq (comp W) b (comp Z)).
  Qed.
  Lemma residual_disjoint ord v c c' : (∀ l, ord l ≡ₚ l) → (∀ a b c, (a, c) ∈ g.2 → (b, c) ∈ g.2 → a = b) →
    (∀ X Y, X ∈ cl → Y ∈ cl → v ∈ X → v ∈ Y → connected_over ct {[v]} X Y) →
    c ∈ g.1 → c' ∈ g.1 → v ∈ residual ord g c → v ∈ residual ord g c' → c = c'.
  Proof using Hct Hh.
    intros Hord Huniq Hconn Hc Hc' Hv Hv'. pose proof (residual_parents ord v c' Hord Huniq Hv') as Hp.
    pose proof Hv' as HvU. apply elem_of_residual in HvU as [(Y & HY & HvY) _]; [|done]. pose proof Hc' as Hc2. apply elem_of_components in Hc2 as (U & HU & ->).
    apply elem_of_comp in HY as [HYc HY]. apply comp_eq in HY; [|done]. rewrite <-HY in *.
    pose proof (residual_above ord v c Y Hord Huniq Hconn Hc Hv HYc HvY) as H. apply rtc_inv_r in H as [E|(b & _ & [Hb (Z & HZ & HvZ)])]; [done|].
    exfalso. by apply (Hp b Hb Z).
  Qed.
End comps.
