(** Tables, sums over assignments and variable elimination. *)
From Coq Require Import QArith.Qcanon.
From Verif Require Import Py Spec DagModel QMatModel DiscreteModel SpecDiscrete TopoProofs StateProofs ReachProofs QueryProofs CoreProofs MarkovProofs QMatProofs.
#[local] Open Scope Qc_scope.

Lemma fmap_ext_in {A B} (f g : A → B) (l : list A) : (∀ x, x ∈ l → f x = g x) → f <$> l = g <$> l.
Proof. induction l as [|x l IH]; intros H; [done|]. cbn. rewrite H by (by left). f_equal. apply IH. intros y Hy. apply H. by right. Qed.
Lemma ins_same (a : assignment) v k : <[v := k]> a !!! v = k.
Proof. unfold lookup_total, map_lookup_total. by rewrite lookup_insert. Qed.
Lemma ins_other (a : assignment) v w k : v ≠ w → <[v := k]> a !!! w = a !!! w.
Proof. intros H. unfold lookup_total, map_lookup_total. by rewrite lookup_insert_ne. Qed.
Lemma vals_app a l1 l2 : vals a (l1 ++ l2) = vals a l1 ++ vals a l2.
Proof. apply fmap_app. Qed.
Lemma vals_ext a b l : (∀ v, v ∈ l → a !!! v = b !!! v) → vals a l = vals b l.
Proof. intros H. apply fmap_ext_in. done. Qed.
Lemma vals_length a l : length (vals a l) = length l.
Proof. apply fmap_length. Qed.

(** ** Positions and [einops] *)
Lemma pos_lookup {A} `{EqDecision A} (l : list A) x : x ∈ l → l !! pos l x = Some x.
Proof.
  intros H. unfold pos. destruct (list_find (x =.) l) as [[i y]|] eqn:E; cbn.
  - apply list_find_Some in E as (? & <- & _). done.
  - apply list_find_None in E. rewrite Forall_forall in E. by destruct (E x H).
Qed.
Lemma pos_unique {A} `{EqDecision A} (l : list A) x i : NoDup l → l !! i = Some x → pos l x = i.
Proof. intros Hnd Hi. eapply NoDup_lookup; [done| |done]. apply pos_lookup. by eapply elem_of_list_lookup_2. Qed.

Lemma einops_repeat_at t left right sizes t' (val : axis → nat) :
  einops_repeat t left right sizes = Ok t' → t_at t' (val <$> right) = t_at t (val <$> left).
Proof.
  unfold einops_repeat. case_decide as H; [|done]. intros [= <-]. destruct H as (_ & _ & Hsub & _). cbn. f_equal.
  apply fmap_ext_in. intros a Ha. rewrite list_lookup_fmap, pos_lookup by (by apply Hsub). done.
Qed.
Lemma einops_repeat_shape t left right sizes t' (sz : axis → nat) :
  einops_repeat t left right sizes = Ok t' → t_shape t = sz <$> left →
  (∀ a, a ∈ right → a ∉ left → sizes a = Some (sz a)) → t_shape t' = sz <$> right.
Proof.
  unfold einops_repeat. case_decide as H; [|done]. intros [= <-] Hsh Hsz. cbn. apply fmap_ext_in. intros a Ha.
  case_decide as Hl; [|by rewrite Hsz]. rewrite Hsh, list_lookup_fmap, pos_lookup by done. done.
Qed.
Lemma einops_repeat_ok t left right sizes :
  NoDup left → NoDup right → left ⊆ right → length (t_shape t) = length left →
  (∀ a, a ∈ right → a ∉ left → is_Some (sizes a)) → ∃ t', einops_repeat t left right sizes = Ok t'.
Proof.
  intros H1 H2 H3 H4 H5. unfold einops_repeat. rewrite decide_True; [by eexists|]. do 4 (split; [done|]). apply Forall_forall. intros a Ha.
  destruct (decide (a ∈ left)); [by left|right; by apply H5].
Qed.

Section table.
  Context (D : ddag).
  Notation card := (card D).
  Notation sum_over := (sum_over D).
  Notation in_range := (in_range D).

  (** ** Sums over assignments *)
  (** [b] is [a] with other values for the nodes of [l]. *)
  Definition upd_of (l : list node) (a b : assignment) : Prop := (∀ v, v ∉ l → b !!! v = a !!! v) ∧ in_range l b.
  Lemma sum_over_ext l f g a : (∀ b, upd_of l a b → f b = g b) → sum_over l f a = sum_over l g a.
  Proof.
    revert a. induction l as [|v l IH]; intros a H; cbn.
    - apply H. split; [done|]. intros v Hv. by apply elem_of_nil in Hv.
    - apply qsum_ext. intros k Hk. apply IH. intros b [Hb1 Hb2]. apply H. split.
      + intros w Hw. apply not_elem_of_cons in Hw as [Hw1 Hw2]. rewrite Hb1 by done. by apply ins_other.
      + intros w [->|Hw]%elem_of_cons; [|by apply Hb2]. destruct (decide (v ∈ l)) as [Hv|Hv]; [by apply Hb2|]. by rewrite Hb1, ins_same.
  Qed.
  Lemma sum_over_app l1 l2 f a : sum_over (l1 ++ l2) f a = sum_over l1 (sum_over l2 f) a.
  Proof. revert a. induction l1 as [|v l1 IH]; intros a; cbn; [done|]. apply qsum_ext. intros k _. apply IH. Qed.
  Lemma sum_over_mul l f g a : (∀ b, upd_of l a b → g b = g a) → sum_over l (λ b, f b * g b) a = sum_over l f a * g a.
  Proof.
    revert a. induction l as [|v l IH]; intros a H; cbn; [done|]. rewrite <-qsum_mul_r. apply qsum_ext. intros k Hk.
    assert (∀ b, upd_of l (<[v := k]> a) b → g b = g a) as Hg.
    { intros b [Hb1 Hb2]. apply H. split.
      - intros w Hw. apply not_elem_of_cons in Hw as [Hw1 Hw2]. rewrite Hb1 by done. by apply ins_other.
      - intros w [->|Hw]%elem_of_cons; [|by apply Hb2]. destruct (decide (v ∈ l)) as [Hv|Hv]; [by apply Hb2|]. by rewrite Hb1, ins_same. }
    rewrite <-(sum_over_ext l (λ b, f b * g a)).
    - clear -IH. revert IH. generalize (<[v := k]> a). intros b _. revert b. induction l as [|w l IHl]; intros b; cbn; [done|].
      rewrite <-qsum_mul_r. apply qsum_ext. intros j _. apply IHl.
    - intros b Hb. by rewrite (Hg b).
  Qed.
  Lemma sum_over_perm l l' f a : NoDup l → l ≡ₚ l' → sum_over l f a = sum_over l' f a.
  Proof.
    intros Hnd Hp. revert a Hnd. induction Hp as [|v l l' Hp IH|v w l|l1 l2 l3 H12 IH12 H23 IH23]; intros a Hnd.
    - done.
    - apply NoDup_cons in Hnd as [_ Hnd]. cbn. apply qsum_ext. intros k _. by apply IH.
    - cbn. rewrite qsum_swap. apply qsum_ext. intros k _. apply qsum_ext. intros j _.
      apply NoDup_cons in Hnd as [Hw _]. by rewrite insert_commute by (intros ->; apply Hw; by left).
    - rewrite IH12 by done. apply IH23. by rewrite <-H12.
  Qed.
  (** [f] only depends on the nodes of [X]. *)
  Lemma sum_over_agree (X : nset) l f a b :
    (∀ c c', (∀ v, v ∈ X → c !!! v = c' !!! v) → f c = f c') → (∀ v, v ∈ X → v ∉ l → a !!! v = b !!! v) →
    sum_over l f a = sum_over l f b.
  Proof.
    intros Hf. revert a b. induction l as [|v l IH]; intros a b Hab; cbn.
    - apply Hf. intros v Hv. apply Hab; [done|]. apply not_elem_of_nil.
    - apply qsum_ext. intros k _. apply IH. intros w Hw Hwl. destruct (decide (v = w)) as [->|Hne]; [by rewrite !ins_same|].
      rewrite !ins_other by done. apply Hab; [done|]. by apply not_elem_of_cons.
  Qed.

  (** ** Tables with named axes *)
  Definition rep (t : tensor) (l : list node) (F : assignment → Qc) : Prop :=
    t_shape t = card <$> l ∧ ∀ a, in_range l a → t_at t (vals a l) = F a.
  Lemma rep_ext t l F G : rep t l F → (∀ a, in_range l a → F a = G a) → rep t l G.
  Proof. intros [H1 H2] H. split; [done|]. intros a Ha. rewrite H2 by done. by apply H. Qed.

  (** Assign the names of a pattern. *)
  Definition axv {A} (f : node → A) (new : A) (x : axis) : A := match x.1 with 0%nat => f x.2 | _ => new end.
  Lemma axv_d {A} (f : node → A) new (l : list node) : axv f new <$> (ax_d <$> l) = f <$> l.
  Proof. rewrite <-list_fmap_compose. done. Qed.
  Lemma ax_d_in (l : list node) a : a ∈ ax_d <$> l ↔ a.1 = 0%nat ∧ a.2 ∈ l.
  Proof.
    rewrite elem_of_list_fmap. split; [intros (y & -> & ?); done|]. destruct a as [i n]; cbn. intros [-> ?]. by exists n.
  Qed.
  #[global] Instance ax_d_inj : Inj eq eq ax_d.
  Proof. by intros ?? [=]. Qed.

  Lemma repeat_rep t l l' F : rep t l F → NoDup l → NoDup l' → (∀ v, v ∈ l ↔ v ∈ l') →
    ∃ t', repeat_dimensions t l l' None false = Ok t' ∧ rep t' l' F.
  Proof.
    intros [Hs Ht] Hnd Hnd' Heq. unfold repeat_dimensions.
    assert (filter (λ x, x ∉ l) l' = []) as Hm.
    { destruct (filter (λ x, x ∉ l) l') as [|x k] eqn:E; [done|]. assert (x ∈ filter (λ x, x ∉ l) l') as H by (rewrite E; by left).
      apply elem_of_list_filter in H as [H1 H2]. destruct H1. by apply Heq. }
    rewrite Hm. cbn [decide list_eq_nil_dec]. rewrite !app_nil_r. rewrite decide_True by done.
    match goal with |- context [einops_repeat ?a ?b ?c ?d] => destruct (einops_repeat_ok a b c d) as [t' E] end.
    { by apply (NoDup_fmap_2 ax_d). } { by apply (NoDup_fmap_2 ax_d). }
    { intros a. rewrite !ax_d_in. intros [? ?]. split; [done|]. by apply Heq. }
    { by rewrite Hs, !fmap_length. }
    { intros a Ha Hna. rewrite ax_d_in in Ha, Hna. exfalso. apply Hna. destruct Ha. split; [done|]. by apply Heq. }
    exists t'. split; [done|]. split.
    - rewrite <-(axv_d card 0%nat). eapply einops_repeat_shape; [exact E| |].
      + by rewrite axv_d.
      + intros a Ha Hna. rewrite ax_d_in in Ha, Hna. exfalso. apply Hna. destruct Ha. split; [done|]. by apply Heq.
    - intros a Ha. unfold vals. rewrite <-(axv_d (λ v, a !!! v) 0%nat). rewrite (einops_repeat_at _ _ _ _ _ _ E), axv_d.
      apply Ht. intros v Hv. apply Ha. by apply Heq.
  Qed.
  (** Converse: if the last step succeeds, the tables have the same nodes. *)
  Lemma repeat_Ok t l l' t' : repeat_dimensions t l l' None false = Ok t' → NoDup l' ∧ ∀ v, v ∈ l ↔ v ∈ l'.
  Proof.
    unfold repeat_dimensions. case_decide as Hm; [|done]. rewrite !app_nil_r. unfold einops_repeat. case_decide as H; [|done]. intros _.
    destruct H as (_ & Hnd & Hsub & _). split; [by apply (NoDup_fmap_1 ax_d)|]. intros v. split; intros Hv.
    - assert (ax_d v ∈ ax_d <$> l') as H by (apply Hsub; by apply elem_of_list_fmap_1). by apply ax_d_in in H as [_ ?].
    - destruct (decide (v ∈ l)) as [|Hn]; [done|]. assert (v ∈ filter (λ x, x ∉ l) l') as H by (by apply elem_of_list_filter).
      rewrite Hm in H. by apply elem_of_nil in H.
  Qed.

  Lemma add_variable_rep f table cur c new ps F :
    rep table cur F → NoDup cur → NoDup ps → ps ⊆ cur → t_shape c = card <$> ps ++ [new] →
    (∀ v, v ∈ cur → dd_dims D !! v = Some (card v)) →
    ∃ t, add_variable_by f table cur c (dd_dims D) ps = Ok t ∧ rep t (cur ++ [new]) (λ a, F a * f (t_at c (vals a (ps ++ [new])))).
  Proof.
    intros [Hs Ht] Hnd Hps Hsub Hc Hd. unfold add_variable_by, repeat_dimensions.
    rewrite decide_True.
    2:{ apply Forall_forall. intros v [_ Hv]%elem_of_list_filter. rewrite Hd by done. done. }
    assert (∀ l, NoDup l → NoDup ((ax_d <$> l) ++ [ax_new])) as Hax.
    { intros l Hl. apply NoDup_app. split; [by apply (NoDup_fmap_2 ax_d)|]. split; [|apply NoDup_singleton].
      intros a [H _]%ax_d_in ->%elem_of_list_singleton. done. }
    set (sizes := λ a : axis, if decide _ then _ else _).
    assert (∀ a, a ∈ (ax_d <$> cur) ++ [ax_new] → a ∉ (ax_d <$> ps) ++ [ax_new] → sizes a = Some (axv card (card new) a)) as Hsz.
    { intros [i v] Ha Hna. rewrite elem_of_app, ax_d_in, elem_of_list_singleton in Ha. rewrite elem_of_app, ax_d_in, elem_of_list_singleton in Hna.
      destruct Ha as [[Hi Hv]|Ha]; [|tauto]. cbn in Hi, Hv. subst i. unfold sizes. cbn [fst snd]. rewrite decide_True; [by apply Hd|].
      split; [done|]. apply elem_of_list_filter. split; [|done]. intros ?. apply Hna. by left. }
    match goal with |- context [einops_repeat ?a ?b ?c ?d] => destruct (einops_repeat_ok a b c d) as [t' E] end.
    { by apply Hax. } { by apply Hax. }
    { intros a. rewrite !elem_of_app, !ax_d_in. intros [[? ?]|?]; [left; split; [done|by apply Hsub]|by right]. }
    { cbn. by rewrite Hc, fmap_length, !app_length, fmap_length. }
    { intros a Ha Hna. rewrite (Hsz a Ha Hna). done. }
    rewrite E. cbn [res_bind].
    assert (t_shape t' = card <$> cur ++ [new]) as Hst.
    { assert (card <$> cur ++ [new] = axv card (card new) <$> (ax_d <$> cur) ++ [ax_new]) as ->.
      { rewrite !fmap_app, axv_d. done. }
      eapply einops_repeat_shape; [exact E| |done]. cbn. rewrite Hc, !fmap_app, axv_d. done. }
    rewrite decide_True.
    2:{ rewrite Hs, Hst, fmap_app, take_app_alt; [done|by rewrite fmap_length]. }
    eexists. split; [done|]. split; [done|]. cbn. intros a Ha. f_equal.
    - rewrite vals_app, take_app_alt by (by rewrite vals_length). apply Ht. intros v Hv. apply Ha. apply elem_of_app. by left.
    - assert (vals a (cur ++ [new]) = axv (λ v, a !!! v) (a !!! new) <$> (ax_d <$> cur) ++ [ax_new]) as ->.
      { unfold vals. rewrite !fmap_app, axv_d. done. }
      rewrite (einops_repeat_at _ _ _ _ _ _ E), fmap_app, axv_d. cbn. f_equal. unfold vals. by rewrite fmap_app.
  Qed.
  (** If it succeeds, all parents of the new node are there. *)
  Lemma add_variable_Ok table cur c dims ps' t n : add_variable table cur c dims ps' = Ok t → length (t_shape c) = S n → length ps' = n.
  Proof.
    unfold add_variable, add_variable_by, repeat_dimensions. case_decide; [|done]. unfold einops_repeat at 1. case_decide as H'; [|done].
    intros _ Hc. destruct H' as (_ & _ & _ & Hl & _). cbn in Hl. rewrite app_length, fmap_length in Hl. cbn in Hl. lia.
  Qed.

  Lemma sum_axis_rep t pre x post F :
    rep t (pre ++ x :: post) F → NoDup (pre ++ x :: post) →
    rep (sum_axis (length pre) t) (pre ++ post) (λ a, qsum (card x) (λ k, F (<[x := k]> a))).
  Proof.
    intros [Hs Ht] Hnd. assert (x ∉ pre ++ post) as Hx.
    { rewrite <-Permutation_middle in Hnd. by apply NoDup_cons in Hnd as [? _]. }
    unfold sum_axis. split; cbn.
    - rewrite Hs, !fmap_app. cbn. rewrite <-(fmap_length card pre). by rewrite delete_middle.
    - intros a Ha. rewrite Hs, fmap_app. cbn. rewrite <-(fmap_length card pre) at 1. rewrite list_lookup_middle by done. cbn.
      apply qsum_ext. intros k Hk. rewrite <-Ht.
      + f_equal. rewrite vals_app, take_app_alt, drop_app_alt by (by rewrite vals_length). rewrite vals_app. f_equal.
        * apply vals_ext. intros v Hv. rewrite ins_other; [done|]. intros ->. apply Hx, elem_of_app. by left.
        * cbn. rewrite ins_same. f_equal. apply vals_ext. intros v Hv. rewrite ins_other; [done|]. intros ->. apply Hx, elem_of_app. by right.
      + intros v Hv. destruct (decide (x = v)) as [<-|Hne]; [by rewrite ins_same|]. rewrite ins_other by done. apply Ha.
        rewrite elem_of_app, elem_of_cons in Hv. rewrite elem_of_app. destruct Hv as [?|[->|?]]; [by left|done|by right].
  Qed.
  Lemma marginalize_rep t cur (ms : list node) axes F :
    rep t cur F → NoDup cur → (∀ i v, cur !! i = Some v → i ∈ axes ↔ v ∈ ms) →
    rep (marginalize t axes) (filter (λ v, v ∉ ms) cur) (sum_over (filter (λ v, v ∈ ms) cur) F).
  Proof.
    intros Ht Hnd Hax. unfold marginalize. assert (length (t_shape t) = length cur) as -> by (destruct Ht as [-> _]; by rewrite fmap_length).
    assert (∀ post pre, cur = pre ++ post →
      rep (foldr sum_axis t (filter (λ k, k ∈ axes) (seq (length pre) (length post)))) (pre ++ filter (λ v, v ∉ ms) post)
        (sum_over (filter (λ v, v ∈ ms) post) F)) as H; [|by apply (H cur [])].
    induction post as [|x post IH]; intros pre Hcur; cbn [length seq].
    - rewrite !filter_nil. cbn. rewrite app_nil_r in *. by subst.
    - assert (cur !! length pre = Some x) as Hx by (rewrite Hcur; by apply list_lookup_middle).
      specialize (IH (pre ++ [x])). rewrite app_length, Nat.add_1_r, <-app_assoc in IH. cbn [app] in IH. specialize (IH Hcur).
      rewrite !filter_cons. destruct (decide (x ∈ ms)) as [Hm|Hm].
      + rewrite decide_True by (by apply (Hax _ _ Hx)). rewrite (decide_False (P := x ∉ ms)) by (by intros ?). cbn [foldr].
        rewrite <-app_assoc in IH. cbn in IH. apply sum_axis_rep in IH; [done|].
        rewrite Hcur in Hnd. clear -Hnd. apply NoDup_app in Hnd as (H1 & H2 & H3). apply NoDup_cons in H3 as [H3 H4]. apply NoDup_app.
        split; [done|]. split; [|apply NoDup_cons; split; [|by apply NoDup_filter]].
        * intros v Hv Hv'. apply (H2 v Hv). apply elem_of_cons in Hv' as [->|Hv']; [by left|right]. by apply elem_of_list_filter in Hv' as [_ ?].
        * intros [_ ?]%elem_of_list_filter. done.
      + rewrite decide_False by (rewrite (Hax _ _ Hx); done). rewrite decide_True by done. rewrite <-app_assoc in IH. done.
  Qed.
End table.
