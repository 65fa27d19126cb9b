(** Final theorems about [get_conditional_pgmpy] without [cond_values]: C124. *)
From Coq Require Import QArith.Qcanon.
From Verif Require Import Py Spec DagModel QMatModel DiscreteModel DiscreteSampleModel EifModel PgmModel ClfModel PgmArrayModel SpecDiscrete SpecEif TopoProofs StateProofs ReachProofs QueryProofs CoreProofs MarkovProofs QMatProofs
  PropertiesDag DiscreteProofs DiscreteElim SampleProofs QcTac PropertiesDiscrete PropertiesDiscrete2 PropertiesEif PropertiesPgm ClfProofs.
#[local] Open Scope Qc_scope.

Lemma volume_app m c : volume (m ++ c) = (volume m * volume c)%nat.
Proof. unfold volume. induction m as [|n m IH]; cbn; [lia|]. rewrite IH. lia. Qed.
Lemma ravel_app m c : ∀ x y, length x = length m → ravel (m ++ c) (x ++ y) = (ravel m x * volume c + ravel c y)%nat.
Proof.
  induction m as [|n m IH]; intros [|i x] y H; try done. injection H as H. cbn [app ravel]. rewrite IH by done. rewrite volume_app. lia.
Qed.
Lemma reshape_at t m c x y : t_shape t = m ++ [volume c] → Forall2 lt x m → Forall2 lt y c → t_at (reshape t (m ++ c)) (x ++ y) = t_at t (x ++ [ravel c y]).
Proof.
  intros Hs Hx Hy. unfold reshape. cbn. rewrite Hs. f_equal. pose proof (Forall2_length _ _ _ Hx) as Hl. rewrite ravel_app by done.
  assert ((ravel m x * volume c + ravel c y)%nat = ravel (m ++ [volume c]) (x ++ [ravel c y])) as ->.
  { rewrite ravel_app by done. cbn. rewrite Nat.mul_1_r. lia. }
  apply unravel_ravel. apply Forall2_app; [done|]. constructor; [|constructor]. by apply ravel_lt.
Qed.
Lemma state_z z : state (qz z) = Some z.
Proof.
  unfold state. assert (this (qz z) = QArith_base.Qmake z 1) as ->; [|done].
  unfold qz. cbn. unfold QArith_base.inject_Z. apply Qcanon.Qred_identity. cbn. apply Z.gcd_1_r.
Qed.
Lemma state_nat k : state (qz (Z.of_nat k)) = Some (Z.of_nat k).
Proof. apply state_z. Qed.

Lemma state_no q : (∀ z, q ≠ qz z) → state q = None.
Proof.
  intros H. unfold state. case_decide as E; [|done]. destruct (H (QArith_base.Qnum (this q))). apply Qc_is_canon. unfold qz. cbn [this Q2Qc].
  rewrite Qreduction.Qred_correct. destruct q as [[n d] Hq]. cbn in *. by subst d.
Qed.

(** The table with repeated nodes. *)
Lemma add_rep_main (D : ddag) (base : tensor) (marg cond : list node) (F : assignment → Qc) :
  let only := filter (λ v, v ∉ cond) marg in
  ddag_wf D → NoDup marg → NoDup cond → (∀ v, v ∈ marg ++ cond → v ∈ d_nodes (dd_dag D)) →
  rep D base (only ++ cond) F → (length (filter (λ v, v ∈ cond) marg) ≤ 1)%nat →
  ∃ t, (if decide (length marg = length only) then Ok base else add_repeated_conditional D base marg cond) = Ok t ∧ t_shape t = card D <$> marg ++ cond ∧
  ∀ b c, in_range D (only ++ cond) c → (∀ v, v ∈ marg → v ∉ cond → b !!! v = c !!! v) →
    t_at t (vals b marg ++ vals c cond) = if decide (Forall (λ v, v ∈ cond → b !!! v = c !!! v) marg) then F c else 0.
Proof.
  intros only Hwf Hnm Hnc HN Hbase Hdup.
  assert (∀ v, v ∈ only ↔ v ∈ marg ∧ v ∉ cond) as Honly by (intros v; unfold only; rewrite elem_of_list_filter; tauto).
  assert (NoDup (only ++ cond)) as Hnoc.
  { apply NoDup_app. split; [by apply NoDup_filter|]. split; [|done]. intros v Hv. by apply Honly in Hv as [_ ?]. }
  unfold add_repeated_conditional. fold only.
  case_decide as Hlen.
  { (* no repeated node *)
    assert (∀ v, v ∈ marg → v ∉ cond) as Hno.
    { intros v Hv. unfold only in Hlen. clear -Hlen Hv. induction marg as [|x l IH]; [by apply elem_of_nil in Hv|]. rewrite filter_cons in Hlen.
      pose proof (filter_length (λ v, v ∉ cond) l). case_decide; cbn in Hlen; [|lia]. apply elem_of_cons in Hv as [->|Hv]; [done|]. apply IH; [lia|done]. }
    assert (only = marg) as Hom by (by apply filter_all). exists base. split; [done|]. destruct Hbase as [Hsh Hat]. rewrite Hom in *. split; [done|].
    intros b c Hc Hbc. rewrite decide_True.
    2:{ apply Forall_forall. intros v Hv Hv'. by apply Hno in Hv. }
    rewrite (vals_ext b c marg) by (intros v Hv; apply Hbc; [done|by apply Hno]). rewrite <-vals_app. rewrite (Hat c Hc). done. }
  set (dup := filter (λ v, v ∈ cond) marg) in *.
  assert (∃ v, dup = [v]) as [v Hdupv].
  { destruct dup as [|v [|w l]] eqn:Ed; [|by exists v|cbn in Hdup; lia]. exfalso. apply Hlen. unfold only. symmetry. rewrite filter_all; [done|].
    intros x Hx Hxc. assert (x ∈ dup) as H by (by apply elem_of_list_filter). rewrite Ed in H. by apply elem_of_nil in H. }
  assert (∀ x, x ∈ marg → x ∈ cond ↔ x = v) as Hcv.
  { intros x Hx. transitivity (x ∈ dup); [unfold dup; rewrite elem_of_list_filter; tauto|]. rewrite Hdupv. apply elem_of_list_singleton. }
  assert (v ∈ marg ∧ v ∈ cond) as [Hvm Hvc].
  { assert (v ∈ dup) as H by (rewrite Hdupv; by left). apply elem_of_list_filter in H. tauto. }
  set (right := ((λ v, if decide (v ∈ only) then ax_d v else ax_r v) <$> marg) ++ (ax_d <$> cond)).
  assert (∀ a, a ∈ right ↔ a ∈ ax_d <$> (only ++ cond) ∨ a = ax_r v) as Hright.
  { intros a. unfold right. rewrite elem_of_app, elem_of_list_fmap, fmap_app, elem_of_app, !ax_d_in. split.
    - intros [(x & -> & Hx)|?]; [|tauto]. case_decide as Ho; [by left; left|right]. f_equal. apply Hcv; [done|].
      destruct (decide (x ∈ cond)); [done|]. destruct Ho. by apply Honly.
    - intros [[[H1 H2]|H]| ->]; [|by right|].
      + left. exists a.2. rewrite decide_True by done. split; [by destruct a as [? ?]; cbn in *; subst|]. by apply Honly in H2 as [? _].
      + left. exists v. rewrite decide_False; [done|]. intros H%Honly. tauto. }
  assert (NoDup right) as Hndr.
  { unfold right. apply NoDup_app. split; [|split; [|by apply (NoDup_fmap_2 ax_d)]].
    - clear -Hnm. apply NoDup_fmap_2_strong; [|done]. intros x y _ _. by repeat case_decide; intros [=].
    - intros a Ha [H1 H2]%ax_d_in. apply elem_of_list_fmap in Ha as (x & -> & Hx). case_decide as H; [|done]. cbn in H2. by apply Honly in H as [_ ?]. }
  match goal with |- context [einops_repeat base ?l ?r ?s] => destruct (einops_repeat_ok base l r s) as [t1 E1] end.
  { by apply (NoDup_fmap_2 ax_d). } { done. }
  { intros a Ha. apply Hright. by left. }
  { destruct Hbase as [-> _]. by rewrite !fmap_length. }
  { intros a [Ha| ->]%Hright Hna; [done|]. cbn. rewrite decide_True; [rewrite (dims_card D Hwf); [done|apply HN, elem_of_app; by left]|]. split; [done|]. rewrite Hdupv. by left. }
  rewrite E1. cbn [res_bind]. rewrite Hdupv.
  rewrite (dims_card D Hwf v) by (apply HN, elem_of_app; by left). cbn [default].
  set (eye := Tensor _ _).
  match goal with |- context [einops_repeat eye ?l ?r ?s] => destruct (einops_repeat_ok eye l r s) as [t2 E2] end.
  { apply NoDup_cons. split; [by intros ?%elem_of_list_singleton|apply NoDup_singleton]. } { done. }
  { intros a [->|[->|Ha]%elem_of_cons]%elem_of_cons; [| |by apply elem_of_nil in Ha]; apply Hright; [left|by right]. apply ax_d_in. split; [done|]. apply elem_of_app. by right. }
  { done. }
  { intros a [[H1 H2]%ax_d_in| ->]%Hright Hna.
    - rewrite decide_True; [rewrite (dims_card D Hwf); [done|]|].
      + apply HN. apply elem_of_app in H2 as [[? _]%Honly|?]; apply elem_of_app; tauto.
      + split; [done|]. split; [done|]. intros Heq. apply Hna. destruct a as [i n]. cbn in *. subst. by left.
    - destruct Hna. right. by left. }
  rewrite E2. cbn [res_bind].
  assert (t_shape t1 = axv2 (card D) (card D) <$> right) as S1.
  { eapply einops_repeat_shape; [exact E1| |].
    - destruct Hbase as [-> _]. by rewrite axv2_d.
    - intros a [Ha| ->]%Hright Hna; [done|]. cbn. rewrite decide_True; [apply (dims_card D Hwf), HN, elem_of_app; by left|]. split; [done|]. rewrite Hdupv. by left. }
  assert (t_shape t2 = axv2 (card D) (card D) <$> right) as S2.
  { eapply einops_repeat_shape; [exact E2|done|].
    intros a [[H1 H2]%ax_d_in| ->]%Hright Hna.
    - rewrite decide_True.
      + rewrite (dims_card D Hwf); [destruct a as [i n]; cbn in *; by subst|]. apply HN. apply elem_of_app in H2 as [[? _]%Honly|?]; apply elem_of_app; tauto.
      + split; [done|]. split; [done|]. intros Heq. apply Hna. destruct a as [i n]. cbn in *. subst. by left.
    - destruct Hna. right. by left. }
  rewrite decide_True by congruence. eexists. split; [done|]. cbn [t_shape t_at]. split.
  { rewrite S1. unfold right. rewrite !fmap_app, axv2_d. f_equal. rewrite <-list_fmap_compose. apply fmap_ext_in. intros x Hx. cbn. by case_decide. }
  intros b c Hc Hbc.
  assert (vals b marg ++ vals c cond = axv2 (λ v, c !!! v) (λ v, b !!! v) <$> right) as Hval.
  { unfold right. rewrite fmap_app, axv2_d. f_equal. rewrite <-list_fmap_compose. apply fmap_ext_in. intros x Hx. cbn.
    case_decide as H; [|done]. cbn. apply Hbc; [done|]. by apply Honly in H as [_ ?]. }
  rewrite Hval, (einops_repeat_at _ _ _ _ _ _ E1), (einops_repeat_at _ _ _ _ _ _ E2), axv2_d. destruct Hbase as [_ Hat].
  change ((λ v, c !!! v) <$> only ++ cond) with (vals c (only ++ cond)). rewrite Hat by done. cbn [fmap list_fmap eye t_at]. cbn [axv2 ax_d ax_r fst snd lookup list_lookup].
  destruct (decide (Forall (λ v, v ∈ cond → b !!! v = c !!! v) marg)) as [H|H].
  - rewrite decide_True; [ring|]. rewrite Forall_forall in H. by rewrite (H v).
  - rewrite decide_False; [ring|]. intros [= Heq]. apply H, Forall_forall. intros x Hx Hxc. apply Hcv in Hxc; [|done]. by subst x.
Qed.

(** ** Loops *)
Lemma loop_collect {X T} (f : X → list T → res (list T)) (P : X → T → Prop) l acc : (∀ x, x ∈ l → ∃ t, P x t ∧ ∀ ts, f x ts = Ok (ts ++ [t])) →
  ∃ ts, loopR f l acc = Ok (acc ++ ts) ∧ Forall2 P l ts.
Proof.
  revert acc. induction l as [|x l IH]; intros acc H; [exists []; by rewrite app_nil_r|]. destruct (H x) as (t & Hp & Ht); [by left|].
  destruct (IH (acc ++ [t])) as (ts & Hts & HP); [intros; apply H; by right|]. exists (t :: ts). split; [|by constructor].
  cbn. rewrite Ht. cbn [res_bind]. rewrite Hts. by rewrite <-(assoc_L (++)).
Qed.
Lemma product_elem ls xs : xs ∈ py_product ls → Forall2 (λ l x, x ∈ l) ls xs.
Proof.
  revert xs. induction ls as [|l ls IH]; intros xs H; cbn in H; [apply elem_of_list_singleton in H as ->; constructor|].
  apply elem_of_list_bind in H as (x & H & Hx). apply elem_of_list_fmap in H as (ys & -> & H). constructor; [done|]. by apply IH.
Qed.
Lemma product_state (D : ddag) cond x : NoDup cond → (∀ v, v ∈ cond → plain D v) → x ∈ py_product ((λ v, default [] (dd_alph D !! v)) <$> cond) →
  ∃ a, in_range D cond a ∧ x = (λ v, qz (Z.of_nat (a !!! v))) <$> cond.
Proof.
  intros Hnd Hpl Hx. apply product_elem in Hx. apply Forall2_fmap_l in Hx. revert x Hx. induction cond as [|v l IH]; intros x Hx.
  { apply Forall2_nil_inv_l in Hx as ->. exists ∅. split; [|done]. intros v Hv. by apply elem_of_nil in Hv. }
  apply NoDup_cons in Hnd as [Hv Hnd]. apply Forall2_cons_inv_l in Hx as (q & y & Hq & Hy & ->). destruct (IH Hnd) with y as (a & Ha & ->); [intros; apply Hpl; by right|done|].
  pose proof (Hpl v (elem_of_list_here _ _)) as Hp. unfold plain in Hp. unfold compose in Hq. rewrite Hp in Hq. cbn [from_option id] in Hq. apply elem_of_list_fmap in Hq as (k & -> & Hk%elem_of_seq).
  exists (<[v := k]> a). split.
  - intros w [->|Hw]%elem_of_cons; [rewrite lookup_total_insert; lia|]. rewrite lookup_total_insert_ne by (intros ->; done). by apply Ha.
  - cbn. rewrite lookup_total_insert. f_equal. apply list_fmap_ext. intros i w Hw. rewrite lookup_total_insert_ne; [done|]. intros ->. apply Hv. by eapply elem_of_list_lookup_2.
Qed.
Lemma mapM_state (a : assignment) cond : mapM state ((λ v, qz (Z.of_nat (a !!! v))) <$> cond) = Some ((λ v, Z.of_nat (a !!! v)) <$> cond).
Proof.
  apply mapM_Some. induction cond as [|v l IH]; cbn; [constructor|]. constructor; [apply state_nat|done].
Qed.
Lemma zip_states (a : assignment) cond : zip cond ((λ v, Z.of_nat (a !!! v)) <$> cond) = (λ v, (v, Z.of_nat (a !!! v))) <$> cond.
Proof. induction cond as [|v l IH]; [done|]. cbn. f_equal. exact IH. Qed.

Lemma marginal_agree (D : ddag) (l : list node) a b : ddag_wf D → (∀ v, v ∈ l → a !!! v = b !!! v) → marginal D (list_to_set l) a = marginal D (list_to_set l) b.
Proof.
  intros Hwf Hag. unfold marginal. apply (sum_over_agree D (d_nodes (dd_dag D))).
  - intros x y Hxy. change (plist D (elements (d_nodes (dd_dag D))) x = plist D (elements (d_nodes (dd_dag D))) y). apply (plist_agree D Hwf).
    + intros v. by rewrite elem_of_elements.
    + intros v Hv%elem_of_elements. by apply Hxy.
    + intros u v He _. apply Hxy. by apply (D_over D Hwf u v).
  - intros v Hv Hn. apply Hag. rewrite elem_of_elements in Hn. destruct (decide (v ∈ l)); [done|]. destruct Hn. apply elem_of_difference. by rewrite elem_of_list_to_set.
Qed.

Section array.
  Context (D : ddag) (query : pgm_query) (marg cond : list node).
  Context (Hwf : ddag_wf D) (Hq : exact_query D query) (Hnm : NoDup marg) (Hnc : NoDup cond).
  Context (HN : ∀ v, v ∈ marg ++ cond → v ∈ d_nodes (dd_dag D)) (Hpl : ∀ v, v ∈ cond → plain D v).
  Context (Hpos : ∀ a, in_range D cond a → marginal D (list_to_set cond) a ≠ 0).
  Let only := filter (λ v, v ∉ cond) marg.
  Context (Hne : only ≠ []).
  Let F (c : assignment) : Qc := marginal D (list_to_set (only ++ cond)) c / marginal D (list_to_set cond) c.
  Lemma only_spec v : v ∈ only ↔ v ∈ marg ∧ v ∉ cond.
  Proof using. unfold only. rewrite elem_of_list_filter. tauto. Qed.
  Lemma only_NoDup : NoDup (only ++ cond).
  Proof using Hnm Hnc. apply NoDup_app. split; [by apply NoDup_filter|]. split; [|done]. intros v Hv. by apply only_spec in Hv as [_ ?]. Qed.
  Lemma only_nodes v : v ∈ only ++ cond → v ∈ d_nodes (dd_dag D).
  Proof using HN. intros [Hv|Hv]%elem_of_app; apply HN, elem_of_app; [left; by apply only_spec in Hv as [? _]|by right]. Qed.
  Lemma array_shape l : shape_of (dd_alph D) l = card D <$> l.
  Proof using. done. Qed.

  Lemma array_base_rep : ∃ base, rep D base (only ++ cond) F ∧
    array_pgmpy query D marg cond = if decide (length marg = length only) then Ok base else add_repeated_conditional D base marg cond.
  Proof using All.
    unfold array_pgmpy. fold only. rewrite decide_True.
    2:{ apply Forall_forall. intros v Hv%only_nodes. destruct Hwf as (_ & _ & Hw). destruct (Hw v Hv) as (al & _ & _ & -> & _). by eexists. }
    set (P := λ (x : list Qc) (t : tensor), ∀ a, in_range D cond a → x = (λ v, qz (Z.of_nat (a !!! v))) <$> cond → t_shape t = card D <$> only ∧
      ∀ b, in_range D only b → (∀ v, v ∈ cond → b !!! v = a !!! v) → t_at t (vals b only) = marginal D (list_to_set (only ++ cond)) b / marginal D (list_to_set cond) a).
    destruct (loop_collect (array_step query only cond (shape_of (dd_alph D) only)) P (py_product ((λ v, default [] (dd_alph D !! v)) <$> cond)) []) as (ts & -> & Hts).
    { intros x Hx. destruct (product_state D cond x Hnc Hpl Hx) as (a & Ha & ->).
      destruct (Hq only cond a Hne only_NoDup only_nodes Ha (Hpos a Ha)) as (t & Ht & Hsh & Hat). exists t. split.
      - intros a' Ha' E. split; [done|]. intros b Hb Hbc.
        assert (∀ v, v ∈ cond → a' !!! v = a !!! v) as Haa.
        { intros v (i & Hi)%elem_of_list_lookup. apply (f_equal (λ l, l !! i)) in E. rewrite !list_lookup_fmap, Hi in E. apply (f_equal (λ q, q ≫= state)) in E. cbn [fmap option_fmap option_map mbind option_bind] in E. rewrite !state_nat in E. injection E as E. lia. }
        rewrite Hat; [|done|intros v Hv; rewrite <-Haa by done; by apply Hbc]. by rewrite (marginal_agree D cond a' a).
      - intros ts. unfold array_step. rewrite mapM_state, zip_states, Ht. cbn [res_bind]. by rewrite decide_True. }
    cbn [res_bind app]. eexists. split; [|done]. split; [unfold reshape; cbn [t_shape]; by rewrite fmap_app|].
    intros a Ha. assert (Forall2 lt (vals a only) (card D <$> only)) as Hlo.
    { apply Forall2_fmap, Forall_Forall2_diag, Forall_forall. intros v Hv. apply Ha, elem_of_app. by left. }
    assert (Forall2 lt (vals a cond) (card D <$> cond)) as Hlc.
    { apply Forall2_fmap, Forall_Forall2_diag, Forall_forall. intros v Hv. apply Ha, elem_of_app. by right. }
    unfold vals at 1. rewrite fmap_app. fold (vals a only) (vals a cond). rewrite !array_shape. rewrite reshape_at by done. cbn [t_at].
    rewrite last_snoc. cbn [from_option id]. rewrite take_app_alt by (unfold vals; by rewrite !fmap_length).
    assert (py_product ((λ v, default [] (dd_alph D !! v)) <$> cond) !! ravel (card D <$> cond) (vals a cond) = Some ((λ v, qz (Z.of_nat (a !!! v))) <$> cond)) as Hx.
    { assert (card D <$> cond = length <$> ((λ v, default [] (dd_alph D !! v)) <$> cond)) as -> by (by rewrite <-list_fmap_compose).
      apply py_product_lookup. unfold vals. clear -Hpl Ha. assert (∀ v, v ∈ cond → (a !!! v < card D v)%nat) as Hc by (intros v Hv; apply Ha, elem_of_app; by right). clear Ha only.
      induction cond as [|v l IH]; [constructor|]. cbn. constructor; [|apply IH; intros; [apply Hpl|apply Hc]; by right].
      pose proof (Hpl v (elem_of_list_here _ _)) as Hp. unfold plain in Hp. rewrite Hp. cbn [from_option id]. rewrite list_lookup_fmap, lookup_seq_lt by (apply Hc; by left). done. }
    destruct (Forall2_lookup_l _ _ _ _ _ Hts Hx) as (t & -> & Ht). destruct (Ht a) as [_ H]; [intros v Hv; apply Ha, elem_of_app; by right|done|].
    apply H; [|done]. intros v Hv. apply Ha, elem_of_app. by left.
  Qed.
End array.

(** ** C124: [get_conditional_pgmpy] without [cond_values] *)
(** With an inference that returns the conditional probabilities, the table has an axis for each of the nodes [marg] and [cond],
    in this order, and holds the conditional probabilities of [marg] given [cond]; a node in both has the value of the condition. *)
Theorem C124_array (query : pgm_query) (D : ddag) (marg cond : list node) :
  ddag_wf D → exact_query D query → NoDup marg → NoDup cond → (∀ v, v ∈ marg ++ cond → v ∈ d_nodes (dd_dag D)) →
  (∃ v, v ∈ marg ∧ v ∉ cond) → (∀ v w, v ∈ marg → w ∈ marg → v ∈ cond → w ∈ cond → v = w) →
  (∀ v, v ∈ cond → plain D v) → (∀ a, in_range D cond a → marginal D (list_to_set cond) a ≠ 0) →
  ∃ t, array_pgmpy query D marg cond = Ok t ∧ t_shape t = card D <$> marg ++ cond ∧
  ∀ b c, in_range D (marg ++ cond) c → (∀ v, v ∈ marg → v ∉ cond → b !!! v = c !!! v) →
    ((∃ v, v ∈ marg ∧ v ∈ cond ∧ b !!! v ≠ c !!! v) → t_at t (vals b marg ++ vals c cond) = 0) ∧
    ((∀ v, v ∈ marg → v ∈ cond → b !!! v = c !!! v) →
      t_at t (vals b marg ++ vals c cond) = marginal D (list_to_set (marg ++ cond)) c / marginal D (list_to_set cond) c).
Proof.
  intros Hwf Hq Hnm Hnc HN (u & Hu & Huc) Hone Hpl Hpos. pose proof (only_spec marg cond) as Honly.
  destruct (array_base_rep D query marg cond Hwf Hq Hnm Hnc HN Hpl Hpos) as (base & Hbase & E).
  { intros H. assert (u ∈ filter (λ v, v ∉ cond) marg) as Hx by (by apply Honly). rewrite H in Hx. by apply elem_of_nil in Hx. }
  destruct (add_rep_main D base marg cond _ Hwf Hnm Hnc HN Hbase) as (t & Et & Hsh & Hat).
  { destruct (filter (λ v, v ∈ cond) marg) as [|x [|y l]] eqn:El; cbn; [lia..|]. exfalso.
    assert (NoDup (filter (λ v, v ∈ cond) marg)) as Hnd by (by apply NoDup_filter). rewrite El in Hnd.
    assert (∀ z, z ∈ x :: y :: l → z ∈ marg ∧ z ∈ cond) as Hin by (intros z Hz; rewrite <-El in Hz; apply elem_of_list_filter in Hz; tauto).
    destruct (Hin x) as [? ?]; [by left|]. destruct (Hin y) as [? ?]; [by right; left|]. assert (x = y) as -> by (by apply Hone).
    apply NoDup_cons in Hnd as [Hnd _]. destruct Hnd. by left. }
  exists t. split; [by rewrite E|]. split; [done|]. intros b c Hc Hbc. rewrite Hat; [|intros v Hv; apply Hc|done].
  2:{ apply elem_of_app. apply elem_of_app in Hv as [Hv|Hv]; [left; by apply Honly in Hv as [? _]|by right]. }
  assert (list_to_set (filter (λ v, v ∉ cond) marg ++ cond) = list_to_set (marg ++ cond) :> nset) as <-.
  { apply set_eq. intros v. rewrite !elem_of_list_to_set, !elem_of_app, Honly. destruct (decide (v ∈ cond)); tauto. }
  split.
  - intros (v & H1 & H2 & H3). rewrite decide_False; [done|]. rewrite Forall_forall. intros H. apply H3. by apply H.
  - intros H1. by rewrite decide_True by (by apply Forall_forall).
Qed.
(** The same table as that of [get_conditional]. *)
Theorem C124_agrees (o : oracle) (query : pgm_query) (D : ddag) (marg cond : list node) :
  ddag_wf D → stochastic D → no_tiny D → exact_query D query → NoDup marg → NoDup cond → (∀ v, v ∈ marg ++ cond → v ∈ d_nodes (dd_dag D)) →
  (∃ v, v ∈ marg ∧ v ∉ cond) → (∀ v w, v ∈ marg → w ∈ marg → v ∈ cond → w ∈ cond → v = w) →
  (∀ v, v ∈ cond → plain D v) → (∀ a, in_range D cond a → marginal D (list_to_set cond) a ≠ 0) →
  ∃ t t', array_pgmpy query D marg cond = Ok t ∧ get_conditional o D false marg cond = Ok t' ∧ t_shape t = t_shape t' ∧
    ∀ b c, in_range D (marg ++ cond) c → (∀ v, v ∈ marg → v ∉ cond → b !!! v = c !!! v) →
      t_at t (vals b marg ++ vals c cond) = t_at t' (vals b marg ++ vals c cond).
Proof.
  intros Hwf Hst Hti Hq Hnm Hnc HN Hu Hone Hpl Hpos.
  destruct (C124_array query D marg cond Hwf Hq Hnm Hnc HN Hu Hone Hpl Hpos) as (t & Et & Hsh & Hat).
  destruct (C81_get_conditional o D marg cond Hwf Hst Hti Hnm Hnc) as (t' & Et' & Hsh' & Hat').
  { destruct Hu as (u & Hu & _). by destruct marg; [apply elem_of_nil in Hu|]. } { done. } { done. }
  exists t, t'. split; [done|]. split; [done|]. split; [congruence|]. intros b c Hc Hbc. destruct (Hat b c Hc Hbc) as [H1 H2]. destruct (Hat' b c) as (H3 & H4 & _); [|done|].
  { intros v [Hv|Hv]%elem_of_app; apply Hc, elem_of_app; [left; by apply elem_of_list_filter in Hv as [_ ?]|by right]. }
  destruct (decide (Forall (λ v, v ∈ cond → b !!! v = c !!! v) marg)) as [Hd|Hd].
  - rewrite Forall_forall in Hd. rewrite H2, H4; [done|done| |done]. apply Hpos. intros v Hv. apply Hc, elem_of_app. by right.
  - rewrite <-Exists_not_Forall in Hd || apply not_Forall_Exists in Hd; [|apply _]. apply Exists_exists in Hd as (v & Hv & Hn). 
    assert (v ∈ cond ∧ b !!! v ≠ c !!! v) as [Hvc Hb]. { destruct (decide (v ∈ cond)); [|by destruct Hn]. split; [done|]. intros H. by apply Hn. }
    rewrite H1, H3; [done|by exists v..].
Qed.
(** Two nodes that are in both lists: no table. *)
Theorem C124_twice (query : pgm_query) (D : ddag) (marg cond : list node) (v w : node) :
  v ∈ marg → w ∈ marg → v ∈ cond → w ∈ cond → v ≠ w → ∃ e, array_pgmpy query D marg cond = Raise e.
Proof.
  intros H1 H2 H3 H4 Hne. unfold array_pgmpy. case_decide; [|by eexists]. destruct (loopR _ _ _) as [ts|e]; [|by eexists]. cbn [res_bind].
  rewrite decide_False.
  2:{ assert (length (filter (λ v, v ∉ cond) marg) < length marg)%nat; [|lia]. clear -H1 H3. induction marg as [|x l IH]; [by apply elem_of_nil in H1|].
    rewrite filter_cons. pose proof (filter_length (λ v, v ∉ cond) l). case_decide; cbn; [|lia].
    apply elem_of_cons in H1 as [->|H1]; [done|]. specialize (IH H1). lia. }
  unfold add_repeated_conditional. destruct (einops_repeat _ _ _ _) as [t|e]; [|by eexists]. cbn [res_bind].
  assert (v ∈ filter (λ v, v ∈ cond) marg) as Hv by (by apply elem_of_list_filter).
  assert (w ∈ filter (λ v, v ∈ cond) marg) as Hw by (by apply elem_of_list_filter).
  destruct (filter (λ v, v ∈ cond) marg) as [|x [|y l]]; [by eexists| |by eexists].
  apply elem_of_list_singleton in Hv, Hw. congruence.
Qed.

(** *** Examples *)
Lemma two_values (D : ddag) (u v : node) : ddag_wf D → u ≠ v → card D u = 2%nat → card D v = 2%nat →
  Forall (λ p : nat * nat, marginal D (list_to_set [u; v]) (<[u := p.1]> (<[v := p.2]> ∅)) ≠ 0) [(0, 0); (0, 1); (1, 0); (1, 1)]%nat →
  ∀ a, in_range D [u; v] a → marginal D (list_to_set [u; v]) a ≠ 0.
Proof.
  intros Hwf Hne Hu Hv H a Ha. rewrite Forall_forall in H. pose proof (Ha u (elem_of_list_here _ _)) as H1. pose proof (Ha v (elem_of_list_further _ _ _ (elem_of_list_here _ _))) as H2.
  rewrite (marginal_agree D [u; v] a (<[u := a !!! u]> (<[v := a !!! v]> ∅))); [|done|].
  - refine (H (a !!! u, a !!! v) _). rewrite Hu in H1. rewrite Hv in H2. destruct (a !!! u) as [|[|n]], (a !!! v) as [|[|m]]; try lia; repeat (first [left; done|right]).
  - intros w Hw. apply elem_of_cons in Hw as [->|Hw]; [by rewrite lookup_total_insert|]. apply elem_of_list_singleton in Hw as ->.
    rewrite lookup_total_insert_ne by done. by rewrite lookup_total_insert.
Qed.
(** The nodes 2 and 0 of [0 -> 1 -> 2] given 0 and 1. *)
Example C124_example :
  (ddag_wf ex_chain ∧ stochastic ex_chain ∧ no_tiny ex_chain) ∧ exact_query ex_chain (table_query oracle0 ex_chain) ∧
  (∀ v, v ∈ [0; 1]%nat → plain ex_chain v) ∧ (∀ a, in_range ex_chain [0; 1]%nat a → marginal ex_chain (list_to_set [0; 1]%nat) a ≠ 0) ∧
  match array_pgmpy (table_query oracle0 ex_chain) ex_chain [2; 0]%nat [0; 1]%nat with
  | Ok t => bool_decide (t_shape t = [2; 2; 2; 2]%nat ∧ t_at t [0; 1; 1; 0]%nat = q10 1 ∧ t_at t [0; 1; 1; 1]%nat = q10 8 ∧ t_at t [1; 0; 0; 1]%nat = q10 2 ∧ t_at t [1; 1; 0; 1]%nat = 0)
  | Raise _ => false end = true.
Proof.
  assert (ddag_wf ex_chain ∧ stochastic ex_chain ∧ no_tiny ex_chain) as (Hwf & Hst & Hti).
  { destruct (check_rows_sound ex_chain) as [? ?]; [apply dag_of_wf|by_vm|by_vm|]. split; [done|]. split; [done|]. apply check_small_sound. by_vm. }
  split; [done|]. split; [by apply C111_query|]. split; [|split].
  - intros v Hv. apply elem_of_cons in Hv as [->|Hv]; [unfold plain; by_vm|]. apply elem_of_list_singleton in Hv as ->. unfold plain; by_vm.
  - apply two_values; [done|done|by_vm|by_vm|]. repeat constructor; intros H; apply (f_equal (λ q, bool_decide (q = 0))) in H; vm_compute in H; done.
  - by_vm.
Qed.
(** The values of a condition are used as the numbers of states: with the alphabet 1, 0 the two rows are exchanged. *)
Definition ex_swap : ddag := DDag (dag_of {[0; 1]}%nat {[(0, 1)]}%nat) [0; 1]%nat
  (list_to_map [(0%nat, ex_tab [4; 6]%Z [2]%nat); (1%nat, ex_tab [1; 9; 8; 2]%Z [2; 2]%nat)])
  (list_to_map [(0, []); (1, [0])]%nat) (list_to_map [(0%nat, [qz 1; qz 0]); (1%nat, [qz 0; qz 1])]).
Theorem C124_states_refuted : ∃ D t t', ddag_wf D ∧ stochastic D ∧ no_tiny D ∧ exact_query D (table_query oracle0 D) ∧
  array_pgmpy (table_query oracle0 D) D [1]%nat [0]%nat = Ok t ∧ get_conditional oracle0 D false [1]%nat [0]%nat = Ok t' ∧
  t_at t [0; 0]%nat = q10 8 ∧ t_at t' [0; 0]%nat = q10 1.
Proof.
  assert (ddag_wf ex_swap ∧ stochastic ex_swap ∧ no_tiny ex_swap) as (Hwf & Hst & Hti).
  { destruct (check_rows_sound ex_swap) as [? ?]; [apply dag_of_wf|by_vm|by_vm|]. split; [done|]. split; [done|]. apply check_small_sound. by_vm. }
  assert (match array_pgmpy (table_query oracle0 ex_swap) ex_swap [1]%nat [0]%nat, get_conditional oracle0 ex_swap false [1]%nat [0]%nat with
    | Ok t, Ok t' => bool_decide (t_at t [0; 0]%nat = q10 8 ∧ t_at t' [0; 0]%nat = q10 1) | _, _ => false end = true) as H by by_vm.
  exists ex_swap. destruct (array_pgmpy (table_query oracle0 ex_swap) ex_swap [1]%nat [0]%nat) as [t|]; [|done].
  destruct (get_conditional oracle0 ex_swap false [1]%nat [0]%nat) as [t'|]; [|done]. apply bool_decide_eq_true in H. exists t, t'.
  split; [done|]. split; [done|]. split; [done|]. split; [by apply C111_query|]. tauto.
Qed.
(** A value that is not an integer is not the name of a state. *)
Theorem C124_half (query : pgm_query) (D : ddag) (marg cond : list node) (v : node) (al : list Qc) (q : Qc) :
  v ∈ cond → dd_alph D !! v = Some al → q ∈ al → (∀ z, q ≠ qz z) → (∀ w, w ∈ cond → default [] (dd_alph D !! w) ≠ []) →
  ∃ e, array_pgmpy query D marg cond = Raise e.
Proof.
  intros Hv Hal Hq Hs%state_no Hne. unfold array_pgmpy. case_decide; [|by eexists].
  assert (∃ x, x ∈ py_product ((λ v, default [] (dd_alph D !! v)) <$> cond) ∧ q ∈ x) as (x & Hx & Hqx).
  { clear -Hv Hal Hq Hne.
    assert (∀ l, (∀ w, w ∈ l → default [] (dd_alph D !! w) ≠ []) → ∃ x, x ∈ py_product ((λ v, default [] (dd_alph D !! v)) <$> l)) as Hany.
    { induction l as [|w l IH]; intros H; [exists []; by left|]. destruct IH as [x Hx]; [intros; apply H; by right|].
      destruct (default [] (dd_alph D !! w)) as [|y al'] eqn:E; [destruct (H w); [by left|done]|]. exists (y :: x). cbn [fmap list_fmap py_product]. rewrite E.
      apply elem_of_list_bind. exists y. split; [|by left]. apply elem_of_list_fmap. by exists x. }
    induction cond as [|w l IH]; [by apply elem_of_nil in Hv|]. apply elem_of_cons in Hv as [<-|Hv].
    - destruct (Hany l) as [x Hx]; [intros; apply Hne; by right|]. exists (q :: x). split; [|by left]. cbn [fmap list_fmap py_product]. rewrite Hal.
      apply elem_of_list_bind. exists q. split; [|done]. apply elem_of_list_fmap. by exists x.
    - destruct IH as (x & Hx & Hqx); [done|intros; apply Hne; by right|]. destruct (default [] (dd_alph D !! w)) as [|y al'] eqn:E; [destruct (Hne w); [by left|done]|].
      exists (y :: x). split; [|by right]. cbn [fmap list_fmap py_product]. rewrite E. apply elem_of_list_bind. exists y. split; [|by left]. apply elem_of_list_fmap. by exists x. }
  destruct (EifRun.loopR_raise (array_step query (filter (λ v, v ∉ cond) marg) cond (shape_of (dd_alph D) (filter (λ v, v ∉ cond) marg))) _ x Hx) with (@nil tensor) as [e He].
  { intros ts. unfold array_step. assert (mapM state x = None) as ->; [|by eexists]. apply mapM_None. apply Exists_exists. by exists q. }
  rewrite He. by eexists.
Qed.
Example C124_half_example :
  let D := DDag (dd_dag ex_swap) (dd_list ex_swap) (dd_cond ex_swap) (dd_par ex_swap) (<[0%nat := [qz 0; qz 1 / qz 2]]> (dd_alph ex_swap)) in
  dd_alph D !! 0%nat = Some [qz 0; qz 1 / qz 2] ∧ (∀ z, qz 1 / qz 2 ≠ qz z) ∧ default [] (dd_alph D !! 0%nat) ≠ [] ∧
  match array_pgmpy (table_query oracle0 D) D [1]%nat [0]%nat with Raise KeyError => true | _ => false end = true.
Proof.
  split; [done|]. split; [|split; [done|by_vm]].
  intros z H. apply (f_equal state) in H. rewrite state_z in H. assert (state (qz 1 / qz 2) = None) as E by (vm_compute; reflexivity). congruence.
Qed.

Print Assumptions C124_array.
Print Assumptions C124_agrees.
Print Assumptions C124_twice.
Print Assumptions C124_states_refuted.
Print Assumptions C124_half.
