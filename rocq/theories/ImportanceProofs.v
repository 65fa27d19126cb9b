(** Proofs about importance sampling. *)
From Coq Require Import QArith.Qcanon Field.
From Verif Require Import Py Spec DagModel QMatModel DiscreteModel DiscreteSampleModel ImportanceModel SpecDiscrete SpecImportance TopoProofs StateProofs ReachProofs QueryProofs CoreProofs MarkovProofs QMatProofs SemProofs PropertiesDag DiscreteProofs DiscreteElim PropertiesDiscrete DiscreteNew PropertiesDiscrete2 SampleProofs PropertiesDiscrete3 SpecEif EifProofs.
#[local] Open Scope Qc_scope.

(** ** Lists of tuples *)
Lemma elem_of_tuples {A} (l : list (list A)) t : t ∈ tuples l ↔ Forall2 (λ x xs, x ∈ xs) t l.
Proof.
  revert t. induction l as [|xs l IH]; intros t; cbn.
  - rewrite elem_of_list_singleton. split; [intros ->; constructor|by intros ->%Forall2_nil_inv_r].
  - rewrite elem_of_list_bind. split.
    + intros (x & Ht & Hx). apply elem_of_list_fmap in Ht as (t' & -> & Ht). constructor; [done|by apply IH].
    + intros H. apply Forall2_cons_inv_r in H as (x & t' & Hx & Ht & ->). exists x. split; [|done]. apply elem_of_list_fmap. exists t'. split; [done|by apply IH].
Qed.
Lemma NoDup_tuples {A} (l : list (list A)) : Forall NoDup l → NoDup (tuples l).
Proof.
  induction 1 as [|xs l Hxs Hl IH]; cbn; [apply NoDup_singleton|]. induction Hxs as [|x xs Hx Hxs IHx]; cbn; [constructor|].
  apply NoDup_app. split_and!.
  - apply (NoDup_fmap_2 (λ t, x :: t)). done.
  - intros t Ht Ht'. apply elem_of_list_fmap in Ht as (t1 & -> & _). apply elem_of_list_bind in Ht' as (y & Hy & Hy').
    apply elem_of_list_fmap in Hy as (t2 & [= -> _] & _). done.
  - done.
Qed.
Lemma tuples_fmap {A B} (f : A → B) (l : list (list A)) : tuples ((λ xs : list A, f <$> xs) <$> l) = (λ t : list A, f <$> t) <$> tuples l.
Proof.
  induction l as [|xs l IH]; cbn; [done|]. rewrite IH. clear IH. induction xs as [|x xs IHx]; cbn; [done|].
  rewrite IHx. rewrite fmap_app. f_equal. rewrite <-!list_fmap_compose. done.
Qed.
Lemma elem_of_indices (shape ks : list nat) : ks ∈ tuples (seq 0 <$> shape) ↔ Forall2 lt ks shape.
Proof.
  rewrite elem_of_tuples, Forall2_fmap_r. split; intros H; (eapply Forall2_impl; [exact H|]); intros k n; cbn; rewrite ?elem_of_seq; lia.
Qed.
Lemma NoDup_indices (shape : list nat) : NoDup (tuples (seq 0 <$> shape)).
Proof. apply NoDup_tuples, Forall_fmap, Forall_forall. intros n _. apply NoDup_seq. Qed.

Lemma rmap_ok {A B} (f : A → res B) (g : A → B) l : (∀ x, x ∈ l → f x = Ok (g x)) → rmap f l = Ok (g <$> l).
Proof.
  induction l as [|x l IH]; intros H; cbn; [done|]. rewrite H by (by left). cbn. rewrite IH; [done|]. intros y Hy. apply H. by right.
Qed.
Lemma qfold_lsum (l : list Qc) : qfold l = lsum_of id l.
Proof. done. Qed.
Lemma lsum_fmap {A B} (f : B → Qc) (g : A → B) l : lsum_of f (g <$> l) = lsum_of (λ x, f (g x)) l.
Proof. unfold lsum_of. induction l as [|x l IH]; cbn; [done|]. by rewrite IH. Qed.
Lemma lsum_add {A} (f g : A → Qc) l : lsum_of (λ x, f x + g x) l = lsum_of f l + lsum_of g l.
Proof. unfold lsum_of. induction l as [|x l IH]; cbn; [ring|]. rewrite IH. ring. Qed.
Lemma lsum_filter {A} (P : A → Prop) `{!∀ x, Decision (P x)} (f : A → Qc) l : lsum_of f (filter P l) = lsum_of (λ x, if decide (P x) then f x else 0) l.
Proof.
  unfold lsum_of. induction l as [|x l IH]; [done|]. rewrite filter_cons. cbn [foldr]. rewrite <-IH. destruct (decide (P x)); cbn [foldr]; [done|ring].
Qed.
Lemma lsum_seq f n : lsum_of f (seq 0 n) = qsum n f.
Proof.
  induction n as [|n IH]; [done|]. rewrite seq_S, lsum_of_app, IH. cbn. unfold lsum_of. cbn. ring.
Qed.
(** Rows by their key. *)
Lemma lsum_keys {A K} `{EqDecision K} (key : A → K) (w : A → Qc) (L : list K) (l : list A) : NoDup L → (∀ x, x ∈ l → key x ∈ L) →
  lsum_of (λ k, lsum_of (λ x, if decide (key x = k) then w x else 0) l) L = lsum_of w l.
Proof.
  intros Hnd. induction l as [|x l IH]; intros H.
  - rewrite lsum_of_zero; [done|]. intros k _. done.
  - transitivity (lsum_of (λ k, (if decide (key x = k) then w x else 0) + lsum_of (λ x, if decide (key x = k) then w x else 0) l) L).
    { apply lsum_of_ext. intros k _. done. }
    rewrite lsum_add, IH by (intros y Hy; apply H; by right). rewrite (lsum_of_one _ L (key x)); [|done|apply H; by left|].
    + by rewrite decide_True.
    + intros k _ Hk. by rewrite decide_False.
Qed.

(** ** The table *)
Lemma this_qz_nat k : this (qz (Z.of_nat k)) = QArith_base.Qmake (Z.of_nat k) 1.
Proof.
  assert (∀ z, (0 <= z)%Z → this (qz z) = QArith_base.Qmake z 1) as H; [|apply H; lia].
  intros [|p|p] Hz; [done| |lia]. assert (Pos.ggcd p 1 = (1, (p, 1))%positive) as Hg by (by destruct p).
  unfold qz, Q2Qc, QArith_base.inject_Z, Qreduction.Qred, Z.ggcd. cbn [this]. by rewrite Hg.
Qed.
Notation qn k := (qz (Z.of_nat k)).
Lemma qn_inj (j k : nat) : qn j = qn k → j = k.
Proof. intros H%(f_equal this). rewrite !this_qz_nat in H. injection H as H. lia. Qed.
Lemma qns_inj (j k : list nat) : (λ k, qn k) <$> j = (λ k, qn k) <$> k → j = k.
Proof.
  revert k. induction j as [|x j IH]; intros [|y k] H; cbn [fmap list_fmap] in H; [done..|].
  assert (qn x = qn y) as H1 by exact (f_equal (λ l, default 0 (head l)) H). assert ((λ k, qn k) <$> j = (λ k, qn k) <$> k) as H2 by exact (f_equal tail H).
  f_equal; [by apply qn_inj|by apply IH].
Qed.
Lemma value_index_nat n k : (k < n)%nat → value_index n (qn k) = Some k.
Proof.
  intros H. unfold value_index. rewrite this_qz_nat. cbn. rewrite decide_True by done. unfold np_index. rewrite decide_True by lia. f_equal. lia.
Qed.
Lemma value_indices_nat shape ks : Forall2 lt ks shape → value_indices shape ((λ k, qn k) <$> ks) = Some ks.
Proof. induction 1 as [|k n ks shape Hk _ IH]; cbn [value_indices fmap list_fmap]; [done|]. rewrite value_index_nat by done. cbn. by rewrite IH. Qed.

Lemma weight_table_ok (marg : list node) (shape : list nat) (rows : list (row * Qc)) (key : row * Qc → list nat) :
  length shape = length marg →
  (∀ r, r ∈ rows → Forall2 lt (key r) shape ∧ (λ v, qz (default 0%Z (r.1 !! v))) <$> marg = (λ k, qn k) <$> key r) →
  ∃ t, weight_table marg ((λ n, (λ k, qn k) <$> seq 0 n) <$> shape) rows = Ok t ∧ t_shape t = shape ∧
    (∀ ks, Forall2 lt ks shape → t_at t ks = lsum_of (λ r, if decide (key r = ks) then r.2 else 0) rows) ∧
    t_total t = lsum_of snd rows.
Proof.
  intros Hlen Hrows. unfold weight_table.
  assert (length <$> ((λ n, (λ k, qn k) <$> seq 0 n) <$> shape) = shape) as Hsh.
  { rewrite <-list_fmap_compose. rewrite <-(list_fmap_id shape) at 2. apply list_fmap_ext. intros i n _. cbn. by rewrite fmap_length, seq_length. }
  rewrite Hsh. replace (tuples ((λ n, (λ k, qn k) <$> seq 0 n) <$> shape)) with ((λ t : list nat, (λ k, qn k) <$> t) <$> tuples (seq 0 <$> shape)); cycle 1.
  { rewrite <-tuples_fmap. f_equal. by rewrite <-list_fmap_compose. }
  set (s := λ ks : list nat, lsum_of (λ r, if decide (key r = ks) then r.2 else 0) rows).
  set (step := λ (mv : list Qc) (t : tensor), _).
  assert (∀ ks t, Forall2 lt ks shape → ∃ t', step ((λ k, qn k) <$> ks) t = Ok t' ∧ t_shape t' = shape ∧ ∀ jx, t_at t' jx = if decide (jx = ks) then s ks else t_at t jx) as Hstep.
  { intros ks t Hks. unfold step. rewrite value_indices_nat by done. eexists. split; [done|]. cbn. split; [done|]. intros jx. destruct (decide (jx = ks)); [|done].
    unfold s. rewrite qfold_lsum, lsum_fmap, lsum_filter. apply lsum_of_ext. intros r Hr. destruct (Hrows r Hr) as [_ ->]. unfold id.
    destruct (decide (key r = ks)) as [->|Hne]; [by rewrite decide_True|]. rewrite decide_False; [done|]. intros H%qns_inj. done. }
  assert (∀ L t, (∀ ks, ks ∈ L → Forall2 lt ks shape) → t_shape t = shape → ∃ t', loopR step ((λ t : list nat, (λ k, qn k) <$> t) <$> L) t = Ok t' ∧ t_shape t' = shape ∧
    ∀ jx, t_at t' jx = if decide (jx ∈ L) then s jx else t_at t jx) as Hloop.
  { induction L as [|ks L IH]; intros t HL Ht.
    - exists t. cbn. split; [done|]. split; [done|]. intros jx. rewrite decide_False; [done|]. apply not_elem_of_nil.
    - destruct (Hstep ks t) as (t1 & E1 & Hs1 & H1); [apply HL; by left|]. destruct (IH t1) as (t2 & E2 & Hs2 & H2); [intros; apply HL; by right|done|].
      exists t2. cbn [fmap list_fmap loopR]. rewrite E1. split; [exact E2|]. split; [done|]. intros jx. rewrite H2, H1.
      destruct (decide (jx ∈ L)) as [Hin|Hin].
      + rewrite decide_True; [done|]. by right.
      + destruct (decide (jx = ks)) as [->|Hne]; [rewrite decide_True; [done|by left]|]. rewrite decide_False; [done|]. by apply not_elem_of_cons. }
  destruct (Hloop (tuples (seq 0 <$> shape)) (Tensor shape (λ _, 0))) as (t & E & Hst & Hat); [intros ks; apply elem_of_indices|done|].
  exists t. split; [exact E|]. split; [done|]. split.
  - intros ks Hks. rewrite Hat. rewrite decide_True by (by apply elem_of_indices). done.
  - unfold t_total. rewrite Hst, qfold_lsum, lsum_fmap. transitivity (lsum_of s (tuples (seq 0 <$> shape))).
    + apply lsum_of_ext. intros ks Hks. unfold id. rewrite Hat. by rewrite decide_True.
    + unfold s. apply (lsum_keys key snd); [apply NoDup_indices|]. intros r Hr. apply elem_of_indices. by apply Hrows.
Qed.

(** ** The rows *)
Section rows.
  Context (D : ddag) (Hwf : ddag_wf D) (Hst : stochastic D) (Hnn : nonneg D) (Hnd : NoDup (dd_list D)).
  Notation N := (d_nodes (dd_dag D)).
  Notation Ar := (d_arcs (dd_dag D)).
  Context (Hl : ∀ v, v ∈ dd_list D ↔ v ∈ N).
  Context (cond : list node) (Hcond : NoDup cond) (Hpos : ∀ v, v ∈ cond → dd_list D !! v = Some v).
  Context (Hplain : ∀ v, v ∈ N → v ∉ cond → (∀ p, (p, v) ∉ Ar) → plain D v).

  Lemma cond_N v : v ∈ cond → v ∈ N.
  Proof using Hl Hpos. intros Hv. apply Hl. eapply elem_of_list_lookup_2. by apply Hpos. Qed.
  Lemma elem_of_drawn v : v ∈ drawn D cond ↔ v ∈ N ∧ v ∉ cond.
  Proof. unfold drawn. rewrite elem_of_list_filter, elem_of_elements. tauto. Qed.
  Lemma drawn_perm : elements N ≡ₚ drawn D cond ++ cond.
  Proof using Hl Hpos Hcond.
    apply NoDup_Permutation; [apply NoDup_elements| |].
    - apply NoDup_app. split_and!; [unfold drawn; apply NoDup_filter, NoDup_elements| |done]. intros v Hv. by apply elem_of_drawn in Hv as [_ ?].
    - intros v. rewrite elem_of_app, elem_of_drawn, elem_of_elements. split.
      + intros Hv. destruct (decide (v ∈ cond)); tauto.
      + intros [[? _]|?]; [done|by apply cond_N].
  Qed.
  Lemma joint_split a : joint D a = weight_of D (drawn D cond) a * weight_of D cond a.
  Proof using Hl Hpos Hcond.
    change (plist D (elements N) a = plist D (drawn D cond) a * plist D cond a). rewrite <-plist_app. apply plist_perm, drawn_perm.
  Qed.
  Lemma outcome_agree c u a b : (∀ v, v ∈ N → a !!! v = b !!! v) → outcome D cond c u a → outcome D cond c u b.
  Proof using Hwf Hl Hpos.
    intros Hab (H1 & H2 & H3). split_and!.
    - intros v Hv. rewrite <-Hab by (by apply elem_of_elements). by apply H1.
    - rewrite <-H2. apply fmap_ext_in. intros v Hv. symmetry. by apply Hab, cond_N.
    - rewrite Forall_forall in H3 |- *. intros v Hv. pose proof Hv as [HvN _]%elem_of_drawn. apply (selects_agree D Hwf (u v) a b); [done|by apply Hab| |by apply H3].
      intros p Hp. apply Hab. by apply (D_over D Hwf p v Hp).
  Qed.
  Lemma outcome_unique c u a b : outcome D cond c u a → outcome D cond c u b → ∀ v, v ∈ N → a !!! v = b !!! v.
  Proof using Hwf Hnn Hl Hpos.
    intros (A1 & A2 & A3) (B1 & B2 & B3). pose proof Hwf as (Hv & Hac & _). apply wf_views_agree in Hv as Hwd.
    destruct (exists_topo N Ar Hac (wf_over _ Hwd)) as [t Ht].
    rewrite Forall_forall in A3, B3. apply (selects_unique D Hwf Hnn u (λ v, v ∈ cond) a b t Ht).
    - intros v Hv'. apply A1, elem_of_elements, Ht, Hv'.
    - intros v Hv'. apply B1, elem_of_elements, Ht, Hv'.
    - intros v _ Hc. unfold vals in *. rewrite <-B2 in A2. clear -A2 Hc. induction cond as [|w l IH]; [by apply elem_of_nil in Hc|].
      injection A2 as E1 E2. apply elem_of_cons in Hc as [->|Hc]; [done|by apply IH].
    - intros v HvN Hn. by apply A3, elem_of_drawn.
    - intros v HvN Hn. by apply B3, elem_of_drawn.
  Qed.

  Lemma row_ok o u c : Forall2 lt c (card D <$> cond) → (∀ v, v ∈ N → v ∉ cond → 0 <= u v ∧ u v < 1) →
    ∃ a w, outcome D cond c u a ∧ weighted_samples o D u (zip cond (Z.of_nat <$> c)) = Ok ((λ v, Z.of_nat (a !!! v)) <$> dd_list D, w) ∧
      row_weight cond w = weight_of D cond a.
  Proof using All.
    intros Hc Hu. assert (length c = length cond) as Hlen by (apply Forall2_length in Hc; by rewrite fmap_length in Hc).
    replace (zip cond (Z.of_nat <$> c)) with ((λ p : node * nat, (p.1, Z.of_nat p.2)) <$> zip cond c); cycle 1.
    { clear. revert c. induction cond as [|v l IH]; intros [|k c]; cbn; [done..|]. by rewrite IH. }
    assert ((zip cond c).*1 = cond) as Hf by (rewrite fst_zip; [done|lia]).
    assert (∀ v k, (v, k) ∈ zip cond c → v ∈ cond) as Hin. { intros v k H. rewrite <-Hf. apply elem_of_list_fmap. by exists (v, k). }
    destruct (C84_weighted_samples o D u (zip cond c)) as (a & w & Ha & E & Hg & Hdom & Hsel); [done..| | | |].
    - by rewrite Hf.
    - intros v k H. split; [|by apply Hpos, (Hin v k)].
      apply elem_of_list_lookup in H as [i H]. apply lookup_zip_with_Some in H as (v' & k' & [= <- <-] & Hv & Hk).
      eapply Forall2_lookup_lr; [exact Hc|exact Hk|]. by rewrite list_lookup_fmap, Hv.
    - intros v HvN Hn. rewrite Hf in Hn. split; [by apply Hplain|by apply Hu].
    - exists a, w. split; [unfold outcome; split_and!|split; [exact E|]].
      + intros v Hv. apply Ha, Hl. by apply elem_of_elements.
      + unfold vals. apply list_eq. intros i. rewrite list_lookup_fmap. destruct (cond !! i) as [v|] eqn:Ev; cbn.
        * destruct (lookup_lt_is_Some_2 c i) as [k Hk]; [rewrite Hlen; by eapply lookup_lt_Some|]. rewrite Hk. f_equal.
          apply (Hg v k). apply elem_of_list_lookup. exists i. apply lookup_zip_with_Some. eauto.
        * apply lookup_ge_None in Ev. symmetry. apply lookup_ge_None. lia.
      + apply Forall_forall. intros v [HvN Hn]%elem_of_drawn. apply Hsel; [done|]. by rewrite Hf.
      + unfold row_weight. rewrite decide_True by done. unfold weight_of.
        assert (∀ v, v ∈ cond → default 0 (w !! v) = prob D a v) as Hw.
        { intros v Hv. rewrite <-Hf in Hv. apply elem_of_list_fmap in Hv as ([x k] & -> & H). destruct (Hg _ _ H) as [_ Hw]. cbn. by rewrite Hw. }
        revert Hw. clear. intros Hw. induction cond as [|v l IH]; cbn; [done|]. rewrite Hw by (by left). f_equal. apply IH. intros x Hx. apply Hw. by right.
  Qed.

  (** ** The sum over points as a sum over assignments *)
  Lemma sum_over_point l g a x : NoDup l → in_range D l a →
    sum_over D l (λ b, if decide (Forall (λ v, b !!! v = a !!! v) l) then g b else 0) x = g (foldl (λ y v, <[v := a !!! v]> y) x l).
  Proof.
    revert x g. induction l as [|v l IH]; intros x g Hnl Ha; cbn.
    - done.
    - apply NoDup_cons in Hnl as [Hv Hnl]. rewrite (qsum_one _ _ (a !!! v)).
      + rewrite <-(IH _ g) by (done || (intros w Hw; apply Ha; by right)). apply sum_over_ext. intros b [Hb _].
        assert (b !!! v = a !!! v) as E by (rewrite Hb by done; by rewrite ins_same).
        destruct (decide (Forall (λ v, b !!! v = a !!! v) l)) as [H|H]; [rewrite decide_True by (by constructor); done|]. rewrite decide_False; [done|]. intros H'%Forall_cons. tauto.
      + apply Ha. by left.
      + intros k _ Hk. rewrite (sum_over_ext D l _ (λ _, 0 * 0)).
        * rewrite (sum_over_scale D l (λ _, 0) 0). ring.
        * intros b [Hb _]. rewrite decide_False; [ring|]. intros [H _]%Forall_cons. rewrite Hb, ins_same in H by done. done.
  Qed.
  Lemma fold_ins (l : list node) (a x : assignment) (v : node) : (foldl (λ y v, <[v := a !!! v]> y) x l : assignment) !!! v = if decide (v ∈ l) then a !!! v else x !!! v.
  Proof.
    revert x. induction l as [|w l IH]; intros x; cbn.
    - rewrite decide_False; [done|]. apply not_elem_of_nil.
    - rewrite IH. destruct (decide (v ∈ l)) as [H|H]; [rewrite decide_True by (by right); done|].
      destruct (decide (v = w)) as [->|Hne]; [rewrite decide_True by (by left); by rewrite ins_same|].
      rewrite decide_False by (by apply not_elem_of_cons). by rewrite ins_other.
  Qed.
  Lemma point_sum c (u : node → Qc) a x f : depends N f → outcome D cond c u a → vals x cond = c →
    f a = sum_over D (drawn D cond) (λ b, f b * (if decide (Forall (λ v, selects D (u v) b v) (drawn D cond)) then 1 else 0)) x.
  Proof using Hwf Hnn Hl Hpos.
    intros Hf Ha Hx. pose proof Ha as (A1 & A2 & A3).
    assert (NoDup (drawn D cond)) as Hndd by (apply NoDup_filter, NoDup_elements).
    assert (in_range D (drawn D cond) a) as Har by (intros v [Hv _]%elem_of_drawn; apply A1; by apply elem_of_elements).
    assert (∀ b : assignment, (∀ v, v ∉ drawn D cond → b !!! v = x !!! v) → ∀ v, v ∈ cond → b !!! v = a !!! v) as Hag.
    { intros b Hb v Hv. rewrite Hb by (rewrite elem_of_drawn; tauto). rewrite <-A2 in Hx. revert Hx Hv. clear. unfold vals. induction cond as [|w l IH]; intros Hx Hv; [by apply elem_of_nil in Hv|].
      injection Hx as E1 E2. apply elem_of_cons in Hv as [->|Hv]; [done|by apply IH]. }
    transitivity (f (foldl (λ y v, <[v := a !!! v]> y) x (drawn D cond))).
    - apply Hf. intros v Hv. rewrite fold_ins. destruct (decide (v ∈ drawn D cond)) as [|Hn]; [done|]. rewrite elem_of_drawn in Hn.
      symmetry. apply (Hag x); [done|]. destruct (decide (v ∈ cond)); tauto.
    - rewrite <-(sum_over_point (drawn D cond) f a x Hndd Har). apply sum_over_ext. intros b [Hb1 Hb2].
      destruct (decide (Forall (λ v, b !!! v = a !!! v) (drawn D cond))) as [H|H].
      + rewrite decide_True; [ring|]. rewrite Forall_forall in H.
        assert (∀ v, v ∈ N → a !!! v = b !!! v) as Hab.
        { intros v Hv. symmetry. destruct (decide (v ∈ cond)); [by apply Hag|]. apply H. by apply elem_of_drawn. }
        by apply (outcome_agree c u a b Hab).
      + rewrite decide_False; [ring|]. intros Hs. apply H. apply Forall_forall. intros v [HvN _]%elem_of_drawn. apply (outcome_unique c u b a); [|done|done].
        split_and!; [| |done].
        * intros w Hw%elem_of_elements. destruct (decide (w ∈ cond)) as [Hwc|Hwc]; [rewrite (Hag b) by done; by apply A1, elem_of_elements|]. apply Hb2. by apply elem_of_drawn.
        * rewrite <-Hx. apply fmap_ext_in. intros w Hw. apply Hb1. rewrite elem_of_drawn. tauto.
  Qed.
  Lemma share_sum (u : nat → node → Qc) (np : nat) (a : nat → assignment) c x h :
    depends N h → (∀ i, (i < np)%nat → outcome D cond c (u i) (a i)) → vals x cond = c → in_range D cond x →
    (∀ b, in_range D (elements N) b → vals b cond = c → exact_share D cond u np b) →
    qsum np (λ i, weight_of D cond (a i) * h (a i)) = qn np * sum_over D (elements (N ∖ list_to_set cond)) (λ b, joint D b * h b) x.
  Proof using Hwf Hst Hnn Hnd Hl Hpos Hcond Hplain.
    intros Hh Ha Hx Hxr Hsh.
    assert (depends N (λ b, weight_of D cond b * h b)) as Hdep.
    { intros b b' Hb. rewrite (Hh b b' Hb). f_equal. change (plist D cond b = plist D cond b'). apply (plist_agree D Hwf).
      - intros v Hv. by apply cond_N.
      - intros v Hv. by apply Hb, cond_N.
      - intros p v Hp _. apply Hb. by apply (D_over D Hwf p v Hp). }
    set (S := λ b i, if decide (Forall (λ v, selects D (u i v) b v) (drawn D cond)) then 1 else 0 : Qc).
    transitivity (qsum np (λ i, sum_over D (drawn D cond) (λ b, weight_of D cond b * h b * S b i) x)).
    { apply qsum_ext. intros i Hi. apply (point_sum c (u i) (a i) x (λ b, weight_of D cond b * h b) Hdep); [by apply Ha|done]. }
    assert (∀ l y, qsum np (λ i, sum_over D l (λ b, weight_of D cond b * h b * S b i) y) = sum_over D l (λ b, qsum np (λ i, weight_of D cond b * h b * S b i)) y) as Hswap.
    { induction l as [|v l IH]; intros y; cbn; [done|]. rewrite qsum_swap. apply qsum_ext. intros k _. apply IH. }
    rewrite Hswap. rewrite <-sum_over_scale. rewrite (sum_over_perm D (elements (N ∖ list_to_set cond)) (drawn D cond)); [|apply NoDup_elements|].
    - apply sum_over_ext. intros b [Hb1 Hb2]. rewrite qsum_mul_l. unfold S. rewrite (Hsh b).
      + rewrite joint_split. ring.
      + intros w Hw%elem_of_elements. destruct (decide (w ∈ cond)) as [Hwc|Hwc].
        * rewrite Hb1 by (rewrite elem_of_drawn; tauto). by apply Hxr.
        * apply Hb2. by apply elem_of_drawn.
      + rewrite <-Hx. apply fmap_ext_in. intros w Hw. apply Hb1. rewrite elem_of_drawn. tauto.
    - apply NoDup_Permutation; [apply NoDup_elements|apply NoDup_filter, NoDup_elements|]. intros v. rewrite elem_of_drawn, elem_of_elements, elem_of_difference, elem_of_list_to_set. done.
  Qed.
End rows.
