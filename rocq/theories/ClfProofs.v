(** Proofs about fitting with classifiers. *)
From Coq Require Import QArith.Qcanon.
From Verif Require Import Py Spec DagModel QMatModel DiscreteModel DiscreteSampleModel DiscreteFitModel PgmModel ClfModel SpecDiscrete SpecFit SpecClf TopoProofs StateProofs ReachProofs QueryProofs CoreProofs MarkovProofs QMatProofs
  PropertiesDag DiscreteProofs SampleProofs QcTac FitProofs PropertiesPgm.
#[local] Open Scope Qc_scope.

(** ** Products of lists *)
Lemma bind_lookup {A B} (f : A → list B) n l : (∀ x, x ∈ l → length (f x) = n) → ∀ i j x, l !! i = Some x → (j < n)%nat → (l ≫= f) !! (i * n + j)%nat = f x !! j.
Proof.
  induction l as [|y l IH]; intros Hl i j x Hi Hj; [done|]. assert (length (f y) = n) as Hy by (apply Hl; by left).
  change ((y :: l) ≫= f) with (f y ++ (l ≫= f)). destruct i as [|i]; cbn in Hi.
  - injection Hi as ->. cbn. apply lookup_app_l. lia.
  - rewrite lookup_app_r by (rewrite Hy; nia). rewrite Hy. replace (S i * n + j - n)%nat with (i * n + j)%nat by nia. apply IH; [|done|done]. intros z Hz. apply Hl. by right.
Qed.
Lemma bind_length {A B} (f : A → list B) n l : (∀ x, x ∈ l → length (f x) = n) → length (l ≫= f) = (length l * n)%nat.
Proof.
  induction l as [|y l IH]; intros Hl; [done|]. change ((y :: l) ≫= f) with (f y ++ (l ≫= f)). rewrite app_length, IH by (intros; apply Hl; by right). rewrite Hl by (by left). done.
Qed.
Lemma py_product_length ls : length (py_product ls) = volume (length <$> ls).
Proof.
  induction ls as [|l ls IH]; [done|]. cbn [py_product fmap list_fmap volume foldr]. rewrite (bind_length _ (volume (length <$> ls))); [done|].
  intros x _. by rewrite fmap_length, IH.
Qed.
Lemma py_product_lookup ls ix xs : Forall3 (λ l i x, l !! i = Some x) ls ix xs → py_product ls !! ravel (length <$> ls) ix = Some xs.
Proof.
  induction 1 as [|l i x ls ix xs Hx H IH]; [done|]. cbn [py_product fmap list_fmap ravel].
  assert (Forall2 lt ix (length <$> ls)) as Hlt. { clear -H. induction H as [|??? ??? Hx _ IH]; cbn; constructor; [by eapply lookup_lt_Some|done]. }
  rewrite (bind_lookup _ (volume (length <$> ls)) _) with (x := x); [|intros y _; by rewrite fmap_length, py_product_length|done|by apply ravel_lt].
  rewrite list_lookup_fmap. by rewrite IH.
Qed.

(** ** Places of classes *)
Lemma last_pos_None js j : j ∉ js → last_pos js j = None.
Proof. induction js as [|i js IH]; [done|]. rewrite not_elem_of_cons. intros [H1 H2]. cbn. rewrite IH by done. by rewrite decide_False. Qed.
Lemma last_pos_Some js j k : NoDup js → js !! k = Some j → last_pos js j = Some k.
Proof.
  revert k. induction js as [|i js IH]; intros k Hnd Hk; [done|]. apply NoDup_cons in Hnd as [Hi Hnd]. destruct k as [|k]; cbn in Hk |- *.
  - injection Hk as ->. rewrite last_pos_None by done. by rewrite decide_True.
  - by rewrite (IH k).
Qed.
Lemma sorted_NoDup (zs : list Z) : StronglySorted Z.lt zs → NoDup zs.
Proof. induction 1 as [|z zs _ IH H]; constructor; [|done]. intros Hz. rewrite Forall_forall in H. specialize (H z Hz). lia. Qed.
Lemma sorted_unique (zs ys : list Z) : StronglySorted Z.lt zs → StronglySorted Z.lt ys → (∀ z, z ∈ zs ↔ z ∈ ys) → zs = ys.
Proof.
  intros Hz. revert ys. induction Hz as [|z zs Hzs IH Hz]; intros ys Hy H.
  - destruct ys as [|y ys]; [done|]. assert (y ∈ []) as Hn by (apply H; by left). by apply elem_of_nil in Hn.
  - destruct Hy as [|y ys Hys Hy]; [assert (z ∈ []) as Hn by (apply H; by left); by apply elem_of_nil in Hn|]. rewrite Forall_forall in Hz, Hy.
    assert (z = y) as ->.
    { assert (z ∈ y :: ys) as [?|Hzy]%elem_of_cons by (apply H; by left); [done|]. assert (y ∈ z :: zs) as [?|Hyz]%elem_of_cons by (apply H; by left); [done|]. specialize (Hz _ Hyz). specialize (Hy _ Hzy). lia. }
    f_equal. apply IH; [done|]. intros x. specialize (H x). rewrite !elem_of_cons in H. split; intros Hx.
    + destruct H as [H _]. destruct H as [->|?]; [by right| |done]. specialize (Hz _ Hx). lia.
    + destruct H as [_ H]. destruct H as [->|?]; [by right| |done]. specialize (Hy _ Hx). lia.
Qed.
Lemma seq_sorted k : ∀ s, StronglySorted Z.lt (Z.of_nat <$> seq s k).
Proof.
  induction k as [|k IH]; intros s; cbn; constructor; [apply IH|]. apply Forall_forall. intros z (j & -> & Hj%elem_of_seq)%elem_of_list_fmap. lia.
Qed.
(** As many classes as values [0, 1, ...]. *)
Lemma classes_full (zs : list Z) k : StronglySorted Z.lt zs → (∀ z, z ∈ zs → (0 <= z < Z.of_nat k)%Z) → length zs = k → zs = Z.of_nat <$> seq 0 k.
Proof.
  intros Hs Hr Hl. apply sorted_unique; [done|apply seq_sorted|].
  assert (zs ≡ₚ Z.of_nat <$> seq 0 k) as Hp; [|intros z; by rewrite Hp].
  assert (zs ⊆+ Z.of_nat <$> seq 0 k) as Hsub.
  { apply NoDup_submseteq; [by apply sorted_NoDup|]. intros z Hz. specialize (Hr z Hz). apply elem_of_list_fmap. exists (Z.to_nat z). split; [lia|]. apply elem_of_seq. lia. }
  apply submseteq_Permutation_length_eq; [|done]. rewrite fmap_length, seq_length. lia.
Qed.

(** ** Probabilities of labels *)
Lemma foldr_asum {A} (f : A → Qc) l : foldr Qcplus 0 (f <$> l) = asum l f.
Proof. induction l as [|x l IH]; [done|]. cbn. by rewrite IH. Qed.
Lemma asum_filter {A} (P : A → Prop) `{!∀ x, Decision (P x)} (f : A → Qc) l : asum (filter P l) f = asum l (λ x, if decide (P x) then f x else 0).
Proof. induction l as [|x l IH]; [done|]. rewrite filter_cons. cbn. case_decide; cbn; rewrite IH; ring. Qed.
Lemma asum_one {A} `{EqDecision A} (l : list A) (x : A) c : NoDup l → x ∈ l → asum l (λ y, if decide (x = y) then c else 0) = c.
Proof.
  induction l as [|z l IH]; intros Hnd Hx; [by apply elem_of_nil in Hx|]. apply NoDup_cons in Hnd as [Hz Hnd]. cbn. apply elem_of_cons in Hx as [->|Hx].
  - rewrite decide_True by done. transitivity (c + asum l (λ _, 0)); [f_equal; apply asum_ext; intros y Hy; rewrite decide_False; [done|by intros ->]|]. rewrite asum_const. ring.
  - rewrite decide_False by (by intros ->). rewrite IH by done. ring.
Qed.
Lemma mass {A} (al : list Qc) (l : list A) (val wt : A → Qc) : NoDup al → (∀ x, x ∈ l → val x ∈ al) →
  asum al (λ q, asum l (λ x, if decide (val x = q) then wt x else 0)) = asum l wt.
Proof. intros Hnd Hv. rewrite asum_swap. apply asum_ext. intros x Hx. apply asum_one; [done|by apply Hv]. Qed.
Lemma asum_lookup (al : list Qc) f : asum al f = qsum (length al) (λ k, f (default 0 (al !! k))).
Proof. rewrite <-foldr_asum. change (foldr Qcplus 0) with qfold. rewrite <-qfold_seq. f_equal. apply list_eq. intros i. rewrite !list_lookup_fmap.
  destruct (al !! i) as [x|] eqn:E.
  - rewrite lookup_seq_lt by (by eapply lookup_lt_Some). cbn. by rewrite E.
  - rewrite lookup_seq_ge; [done|]. by apply lookup_ge_None. Qed.
Lemma clf_prob_asum c x q : clf_prob c x q = asum (zip (cl_classes c) (cl_proba c x)) (λ zp, if decide (qz zp.1 = q) then zp.2 else 0).
Proof. unfold clf_prob. by rewrite foldr_asum, asum_filter. Qed.
Lemma clf_prob_none c x q : (∀ z, z ∈ cl_classes c → qz z ≠ q) → clf_prob c x q = 0.
Proof.
  intros H. rewrite clf_prob_asum. transitivity (asum (zip (cl_classes c) (cl_proba c x)) (λ _, 0)); [|rewrite asum_const; ring].
  apply asum_ext. intros [z p] Hz%elem_of_zip_l. rewrite decide_False; [done|]. by apply H.
Qed.
Lemma clf_prob_at c x k z p : NoDup (cl_classes c) → cl_classes c !! k = Some z → cl_proba c x !! k = Some p → clf_prob c x (qz z) = p.
Proof.
  unfold clf_prob. generalize (cl_proba c x). induction (cl_classes c) as [|y l IH] in k |- *; intros ps Hnd Hk Hp; [done|]. destruct ps as [|q ps]; [done|].
  apply NoDup_cons in Hnd as [Hy Hnd]. cbn [zip zip_with]. rewrite filter_cons. cbn [fst]. destruct k as [|k]; cbn in Hk, Hp.
  - injection Hk as ->. injection Hp as ->. rewrite decide_True by done. cbn. assert (filter (λ zp : Z * Qc, qz zp.1 = qz z) (zip l ps) = []) as ->; [|cbn; ring].
    apply elem_of_nil_inv. intros [y q] [Hq Hin%elem_of_zip_l]%elem_of_list_filter. cbn in Hq. apply qz_inj in Hq as ->. done.
  - rewrite decide_False; [by apply (IH k)|]. intros E%qz_inj. subst y. destruct Hy. by eapply elem_of_list_lookup_2.
Qed.

(** ** One node *)
Section node.
  Context (train : list (list Z) → list Z → res clf) (d : dag) (w : nat) (data : list row) (m : gmap node (list node)) (al : gmap node (list Qc)).
  Context (Htr : learns train) (Hwf : wf d) (Ht : table_for d w data) (Hm : parents_listed d m) (Hal : alphabets_fit d al data).
  Local Notation N := (d_nodes d).
  Definition labels (v : node) : list Z := (λ r, cell r v) <$> data.
  Lemma column_labels v : v ∈ N → column data v = labels v.
  Proof using Ht.
    intros Hv. destruct Ht as (_ & Hw & Hr). specialize (Hw v Hv). unfold column, labels. clear -Hr Hw. induction data as [|r l IH]; [done|]. cbn.
    assert (length r = w) as Hlr by (apply Hr; by left). destruct (lookup_lt_is_Some_2 r v) as [z Hz]; [lia|]. rewrite Hz. rewrite (cell_lookup r v z Hz). f_equal. apply IH. intros r' Hr'. apply Hr. by right.
  Qed.
  Lemma one_label v : length (remove_dups (labels v)) = 1%nat ↔ ∀ z, z ∈ labels v → z = default 0%Z (head (labels v)).
  Proof using Ht.
    assert (labels v ≠ []) as Hne by (destruct Ht as (Hne & _); unfold labels; by intros ?%fmap_nil_inv).
    destruct (labels v) as [|y l] eqn:E; [done|]. cbn [head default from_option]. unfold id. split.
    - intros H z Hz. destruct (remove_dups (y :: l)) as [|x [|x' k]] eqn:Er; [done| |done].
      assert (∀ u, u ∈ y :: l → u = x) as Hu. { intros u Hu. rewrite <-elem_of_remove_dups, Er in Hu. by apply elem_of_list_singleton in Hu. }
      rewrite (Hu z Hz). symmetry. apply Hu. by left.
    - intros H. assert (remove_dups (y :: l) ≡ₚ [y]) as Hp; [|by rewrite Hp]. apply NoDup_Permutation; [apply NoDup_remove_dups|apply NoDup_singleton|].
      intros u. rewrite elem_of_remove_dups, elem_of_list_singleton. split; [apply H|]. intros ->. by left.
  Qed.
  Lemma two_labels v : length (remove_dups (labels v)) ≠ 1%nat → ∃ s t, s ∈ labels v ∧ t ∈ labels v ∧ s ≠ t.
  Proof using Ht.
    intros H. destruct (decide (Exists (λ z, z ≠ default 0%Z (head (labels v))) (labels v))) as [(z & Hz & Hn)%Exists_exists|Hn].
    - exists z, (default 0%Z (head (labels v))). split; [done|]. split; [|done]. clear H Hn. destruct (labels v) as [|y l]; [by apply elem_of_nil in Hz|]. by left.
    - destruct H. apply one_label. intros z Hz. destruct (decide (z = default 0%Z (head (labels v)))) as [?|Hne]; [done|]. destruct Hn. apply Exists_exists. by exists z.
  Qed.
  Definition node_prob (ps : list node) (v : node) (x : list Qc) (q : Qc) : Qc :=
    if decide (ps = []) then qn (length (filter (λ z, qz z = q) (labels v))) / qn (length data)
    else if decide (length (remove_dups (labels v)) = 1%nat) then (if decide (qz (default 0%Z (head (labels v))) = q) then 1 else 0)
    else match train ((λ r : row, cell r <$> (ps : list node)) <$> data) (labels v) with Ok c => clf_prob c x q | Raise _ => 0 end.
  Lemma labels_in v l : v ∈ N → al !! v = Some l → ∀ z, z ∈ labels v → qz z ∈ l.
  Proof using Ht Hal. intros Hv Hl z Hz. destruct (Hal v Hv) as (l' & Hl' & _ & H & _). assert (l' = l) as -> by congruence. apply H. by rewrite column_labels. Qed.
  Lemma labels_head v : default 0%Z (head (labels v)) ∈ labels v.
  Proof using Ht. destruct Ht as (Hne & _). unfold labels. clear -Hne. destruct data as [|r k]; [done|]. by left. Qed.
  Lemma trained ps v : length (remove_dups (labels v)) ≠ 1%nat → ∃ c, train ((λ r : row, cell r <$> (ps : list node)) <$> data) (labels v) = Ok c ∧ StronglySorted Z.lt (cl_classes c) ∧ (∀ z, z ∈ cl_classes c ↔ z ∈ labels v) ∧
    ∀ x, length (cl_proba c x) = length (cl_classes c) ∧ Forall (λ p, 0 <= p) (cl_proba c x) ∧ foldr Qcplus 0 (cl_proba c x) = 1.
  Proof using Htr Ht. intros H. apply Htr; [unfold labels; by rewrite !fmap_length|by apply two_labels]. Qed.
  Lemma asum_zip_snd {A} (zs : list A) (ps : list Qc) : length ps = length zs → asum (zip zs ps) snd = foldr Qcplus 0 ps.
  Proof. revert ps. induction zs as [|z zs IH]; intros [|p ps] H; try done. cbn. f_equal. apply IH. cbn in H. lia. Qed.
  Lemma node_mass ps v l x : v ∈ N → al !! v = Some l → qsum (length l) (λ k, node_prob ps v x (default 0 (l !! k))) = 1.
  Proof using Htr Ht Hal.
    intros Hv Hl. rewrite <-(asum_lookup l (node_prob ps v x)). assert (NoDup l) as Hnd by (destruct (Hal v Hv) as (l' & Hl' & H & _); congruence). pose proof (labels_in v l Hv Hl) as Hin.
    unfold node_prob. case_decide as Hps.
    - transitivity (asum l (λ q, / qn (length data) * asum (labels v) (λ z, if decide (qz z = q) then 1 else 0))).
      { apply asum_ext. intros q _. rewrite (asum_if (labels v) (λ z, qz z = q)). unfold Qcdiv. ring. }
      rewrite asum_mul_l, mass by done. rewrite asum_const. unfold labels. rewrite fmap_length. assert (qn (length data) ≠ 0) as Hne.
      { destruct Ht as (Hne & _). intros E. apply (qz_inj _ 0%Z) in E. clear -Hne E. destruct data; [done|]. cbn in E. lia. }
      transitivity (qn (length data) * / qn (length data)); [ring|by apply Qcmult_inv_r].
    - case_decide as H1.
      + apply asum_one; [done|]. apply Hin, labels_head.
      + destruct (trained ps v H1) as (c & -> & Hs & Hc & Hp). destruct (Hp x) as (Hlen & _ & Hsum).
        transitivity (asum l (λ q, asum (zip (cl_classes c) (cl_proba c x)) (λ zp, if decide (qz zp.1 = q) then zp.2 else 0))); [apply asum_ext; intros; apply clf_prob_asum|].
        rewrite (mass l (zip (cl_classes c) (cl_proba c x)) (λ zp, qz zp.1) snd Hnd).
        * by rewrite asum_zip_snd.
        * intros [z p] Hz%elem_of_zip_l. by apply Hin, Hc.
  Qed.
  Lemma node_nonneg ps v x q : 0 <= node_prob ps v x q.
  Proof using Htr Ht.
    unfold node_prob. case_decide.
    - pose proof (qn_nonneg (length (filter (λ z, qz z = q) (labels v)))) as P1. assert (0 < qn (length data)) as P2. { apply qn_pos. destruct Ht as (Hne & _). clear -Hne. destruct data; [done|cbn; lia]. }
      apply Qc_inv_pos' in P2. unfold Qcdiv. set (u := / _) in *. set (z := qn (length (filter _ _))) in *. clearbody u z. qnra.
    - case_decide as H1; [case_decide; [by apply Qclt_le_weak|apply Qcle_refl]|]. destruct (trained ps v H1) as (c & -> & _ & _ & Hp). rewrite clf_prob_asum. apply asum_nonneg. intros [z p] Hz.
      case_decide; [|apply Qcle_refl]. destruct (Hp x) as (_ & H2 & _). rewrite Forall_forall in H2. apply H2. cbn. by eapply elem_of_zip_r.
  Qed.
  Definition val_in (a : assignment) (v : node) : Qc := default 0 (default [] (al !! v) !! (a !!! v)).
  Lemma par_N' v ps p : m !! v = Some ps → p ∈ ps → p ∈ N.
  Proof using Hwf Hm. intros H Hp. destruct Hm as [_ Hm']. apply (Hm' v ps H) in Hp. by apply (wf_over _ Hwf) in Hp as [? _]. Qed.
  Lemma filter_labels v q : length (filter (λ z, qz z = q) (labels v)) = length (filter (λ r, qz (cell r v) = q) data).
  Proof. unfold labels. clear. induction data as [|r k IH]; [done|]. cbn [fmap list_fmap]. rewrite !filter_cons. case_decide; cbn [length]; by rewrite <-IH. Qed.
  Lemma counts_sum v l : v ∈ N → al !! v = Some l → qfold (gc_counts data v l) = qn (length data).
  Proof using Ht Hal.
    intros Hv Hl. assert (NoDup l) as Hnd by (destruct (Hal v Hv) as (l' & Hl' & H & _); congruence). pose proof (labels_in v l Hv Hl) as Hin. unfold gc_counts.
    change qfold with (foldr Qcplus 0). rewrite foldr_asum.
    transitivity (asum l (λ q, asum (labels v) (λ z, if decide (qz z = q) then 1 else 0))).
    { apply asum_ext. intros q _. rewrite (asum_if (labels v) (λ z, qz z = q)). rewrite filter_labels. ring. }
    rewrite mass by done. rewrite asum_const. unfold labels. rewrite fmap_length. ring.
  Qed.
  Lemma volume_pos sh : Forall (lt 0) sh → (0 < volume sh)%nat.
  Proof. induction 1 as [|n sh Hn _ IH]; cbn; [lia|]. fold (volume sh). nia. Qed.
  Lemma al_nonempty p : p ∈ N → (0 < length (default [] (al !! p)))%nat.
  Proof using Ht Hal.
    intros Hp. destruct (Hal p Hp) as (l & Hl & _). rewrite Hl. cbn. pose proof (labels_in p l Hp Hl _ (labels_head p)) as H. destruct l; [by apply elem_of_nil in H|cbn; lia].
  Qed.
  Lemma clf_table_spec v ps l : v ∈ N → m !! v = Some ps → al !! v = Some l → ∃ c, clf_table train w data m al v = Ok c ∧ t_shape c = shape_of al (ps ++ [v]) ∧
    ∀ a : assignment, (∀ p, p ∈ ps ++ [v] → (a !!! p < length (default [] (al !! p)))%nat) → t_at c (vals a (ps ++ [v])) = node_prob ps v (val_in a <$> ps) (val_in a v).
  Proof using Htr Hwf Ht Hm Hal.
    intros Hv Hps Hl. pose proof (labels_in v l Hv Hl) as Hin. assert (v < w)%nat as Hvw by (destruct Ht as (_ & H & _); by apply H).
    assert (∀ p, p ∈ ps → p ∈ N) as HpN by (intros p; by apply (par_N' v)).
    destruct (Hal v Hv) as (l' & Hl' & Hnd & _ & Hform). assert (l' = l) as -> by congruence. clear Hl'.
    assert (∀ a : assignment, (∀ p, p ∈ ps ++ [v] → (a !!! p < length (default [] (al !! p)))%nat) → l !! (a !!! v) = Some (val_in a v)) as Hval.
    { intros a Ha. specialize (Ha v ltac:(apply elem_of_app; right; by left)). unfold val_in. rewrite Hl in *. cbn in *. destruct (lookup_lt_is_Some_2 l (a !!! v)) as [q Hq]; [done|]. by rewrite Hq. }
    assert (∀ a : assignment, last (vals a (ps ++ [v])) = Some (a !!! v)) as Hlast by (intros a; rewrite vals_app; apply last_snoc).
    unfold clf_table. rewrite Hps, Hl. unfold node_prob. destruct (decide (ps = [])) as [->|Hne].
    - unfold gc_base. rewrite decide_True by done. eexists. split; [done|]. cbn [t_shape t_at]. split; [cbn; by rewrite Hl|]. intros a Ha.
      rewrite (list_fmap_ext _ id (gc_counts data v l)) by done. rewrite list_fmap_id, (counts_sum v l Hv Hl). cbn. unfold gc_counts. rewrite list_lookup_fmap, (Hval a Ha). cbn. by rewrite filter_labels.
    - rewrite decide_True by (apply Forall_forall; intros p Hp%HpN; destruct (Hal p Hp) as (? & -> & _); by eexists). rewrite decide_True by done. cbv zeta. change ((λ r, cell r v) <$> data) with (labels v).
      assert (∀ n, n = length l → (length <$> ((λ p, default [] (al !! p)) <$> ps)) ++ [n] = shape_of al (ps ++ [v])) as Hshape.
      { intros n ->. unfold shape_of. rewrite fmap_app, <-list_fmap_compose. cbn. by rewrite Hl. }
      case_decide as H1.
      + unfold indicator_conditional. assert (qz (default 0%Z (head (labels v))) ∈ l) as Hq by apply Hin, labels_head. rewrite decide_True by done. eexists. split; [done|]. cbn [t_shape t_at]. split; [by apply Hshape|].
        intros a Ha. rewrite Hlast. cbn [from_option id]. specialize (Hval a Ha). set (q := qz _) in *. destruct (decide (q = val_in a v)) as [E|E].
        * rewrite decide_True; [done|]. symmetry. apply pos_unique; [done|]. by rewrite E.
        * rewrite decide_False; [done|]. intros E'. apply E. apply pos_lookup in Hq. rewrite <-E' in Hq. congruence.
      + rewrite decide_True by (apply Forall_forall; intros p Hp%HpN; destruct Ht as (_ & H & _); by apply H).
        destruct (trained ps v H1) as (c & -> & Hs & Hc & Hp). cbn [res_bind]. unfold extract_conditional.
        set (alphs := (λ p, default [] (al !! p)) <$> ps) in *.
        assert (py_product alphs ≠ []) as Hpne.
        { intros E. apply (f_equal length) in E. rewrite py_product_length in E. assert (0 < volume (length <$> alphs))%nat as Hpos; [|cbn in E; lia].
          apply volume_pos, Forall_forall. intros n (al' & -> & (p & -> & Hpp)%elem_of_list_fmap)%elem_of_list_fmap. apply al_nonempty. by apply HpN. }
        rewrite decide_False by done. cbv zeta.
        assert (∀ a : assignment, (∀ p, p ∈ ps ++ [v] → (a !!! p < length (default [] (al !! p)))%nat) →
          py_product alphs !! ravel (length <$> alphs) (take (length (length <$> alphs)) (vals a (ps ++ [v]))) = Some (val_in a <$> ps)) as Hx.
        { intros a Ha. rewrite vals_app, take_app_alt by (unfold vals, alphs; by rewrite !fmap_length). apply py_product_lookup. unfold alphs, vals.
          assert (∀ p, p ∈ ps → (a !!! p < length (default [] (al !! p)))%nat) as Ha' by (intros p Hpp; apply Ha, elem_of_app; by left).
          clear -Ha'. induction ps as [|p k IH]; [constructor|]. cbn. constructor; [|apply IH; intros q Hq; apply Ha'; by right]. unfold val_in.
          destruct (lookup_lt_is_Some_2 (default [] (al !! p)) (a !!! p)) as [x Hx]; [apply Ha'; by left|]. by rewrite Hx. }
        assert (cl_classes c ≠ [] ∧ NoDup (cl_classes c)) as [_ Hcnd]. { split; [|by apply sorted_NoDup]. intros E. pose proof (labels_head v) as H. apply Hc in H. rewrite E in H. by apply elem_of_nil in H. }
        assert (length (cl_classes c) = length l → l = qz <$> cl_classes c) as Hfull.
        { intros E. destruct Hform as [H|[(k & ->)|(zs & -> & Hzs & Hz)]].
          - destruct ps as [|p k]; [done|]. destruct Hm as [_ Hm']. destruct (H p). apply (Hm' v (p :: k)); [done|by left].
          - rewrite fmap_length, seq_length in E. rewrite (classes_full _ k Hs); [by rewrite <-list_fmap_compose| |done].
            intros z Hz%Hc%Hin. apply elem_of_list_fmap in Hz as (j & Hj%qz_inj & Hz%elem_of_seq). lia.
          - f_equal. apply sorted_unique; [done|done|]. intros z. rewrite Hc. split; [intros H%Hz; by rewrite column_labels in H|]. intros H%Hin. apply elem_of_list_fmap in H as (y & Hy%qz_inj & ?). by subst y. }
        case_decide as Hn.
        * eexists. split; [done|]. cbn [t_shape t_at]. split; [by apply Hshape|]. intros a Ha. rewrite Hx by done. rewrite Hlast. cbn [from_option id]. specialize (Hfull Hn).
          pose proof (Hval a Ha) as Hl2. rewrite Hfull, list_lookup_fmap in Hl2. destruct (cl_classes c !! (a !!! v)) as [z|] eqn:Ez; [|done]. cbn in Hl2. injection Hl2 as <-.
          destruct (Hp (val_in a <$> ps)) as (Hlen & _). destruct (lookup_lt_is_Some_2 (cl_proba c (val_in a <$> ps)) (a !!! v)) as [p Hpp]; [rewrite Hlen; by eapply lookup_lt_Some|].
          rewrite Hpp. symmetry. by apply (clf_prob_at c _ (a !!! v)).
        * destruct Hform as [H|[(k & Hk)|(zs & -> & Hzs & Hz)]].
          { destruct ps as [|p k]; [done|]. destruct Hm as [_ Hm']. destruct (H p). apply (Hm' v (p :: k)); [done|by left]. }
          2:{ destruct Hn. rewrite fmap_length. f_equal. apply sorted_unique; [done|done|]. intros z. rewrite Hc. split; [|intros H%Hz; by rewrite column_labels in H]. intros H%Hin. apply elem_of_list_fmap in H as (y & Hy%qz_inj & ?). by subst y. }
          assert (length l = k) as Hlk by (rewrite Hk; by rewrite fmap_length, seq_length).
          assert (∀ z, z ∈ cl_classes c → (0 <= z < Z.of_nat k)%Z) as Hrange.
          { intros z Hz%Hc%Hin. rewrite Hk in Hz. apply elem_of_list_fmap in Hz as (j & Hj%qz_inj & Hz%elem_of_seq). lia. }
          assert (mapM (np_index (length l)) (cl_classes c) = Some (Z.to_nat <$> cl_classes c)) as ->.
          { apply mapM_Some. rewrite Hlk. clear -Hrange. induction (cl_classes c) as [|z zs IH]; [constructor|]. cbn. constructor; [|apply IH; intros; apply Hrange; by right].
            unfold np_index. by rewrite decide_True by (apply Hrange; by left). }
          eexists. split; [done|]. cbn [t_shape t_at]. split; [by apply Hshape|]. intros a Ha. rewrite Hlast. cbn [from_option id].
          assert (val_in a v = qz (Z.of_nat (a !!! v))) as Hva. { pose proof (Hval a Ha) as H. rewrite Hk in H. apply list_lookup_fmap_Some in H as (j & Hj & ->). apply lookup_seq in Hj as [-> _]. done. }
          destruct (decide (Z.of_nat (a !!! v) ∈ cl_classes c)) as [Hi|Hi].
          -- apply elem_of_list_lookup in Hi as [i Hi]. rewrite (last_pos_Some _ _ i).
             ++ rewrite Hx by done. cbn [from_option id]. rewrite Hva. destruct (Hp (val_in a <$> ps)) as (Hlen & _). destruct (lookup_lt_is_Some_2 (cl_proba c (val_in a <$> ps)) i) as [p Hpp]; [rewrite Hlen; by eapply lookup_lt_Some|].
                rewrite Hpp. symmetry. by apply (clf_prob_at c _ i).
             ++ apply NoDup_fmap_2_strong; [|done]. intros x y Hxx%Hrange Hyy%Hrange. lia.
             ++ rewrite list_lookup_fmap, Hi. cbn. by rewrite Nat2Z.id.
          -- rewrite last_pos_None, clf_prob_none; [done| |].
             ++ intros z Hz. rewrite Hva. intros E%qz_inj. by subst z.
             ++ intros (z & E & Hz)%elem_of_list_fmap. apply Hi. rewrite E, Z2Nat.id by (by apply Hrange). done.
  Qed.
End node.
