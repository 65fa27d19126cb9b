(** The inverse of a submatrix is a Schur complement; the coefficients of a regression. *)
From Coq Require Import QArith.Qcanon Field.
From Verif Require Import Py Spec SpecLin DagModel UGraphModel QMatModel GaussModel GaussLinModel QMatProofs LinProofs SemProofs InvProofs PartialProofs.
#[local] Open Scope Qc_scope.

(** Products of matrices of any shape. *)
Lemma rmul_assoc k q A B C a b : mmul q (mmul k A B) C a b = mmul k A (mmul q B C) a b.
Proof.
  unfold mmul. transitivity (qsum q (λ x, qsum k (λ y, A a y * B y x * C x b))). { apply qsum_ext. intros x _. by rewrite <-qsum_mul_r. }
  rewrite qsum_swap. apply qsum_ext. intros y _. rewrite <-qsum_mul_l. apply qsum_ext. intros x _. ring.
Qed.
Lemma rmul_ext_r k A B B' a b : (∀ x, (x < k)%nat → B x b = B' x b) → mmul k A B a b = mmul k A B' a b.
Proof. intros H. unfold mmul. apply qsum_ext. intros x Hx. by rewrite H. Qed.
Lemma rmul_id_l k A a b : (a < k)%nat → mmul k mid A a b = A a b.
Proof.
  intros Ha. unfold mmul. rewrite (qsum_one k _ a); [|done|]; unfold mid; [rewrite decide_True by done; ring|]. intros x _ Hx. rewrite decide_False by done. ring.
Qed.
Lemma rmul_ext_l k A A' B a b : (∀ x, (x < k)%nat → A a x = A' a x) → mmul k A B a b = mmul k A' B a b.
Proof. intros H. unfold mmul. apply qsum_ext. intros x Hx. by rewrite H. Qed.
Lemma left_inverse_ok k A V W : is_inverse k A V → meq k (mmul k W A) mid → is_inverse k A W.
Proof.
  intros HV HW. assert (meq k W V) as E. { rewrite <-(mmul_id_r k W), <-(proj1 HV), <-mmul_assoc, HW, mmul_id_l. done. }
  destruct HV as [H1 H2]. split; by rewrite E.
Qed.

Lemma schur_spec n (S P I : mat) l c :
  posdef n S → is_inverse n S P → l ++ c ≡ₚ seq 0 n → is_inverse (length c) (mix_ c c P) I →
  is_inverse (length l) (mix_ l l S) (msub (mix_ l l P) (mmul (length c) (mmul (length c) (mix_ l c P) I) (mT (mix_ l c P)))).
Proof.
  intros Hpd HP Hperm HI. pose proof (posdef_inverse n S P Hpd HP) as Hpp.
  assert (in_range n (l ++ c)) as Hr. { apply Forall_forall. intros v Hv. rewrite Hperm in Hv. apply elem_of_seq in Hv. lia. }
  apply Forall_app in Hr as [Hrl Hrc]. assert (NoDup (l ++ c)) as Hnd by (rewrite Hperm; apply NoDup_seq).
  apply NoDup_app in Hnd as (Hndl & Hdis & Hndc).
  set (M := msub _ _). set (k := length l) in *. set (q := length c) in *.
  pose proof (pdinv_ok k _ (posdef_sub n S l Hndl Hrl Hpd)) as Hpi. apply (left_inverse_ok k _ _ M Hpi). clear Hpi.
  assert (∀ x b, (x < n)%nat → (b < k)%nat → qsum k (λ a, P x (default O (l !! a)) * mix_ l l S a b) + qsum q (λ a, P x (default O (c !! a)) * mix_ c l S a b)
      = eunit (default O (l !! b)) x) as Hsplit.
  { intros x b Hx Hb. assert (default O (l !! b) < n)%nat as Hbn by by apply at_range.
    pose proof (proj2 HP x (default O (l !! b)) Hx Hbn) as E. unfold mid in E. unfold eunit. rewrite <-E. unfold mmul. rewrite (qsum_split n _ l c Hperm). done. }
  assert (∀ a b, (a < k)%nat → (b < k)%nat → mmul k (mix_ l l P) (mix_ l l S) a b + mmul q (mix_ l c P) (mix_ c l S) a b = mid a b) as H1.
  { intros a b Ha Hb. unfold mmul, mix_ at 1 3. rewrite (Hsplit (default O (l !! a)) b) by (done || by apply at_range).
    unfold eunit, mid. destruct (decide (a = b)) as [->|Hne]; [by rewrite decide_True|]. rewrite decide_False; [done|]. intros E1. apply Hne. exact (at_inj l Hndl a b Ha Hb E1). }
  assert (∀ a b, (a < q)%nat → (b < k)%nat → mmul k (mT (mix_ l c P)) (mix_ l l S) a b = - mmul q (mix_ c c P) (mix_ c l S) a b) as H2.
  { intros a b Ha Hb. pose proof (Hsplit (default O (c !! a)) b (at_range n c Hrc a Ha) Hb) as E.
    assert (eunit (default O (l !! b)) (default O (c !! a)) = 0) as E0.
    { unfold eunit. rewrite decide_False; [done|]. intros E1. apply lookup_lt_is_Some in Ha as [v Hv]. apply lookup_lt_is_Some in Hb as [w Hw]. rewrite Hv, Hw in E1. cbn in E1. subst w.
      apply (Hdis v); by eapply elem_of_list_lookup_2. }
    rewrite E0 in E. unfold mmul, mT. unfold mix_ at 1 3.
    rewrite (qsum_ext k _ (λ z, P (default O (c !! a)) (default O (l !! z)) * mix_ l l S z b)).
    2: { intros z Hz. f_equal. apply Hpp; by apply at_range. }
    transitivity (0 - qsum q (λ x, P (default O (c !! a)) (default O (c !! x)) * mix_ c l S x b)); [rewrite <-E; ring|ring]. }
  intros a b Ha Hb. transitivity (mmul k (mix_ l l P) (mix_ l l S) a b - mmul k (mmul q (mmul q (mix_ l c P) I) (mT (mix_ l c P))) (mix_ l l S) a b).
  { unfold mmul at 1 2 3. rewrite <-qsum_sub. apply qsum_ext. intros x _. unfold M, msub. ring. }
  rewrite <-(H1 a b Ha Hb). rewrite rmul_assoc.
  rewrite (rmul_ext_r q _ _ (λ x y, - mmul q (mix_ c c P) (mix_ c l S) x y)) by (intros; by apply H2).
  assert (mmul q (mmul q (mix_ l c P) I) (λ x y, - mmul q (mix_ c c P) (mix_ c l S) x y) a b = - mmul q (mmul q (mix_ l c P) I) (mmul q (mix_ c c P) (mix_ c l S)) a b) as ->.
  { unfold mmul at 1 4. replace (- qsum q _) with (-(1) * qsum q (λ k0, mmul q (mix_ l c P) I a k0 * mmul q (mix_ c c P) (mix_ c l S) k0 b)) by ring.
    rewrite <-qsum_mul_l. apply qsum_ext. intros x _. ring. }
  rewrite <-rmul_assoc. rewrite (rmul_ext_l q _ (mix_ l c P)); [ring|]. intros x Hx. rewrite rmul_assoc.
  rewrite (rmul_ext_r q _ _ mid). { unfold mmul. rewrite (qsum_one q _ x); [|done|]; unfold mid; [rewrite decide_True by done; ring|]. intros y _ Hy. rewrite decide_False by done. ring. }
  intros y Hy. by apply HI.
Qed.

(** The coefficients [inv(S[ps, ps]) @ S[ps, ts]] give the residuals of the regressions on [ps]. *)
Lemma regression_spec inv n (S : mat) ps t :
  inverts inv → posdef n S → NoDup ps → in_range n ps → (t < n)%nat → t ∉ ps →
  residual n S (list_to_set ps) t (λ x, 1 * eunit t x + -(1) * emb ps (λ a, mmul (length ps) (inv (length ps) (mix_ ps ps S)) (λ a b, S (default O (ps !! a)) t) a O) x).
Proof.
  intros Hinv Hpd Hnd Hr Ht Htp. set (k := length ps). set (V := inv k (mix_ ps ps S)). set (co := λ a, mmul k V _ a O).
  assert (is_inverse k (mix_ ps ps S) V) as HV by exact (inverts_pd inv k _ Hinv (posdef_sub n S ps Hnd Hr Hpd)).
  split.
  - intros i Hi HiW. rewrite emb_out; [ring|]. by rewrite elem_of_list_to_set in HiW.
  - intros z Hz HzW. rewrite cov_lin_l. rewrite elem_of_list_to_set in HzW. apply elem_of_list_lookup in HzW as [b Hb]. pose proof (lookup_lt_Some _ _ _ Hb) as Hbl.
    rewrite cov_emb_unit by done. rewrite lcov_unit_l by done. rewrite (qsum_one n _ z); [|done|].
    2: { intros y _ Hy. unfold eunit. rewrite decide_False by done. ring. }
    unfold eunit. rewrite decide_True by done. fold k.
    assert (qsum k (λ a, co a * S (default O (ps !! a)) z) = S t z) as ->; [|ring].
    transitivity (mmul k (mix_ ps ps S) (mmul k V (λ a b, S (default O (ps !! a)) t)) b O).
    { unfold mmul at 1. apply qsum_ext. intros a Ha. unfold mix_. rewrite Hb. cbn. rewrite (proj1 Hpd z) by (done || by apply at_range). unfold co. ring. }
    rewrite <-rmul_assoc. rewrite (rmul_ext_l k _ mid) by (intros; by apply HV). rewrite rmul_id_l by done. rewrite Hb. cbn. by apply Hpd.
Qed.
