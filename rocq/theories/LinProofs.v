(** Residuals of linear regressions, and the laws of being uncorrelated given a set. *)
From Coq Require Import QArith.Qcanon Field.
From Verif Require Import Py QMatModel QMatProofs SpecLin.
#[local] Open Scope Qc_scope.

Lemma Qc_lt_ne (q : Qc) : 0 < q → q ≠ 0.
Proof. intros H ->. by apply (Qclt_not_eq 0 0) in H. Qed.

Section form.
  Context (n : nat) (S : mat).
  Notation cov := (lcov n S).

  Lemma cov_unit_r u y : (y < n)%nat → cov u (eunit y) = qsum n (λ i, u i * S i y).
  Proof using.
    intros Hy. unfold lcov. apply qsum_ext. intros i _. rewrite (qsum_one n _ y); [|done|].
    - unfold eunit. rewrite decide_True by done. ring.
    - intros k _ Hk. unfold eunit. rewrite decide_False by done. ring.
  Qed.
  Lemma cov_unit_out u y : ¬ (y < n)%nat → cov u (eunit y) = 0.
  Proof using.
    intros Hy. unfold lcov. apply qsum_zero. intros i _. apply qsum_zero. intros k Hk. unfold eunit. rewrite decide_False by lia. ring.
  Qed.
  Lemma cov_split u v : cov u v = qsum n (λ j, cov u (eunit j) * v j).
  Proof using.
    unfold lcov at 1. rewrite qsum_swap. apply qsum_ext. intros j Hj. rewrite cov_unit_r by done. rewrite <-qsum_mul_r. done.
  Qed.
  Lemma cov_ext u u' v v' : (∀ i, (i < n)%nat → u i = u' i) → (∀ i, (i < n)%nat → v i = v' i) → cov u v = cov u' v'.
  Proof using. intros H1 H2. unfold lcov. apply qsum_ext. intros i Hi. apply qsum_ext. intros j Hj. by rewrite H1, H2. Qed.
  Lemma cov_lin_l a b u v w : cov (λ i, a * u i + b * v i) w = a * cov u w + b * cov v w.
  Proof using.
    unfold lcov. rewrite <-!qsum_mul_l, <-qsum_add. apply qsum_ext. intros i _. rewrite <-!qsum_mul_l, <-qsum_add. apply qsum_ext. intros j _. ring.
  Qed.
  Lemma cov_lin_r a b u v w : cov w (λ i, a * u i + b * v i) = a * cov w u + b * cov w v.
  Proof using.
    unfold lcov. rewrite <-!qsum_mul_l, <-qsum_add. apply qsum_ext. intros i _. rewrite <-!qsum_mul_l, <-qsum_add. apply qsum_ext. intros j _. ring.
  Qed.
  Lemma cov_sum_r m (f : nat → nat → Qc) u : cov u (λ i, qsum m (λ k, f k i)) = qsum m (λ k, cov u (f k)).
  Proof using.
    induction m as [|m IH]; cbn.
    - unfold lcov. apply qsum_zero. intros i _. apply qsum_zero. intros j _. ring.
    - rewrite <-IH. transitivity (cov u (λ i, 1 * qsum m (λ k, f k i) + 1 * f m i)); [|rewrite cov_lin_r; ring].
      apply cov_ext; [done|]. intros i _. ring.
  Qed.

  Context (Hpd : posdef n S).
  Lemma cov_sym u v : cov u v = cov v u.
  Proof using Hpd.
    unfold lcov. rewrite qsum_swap. apply qsum_ext. intros j Hj. apply qsum_ext. intros i Hi. rewrite (proj1 Hpd i j) by done. ring.
  Qed.
  Lemma cov_zero u : cov u u = 0 → ∀ i, (i < n)%nat → u i = 0.
  Proof using Hpd.
    intros H i Hi. destruct (decide (u i = 0)) as [|Hne]; [done|]. destruct (Qc_lt_ne (cov u u)); [|done]. apply Hpd. by exists i.
  Qed.
  (** A residual on [W] is uncorrelated with every combination supported on [W]. *)
  Lemma residual_orth W x r v : residual n S W x r → (∀ i, (i < n)%nat → i ∉ W → v i = 0) → cov r v = 0.
  Proof using.
    intros [_ H] Hv. rewrite cov_split. apply qsum_zero. intros j Hj. destruct (decide (j ∈ W)) as [HW|HW].
    - rewrite H by done. ring.
    - rewrite Hv by done. ring.
  Qed.
  Lemma residual_unique W x r r' : residual n S W x r → residual n S W x r' → ∀ i, (i < n)%nat → r i = r' i.
  Proof using Hpd.
    intros H1 H2. set (u := λ i, 1 * r i + -(1) * r' i).
    assert (∀ i, (i < n)%nat → i ∉ W → u i = 0) as Hu.
    { intros i Hi HW. unfold u. rewrite (proj1 H1), (proj1 H2) by done. ring. }
    assert (cov u u = 0) as H0.
    { unfold u at 1. rewrite cov_lin_l. rewrite (residual_orth W x r u), (residual_orth W x r' u) by done. ring. }
    intros i Hi. pose proof (cov_zero u H0 i Hi) as H3. unfold u in H3. replace (r i) with (1 * r i + - (1) * r' i + r' i) by ring. rewrite H3. ring.
  Qed.
  Lemma residual_ext W x r r' : (∀ i, (i < n)%nat → r i = r' i) → residual n S W x r → residual n S W x r'.
  Proof using.
    intros He [H1 H2]. split; [intros i Hi HW; rewrite <-He by done; by apply H1|]. intros z Hz HW. rewrite <-(H2 z Hz HW). by apply cov_ext; [intros; rewrite He|].
  Qed.
  (** The covariance of two residuals on the same set. *)
  Lemma residual_cov W x y r s : residual n S W x r → residual n S W y s → cov r s = cov r (eunit y).
  Proof using.
    intros Hr Hs. assert (cov r (λ i, 1 * s i + -(1) * eunit y i) = 0) as H0.
    { apply (residual_orth W x); [done|]. intros i Hi HW. rewrite (proj1 Hs) by done. ring. }
    rewrite cov_lin_r in H0. replace (cov r s) with (1 * cov r s + - (1) * cov r (eunit y) + cov r (eunit y)) by ring. rewrite H0. ring.
  Qed.
  Lemma residual_exists (W : nset) : ∀ x, ∃ r, residual n S W x r.
  Proof using Hpd.
    induction W as [|w W Hw IH] using set_ind_L.
    - intros x. exists (eunit x). split; [done|set_solver].
    - intros x. destruct (IH x) as (r & Hr). destruct (IH w) as (s & Hs). destruct (decide (w < n)%nat) as [Hwn|Hwn].
      + set (q := cov s s). set (t := cov r (eunit w) / q).
        assert (q = cov s (eunit w)) as Hq by by eapply residual_cov.
        assert (q ≠ 0) as Hq0.
        { apply Qc_lt_ne. apply Hpd. exists w. split; [done|]. rewrite (proj1 Hs) by done. unfold eunit. rewrite decide_True by done. done. }
        exists (λ i, 1 * r i + - t * s i). split.
        * intros i Hi HW. apply not_elem_of_union in HW as [Hiw HW]. rewrite (proj1 Hr), (proj1 Hs) by done. unfold eunit at 2.
          rewrite decide_False by (intros ->; set_solver). ring.
        * intros z Hz HW. rewrite cov_lin_l. apply elem_of_union in HW as [->%elem_of_singleton|HW].
          -- rewrite <-Hq. unfold t. field. done.
          -- rewrite (proj2 Hr), (proj2 Hs) by done. ring.
      + exists r. split.
        * intros i Hi HW. apply Hr; [done|]. set_solver.
        * intros z Hz HW. apply Hr; [done|]. apply elem_of_union in HW as [->%elem_of_singleton|HW]; [lia|done].
  Qed.

  (** ** Laws *)
  Lemma unc_iff W x y r : residual n S W x r → uncorrelated n S W x y ↔ cov r (eunit y) = 0.
  Proof using Hpd.
    intros Hr. split.
    - intros (r' & s & Hr' & Hs & H0). rewrite (residual_cov W x y r' s Hr' Hs) in H0. rewrite <-H0. apply cov_ext; [|done].
      by eapply residual_unique.
    - intros H0. destruct (residual_exists W y) as (s & Hs). exists r, s. split; [done|]. split; [done|]. by rewrite (residual_cov W x y r s).
  Qed.
  Lemma unc_stable W x y : ¬ ¬ uncorrelated n S W x y → uncorrelated n S W x y.
  Proof using Hpd.
    intros H. destruct (residual_exists W x) as (r & Hr). apply (unc_iff _ _ _ _ Hr). destruct (decide (cov r (eunit y) = 0)) as [|Hn]; [done|].
    destruct H. intros H. by apply Hn, (unc_iff _ _ _ _ Hr).
  Qed.
  Lemma unc_sym W x y : uncorrelated n S W x y → uncorrelated n S W y x.
  Proof using Hpd. intros (r & s & Hr & Hs & H0). exists s, r. split; [done|]. split; [done|]. by rewrite cov_sym. Qed.
  (** A residual on [W] that is also uncorrelated with [y] is one on [W] and [y]. *)
  Lemma residual_grow W x y r : residual n S W x r → cov r (eunit y) = 0 → residual n S (W ∪ {[y]}) x r.
  Proof using.
    intros [H1 H2] H0. split.
    - intros i Hi HW. apply H1; [done|]. clear -HW. set_solver.
    - intros z Hz HW. apply elem_of_union in HW as [HW|HW]; [by apply H2|]. by apply elem_of_singleton in HW as ->.
  Qed.
  Lemma unc_comp W x y z : uncorrelated n S W x y → uncorrelated n S W x z → uncorrelated n S (W ∪ {[z]}) x y.
  Proof using Hpd.
    intros Hy Hz. destruct (residual_exists W x) as (r & Hr). apply (unc_iff _ _ _ _ Hr) in Hy, Hz.
    by apply (unc_iff _ _ _ r); [apply residual_grow|].
  Qed.
  Lemma unc_contr W x y z : uncorrelated n S W x y → uncorrelated n S (W ∪ {[y]}) x z → uncorrelated n S W x z.
  Proof using Hpd.
    intros Hy Hz. destruct (residual_exists W x) as (r & Hr). apply (unc_iff _ _ _ _ Hr) in Hy.
    apply (unc_iff _ _ _ r) in Hz; [|by apply residual_grow]. by apply (unc_iff _ _ _ _ Hr).
  Qed.
  Lemma unc_inter W x y z : y ≠ z → uncorrelated n S (W ∪ {[z]}) x y → uncorrelated n S (W ∪ {[y]}) x z → uncorrelated n S W x y.
  Proof using Hpd.
    intros Hyz Hy Hz. destruct (residual_exists (W ∪ {[z]}) x) as (r & Hr). destruct (residual_exists (W ∪ {[y]}) x) as (s & Hs).
    apply (unc_iff _ _ _ _ Hr) in Hy. apply (unc_iff _ _ _ _ Hs) in Hz. pose proof (residual_grow _ _ _ _ Hr Hy) as Hr'. pose proof (residual_grow _ _ _ _ Hs Hz) as Hs'.
    assert (∀ i, (i < n)%nat → r i = s i) as He.
    { replace (W ∪ {[y]} ∪ {[z]}) with (W ∪ {[z]} ∪ {[y]}) in Hs' by set_solver. by eapply residual_unique. }
    apply (unc_iff _ _ _ r); [|done]. split.
    - intros i Hi HW. destruct (decide (i = z)) as [->|Hiz].
      + rewrite He by done. apply Hs; [done|]. set_solver.
      + apply Hr; [done|]. set_solver.
    - intros w Hw HW. apply Hr; [done|]. set_solver.
  Qed.
  (** Members of [W] are uncorrelated with everything given [W]. *)
  Lemma unc_mem W x y : y ∈ W → uncorrelated n S W x y.
  Proof using Hpd.
    intros Hy. destruct (residual_exists W x) as (r & Hr). apply (unc_iff _ _ _ _ Hr). destruct (decide (y < n)%nat) as [Hn|Hn]; [by apply Hr|by apply cov_unit_out].
  Qed.
  (** A coefficient of a regression is zero if and only if the variables are uncorrelated given the other predictors. *)
  Lemma unc_coef W x i r : residual n S W x r → (i < n)%nat → i ∈ W → i ≠ x → r i = 0 ↔ uncorrelated n S (W ∖ {[i]}) x i.
  Proof using Hpd.
    intros Hr Hi HiW Hix. split.
    - intros H0. assert (residual n S (W ∖ {[i]}) x r) as Hr'.
      { split; [|intros z Hz HzW; apply Hr; [done|clear -HzW; set_solver]]. intros z Hz HzW. destruct (decide (z = i)) as [->|Hzi].
        - rewrite H0. unfold eunit. by rewrite decide_False.
        - apply Hr; [done|]. clear -HzW Hzi. set_solver. }
      apply (unc_iff _ _ _ _ Hr'). by apply Hr.
    - intros H. destruct (residual_exists (W ∖ {[i]}) x) as (s & Hs). apply (unc_iff _ _ _ _ Hs) in H. pose proof (residual_grow _ _ _ _ Hs H) as Hg.
      replace (W ∖ {[i]} ∪ {[i]}) with W in Hg.
      2: { clear -HiW. rewrite difference_union_L. set_solver. }
      rewrite (residual_unique W x r s Hr Hg i Hi). rewrite (proj1 Hs) by (done || set_solver). unfold eunit. by rewrite decide_False.
  Qed.
End form.
