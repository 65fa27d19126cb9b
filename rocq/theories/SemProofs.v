(** Linear structural equation models: the covariance matrix is positive definite
    and d-separated variables are uncorrelated given the separating set. *)
From Coq Require Import QArith.Qcanon Field.
From Verif Require Import Py Spec SpecDsep SpecMixed SpecLin QMatModel QMatProofs LinProofs TopoProofs StateProofs ReachProofs MWalkProofs GlobalProofs MargRun.
#[local] Open Scope Qc_scope.

Lemma mgeom_steps n A k i j : (i < n)%nat → (j < n)%nat → mgeom n A k i j ≠ 0 → rtc (QMatProofs.mstep n A) i j.
Proof.
  intros Hi Hj. induction k as [|k IH]; intros H; cbn in H; [done|]. unfold madd in H.
  destruct (decide (mpow n A k i j = 0)) as [E|E].
  - apply IH. intros E'. apply H. rewrite E, E'. ring.
  - apply mpow_steps in E; [|done..]. apply rtc_nsteps. by eexists.
Qed.
Lemma Qc_square_pos (q : Qc) : q ≠ 0 → 0 < q * q.
Proof.
  intros Hq. destruct (Qclt_le_dec 0 q) as [H|H].
  - replace 0 with (0 * q) by ring. by apply Qcmult_lt_compat_r.
  - assert (0 < - q) as H'.
    { destruct (Qcle_lt_or_eq _ _ H) as [H1|H1]; [|done]. apply Qclt_minus_iff in H1. by replace (0 + - q) with (- q) in H1 by ring. }
    replace (q * q) with (- q * - q) by ring. replace 0 with (0 * - q) by ring. by apply Qcmult_lt_compat_r.
Qed.
Lemma Qc_square_nonneg (q : Qc) : 0 <= q * q.
Proof.
  destruct (decide (q = 0)) as [->|H]; [by apply Qcle_refl|]. by apply Qclt_le_weak, Qc_square_pos.
Qed.
Lemma qsum_nonneg n f : (∀ k, (k < n)%nat → 0 <= f k) → 0 <= qsum n f.
Proof.
  induction n as [|n IH]; intros H; cbn; [apply Qcle_refl|]. replace 0 with (0 + 0) by ring. apply Qcplus_le_compat; [apply IH; intros k Hk; apply H; lia|apply H; lia].
Qed.
Lemma qsum_pos n f i : (∀ k, (k < n)%nat → 0 <= f k) → (i < n)%nat → 0 < f i → 0 < qsum n f.
Proof.
  induction n as [|n IH]; intros H Hi Hf; [lia|]. cbn. destruct (decide (i = n)) as [->|Hne].
  - apply (Qclt_le_trans _ (f n)); [done|]. replace (f n) with (0 + f n) at 1 by ring. apply Qcplus_le_compat; [|apply Qcle_refl].
    apply qsum_nonneg. intros k Hk. apply H. lia.
  - apply (Qclt_le_trans _ (qsum n f)); [apply IH; [intros k Hk; apply H; lia|lia|done]|].
    replace (qsum n f) with (qsum n f + 0) at 1 by ring. apply Qcplus_le_compat; [apply Qcle_refl|]. apply H. lia.
Qed.

Section sem.
  Context (n : nat) (A V C : mat) (d : nat → Qc) (E : arcset).
  (** The noise of [X_i], as a combination of the variables. *)
  Definition noise (i : nat) : nat → Qc := λ k, eunit i k - A k i.
  Context (HV : is_inverse n (msub mid A) V).
  Context (Hd : ∀ i, (i < n)%nat → 0 < d i).
  Context (HCs : ∀ i j, (i < n)%nat → (j < n)%nat → C i j = C j i).
  Context (HC : ∀ i j, (i < n)%nat → (j < n)%nat → lcov n C (noise i) (noise j) = if decide (i = j) then d i else 0).

  Lemma unit_noise z i : (z < n)%nat → (i < n)%nat → eunit z i = qsum n (λ k, V k z * noise k i).
  Proof using HV.
    intros Hz Hi. destruct HV as [H1 _]. specialize (H1 i z Hi Hz). unfold mid in H1. unfold eunit. rewrite <-H1. unfold mmul. apply qsum_ext. intros k Hk.
    unfold noise, msub, mid, eunit. ring.
  Qed.
  Lemma cov_noise_unit i z : (i < n)%nat → (z < n)%nat → lcov n C (noise i) (eunit z) = V i z * d i.
  Proof using HV HC.
    intros Hi Hz. transitivity (lcov n C (noise i) (λ l, qsum n (λ k, V k z * noise k l))).
    { apply cov_ext; [done|]. intros l Hl. by apply unit_noise. }
    rewrite (cov_sum_r n C n (λ k l, V k z * noise k l)). rewrite (qsum_one n _ i); [|done|].
    - transitivity (lcov n C (noise i) (λ l, V i z * noise i l + 0 * noise i l)); [apply cov_ext; [done|]; intros; ring|].
      rewrite cov_lin_r, HC by done. rewrite decide_True by done. ring.
    - intros k Hk Hki. transitivity (lcov n C (noise i) (λ l, V k z * noise k l + 0 * noise k l)); [apply cov_ext; [done|]; intros; ring|].
      rewrite cov_lin_r, HC by done. rewrite decide_False by done. ring.
  Qed.
  Lemma sem_posdef : posdef n C.
  Proof using HV HC Hd HCs.
    split; [done|]. intros u (a & Ha & Hua).
    set (c := λ k, qsum n (λ z, V k z * u z)).
    assert (∀ i, (i < n)%nat → u i = qsum n (λ k, c k * noise k i)) as Hu.
    { intros i Hi. transitivity (qsum n (λ z, u z * eunit z i)).
      - rewrite (qsum_one n _ i); [|done|]; unfold eunit; [rewrite decide_True by done; ring|]. intros k _ Hk. rewrite decide_False by done. ring.
      - transitivity (qsum n (λ z, qsum n (λ k, u z * V k z * noise k i))).
        + apply qsum_ext. intros z Hz. rewrite unit_noise by done. rewrite <-qsum_mul_l. apply qsum_ext. intros k _. ring.
        + rewrite qsum_swap. apply qsum_ext. intros k _. unfold c. rewrite <-qsum_mul_r. apply qsum_ext. intros z _. ring. }
    assert (lcov n C u u = qsum n (λ k, c k * c k * d k)) as ->.
    { transitivity (lcov n C u (λ i, qsum n (λ k, c k * noise k i))); [by apply cov_ext|].
      rewrite (cov_sum_r n C n (λ k i, c k * noise k i)). apply qsum_ext. intros k Hk.
      transitivity (lcov n C u (λ i, c k * noise k i + 0 * noise k i)); [apply cov_ext; [done|]; intros; ring|]. rewrite cov_lin_r.
      assert (lcov n C u (noise k) = c k * d k) as ->; [|ring].
      assert (lcov n C u (noise k) = lcov n C (noise k) u) as ->.
      { unfold lcov. rewrite qsum_swap. apply qsum_ext. intros j Hj. apply qsum_ext. intros i Hi. rewrite (HCs i j) by done. ring. }
      rewrite cov_split. unfold c. rewrite <-qsum_mul_r. apply qsum_ext. intros z Hz. rewrite cov_noise_unit by done. ring. }
    assert (∃ k, (k < n)%nat ∧ c k ≠ 0) as (k & Hk & Hck).
    { rewrite Hu in Hua by done. apply qsum_nonzero in Hua as (k & Hk & Hne). exists k. split; [done|]. intros E0. apply Hne. rewrite E0. ring. }
    apply (qsum_pos n _ k); [|done|].
    - intros l Hl. replace 0 with (0 * d l) by ring. apply Qcmult_le_compat_r; [apply Qc_square_nonneg|by apply Qclt_le_weak, Hd].
    - replace 0 with (0 * d k) by ring. apply Qcmult_lt_compat_r; [by apply Hd|by apply Qc_square_pos].
  Qed.

  Context (Hac : acyclic E) (HE : ∀ i j, (i, j) ∈ E ↔ (i < n)%nat ∧ (j < n)%nat ∧ A i j ≠ 0).
  Lemma sem_step i j : QMatProofs.mstep n A i j → edge E i j.
  Proof using HE. intros H. by apply HE. Qed.
  Lemma sem_macyclic : macyclic n A.
  Proof using HE Hac. intros i Hi. apply (Hac (id i)). eapply (tc_congruence id); [|exact Hi]. intros a b. apply sem_step. Qed.
  Lemma effect_path i z : (i < n)%nat → (z < n)%nat → V i z ≠ 0 → rtc (edge E) i z.
  Proof using HV HE Hac.
    intros Hi Hz H. pose proof (acyclic_inverse n A sem_macyclic) as HG. rewrite (inverse_unique n _ _ _ HV HG) in H by done.
    apply mgeom_steps in H; [|done..]. eapply rtc_subrel; [|exact H]. intros a b. apply sem_step.
  Qed.
  (** Regressing on a set of non-descendants that contains the parents leaves the noise. *)
  Lemma noise_residual W x : (x < n)%nat → x ∉ W → (∀ p, (p, x) ∈ E → p ∈ W) → (∀ z, z ∈ W → ¬ rtc (edge E) x z) → residual n C W x (noise x).
  Proof using HV HC HE Hac.
    intros Hx HxW Hpa Hnd. split.
    - intros i Hi HiW. unfold noise. destruct (decide (A i x = 0)) as [->|Hne]; [ring|]. destruct HiW. apply Hpa, HE. done.
    - intros z Hz HzW. rewrite cov_noise_unit by done. destruct (decide (V x z = 0)) as [->|Hne]; [ring|]. destruct (Hnd z HzW). by apply effect_path.
  Qed.

  Lemma sem_pairwise i j (P : nset) : (i < n)%nat → (j < n)%nat → i ≠ j → ¬ adjacent E i j →
    (∀ x, x ∈ P ↔ (rtc (edge E) x i ∨ rtc (edge E) x j) ∧ x ≠ i ∧ x ≠ j) → uncorrelated n C P i j.
  Proof using HV HC Hd HCs HE Hac.
    intros Hi Hj Hij Hadj HP. pose proof sem_posdef as Hpd.
    assert (∀ i j, (i < n)%nat → (j < n)%nat → i ≠ j → ¬ adjacent E i j → (∀ x, x ∈ P ↔ (rtc (edge E) x i ∨ rtc (edge E) x j) ∧ x ≠ i ∧ x ≠ j) →
      ¬ rtc (edge E) i j → uncorrelated n C P i j) as Hone.
    { clear i j Hi Hj Hij Hadj HP. intros i j Hi Hj Hij Hadj HP Hnr.
      assert (residual n C P i (noise i)) as Hr.
      { apply noise_residual; [done| | |].
        - intros H. apply HP in H as (_ & H & _). done.
        - intros p Hp. apply HP. split; [left; by apply rtc_once|]. split.
          + intros ->. apply (Hac i). by apply tc_once.
          + intros ->. apply Hadj. by right.
        - intros z Hz Hiz. apply HP in Hz as ([H|H] & Hzi & Hzj); [|apply Hnr; by etrans].
          apply rtc_tc in Hiz as [->|Hiz]; [done|]. apply (Hac i). by eapply tc_rtc_r. }
      apply (unc_iff n C Hpd P i j _ Hr). rewrite cov_noise_unit by done. destruct (decide (V i j = 0)) as [->|Hne]; [ring|]. destruct Hnr. by apply effect_path. }
    assert (rtc (edge E) i j → ¬ rtc (edge E) j i) as Hor.
    { intros H1 H2. apply rtc_tc in H1 as [?|H1]; [done|]. apply (Hac i). by eapply tc_rtc_r. }
    destruct (decide (reachb E i j = true)) as [Hb|Hb].
    - apply reachb_spec in Hb. apply unc_sym; [done|]. apply Hone; [done|done|done| | |].
      + intros [?|?]; apply Hadj; [by right|by left].
      + intros x. rewrite HP. tauto.
      + by apply Hor, tc_rtc.
    - apply Hone; try done. intros Hr. apply Hb. apply rtc_tc in Hr as [->|Hr]; [done|]. by apply reachb_spec.
  Qed.

  (** The global Markov property. *)
  Lemma sem_global a b (W : nset) : (a < n)%nat → (b < n)%nat → a ≠ b → a ∉ W → b ∉ W → (∀ w, w ∈ W → (w < n)%nat) →
    dsepd E {[a]} {[b]} W → uncorrelated n C W a b.
  Proof using HV HC Hd HCs HE Hac.
    intros Ha Hb Hab HaW HbW HW Hsep. pose proof sem_posdef as Hpd.
    set (N := list_to_set (seq 0 n) : nset). assert (∀ v, v ∈ N ↔ (v < n)%nat) as HN.
    { intros v. unfold N. rewrite elem_of_list_to_set, elem_of_seq. lia. }
    apply dmix_dsepd in Hsep. rewrite msepd_reach in Hsep; [|by apply dmix_simple|by apply dmix_separate|set_solver].
    apply (pairwise_global_rel (dmix E) N (uncorrelated n C)); [done|done| | | | | | | | | | |done|].
    - intros x y [H|[H|[H|H]]]; [| |by apply dmix_sp in H|by apply dmix_ne in H]; apply HE in H; rewrite !HN; tauto.
    - intros ????. by apply unc_comp.
    - intros ????. by apply unc_contr.
    - intros ????. by apply unc_inter.
    - intros ??? _ _. by apply unc_sym.
    - intros ???. by apply unc_stable.
    - intros i j P Hi Hj Hij Hadj HP. apply sem_pairwise; [by apply HN..|done| |done]. intros [H|H]; apply Hadj; [by left|by right; left].
    - intros w Hw. by apply HN, HW.
    - apply elem_of_difference. by rewrite HN.
    - apply elem_of_difference. by rewrite HN.
    - apply Hsep; set_solver.
  Qed.
End sem.
