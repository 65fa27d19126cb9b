(** Fitting linear Gaussian models. *)
From Coq Require Import QArith.Qcanon Field Reals Qreals Lra.
From Verif Require Import Py Spec DagModel QMatModel GaussModel GaussLinModel GaussFitModel SpecGaussFit TopoProofs StateProofs ReachProofs CoreProofs QMatProofs SemProofs PropertiesDag GaussProofs GaussLoops PropertiesGauss PropertiesGauss2 QcTac GaussFitProofs.
#[local] Open Scope Qc_scope.

Lemma leftover_ext p X W b W' b' r v : (∀ u, (u < p)%nat → W u v = W' u v) → b v = b' v → leftover p X W b r v = leftover p X W' b' r v.
Proof. intros H Hb. unfold leftover. rewrite Hb. rewrite (qsum_ext p (λ u, X r u * W u v) (λ u, X r u * W' u v)); [done|]. intros u Hu. by rewrite H. Qed.
Lemma fitted_ext n p X E W b W' b' s v : (∀ u, (u < p)%nat → W u v = W' u v) → b v = b' v → fitted n p X E W b s v → fitted n p X E W' b' s v.
Proof.
  intros H Hb (H1 & H2 & H3 & H4). assert (∀ r, leftover p X W b r v = leftover p X W' b' r v) as Hl by (intros; by apply leftover_ext).
  assert (rss n p X W b v = rss n p X W' b' v) as Hr by (apply qsum_ext; intros; by rewrite Hl).
  split; [congruence|]. split; [rewrite <-H2; apply qsum_ext; intros; by rewrite Hl|]. split.
  - intros u Hu. rewrite <-(H3 u Hu). apply qsum_ext. intros. by rewrite Hl.
  - rewrite <-Hr. exact H4.
Qed.

(** ** C102: [fit_mle] *)
(** The weights and the bias of each node minimise the sum of squared residuals over all choices of weights on the arcs; the
    residuals have mean zero and are uncorrelated with the parents; the variance is the sum of the squares.  Arcs whose weight is
    zero are left out. *)
Theorem C102_fit_mle (o : oracle) (lstsq : nat → mat → vec → vec) (d : dag) (n p : nat) (X : mat) :
  least_squares lstsq → views_agree d → (∀ v, v ∈ d_nodes d → (v < p)%nat) →
  ∃ g, fit_mle o lstsq d n p X = Ok g ∧ gauss_wf g ∧ g_list g = seq 0 p ∧ length (g_bias g) = p ∧ length (g_var g) = p ∧
    (∀ u v, (u, v) ∈ d_arcs (g_dag g) ↔ (u, v) ∈ d_arcs d ∧ g_w g u v ≠ 0) ∧
    (∀ v, v ∈ d_nodes d → let b := vec_of (g_bias g) in
      (∀ W' b', weights_on (d_arcs d) W' → rss n p X (g_w g) b v <= rss n p X W' b' v) ∧
      qsum n (λ r, leftover p X (g_w g) b r v) = 0 ∧
      (∀ u, (u, v) ∈ d_arcs d → qsum n (λ r, X r u * leftover p X (g_w g) b r v) = 0) ∧
      vec_of (g_var g) v = rss n p X (g_w g) b v) ∧
    ∀ v, (v < p)%nat → v ∉ d_nodes d → vec_of (g_bias g) v = 0 ∧ vec_of (g_var g) v = 0.
Proof.
  intros Hls Hv Hp. apply wf_views_agree in Hv. unfold fit_mle.
  destruct (fit_loop o lstsq Hls d Hv n p X Hp (on o [169]%nat (d_nodes d)) mzero (replicate p 0) (replicate p 0)) as (A & bs & vs & E & Hb & Hs & HA & Hbs & Hf).
  { apply NoDup_on. } { intros v. by rewrite elem_of_on. } { apply replicate_length. } { apply replicate_length. } { done. }
  match goal with |- ∃ g, res_bind ?x _ = _ ∧ _ => replace x with (Ok (A, bs, vs) : res (mat * list Qc * list Qc)) end. cbn [res_bind].
  destruct (C79_from_amat o p A (Some bs) (Some vs)) as (g & Hg & Hwf & Hl & HW & HE & Hgv & Hgb & Hfr). change (g_var g = vs) in Hgv. change (g_bias g = bs) in Hgb. exists g. rewrite Hgv, Hgb.
  assert (∀ v, v ∈ on o [169]%nat (d_nodes d) ↔ v ∈ d_nodes d) as Hon by (intros v; apply elem_of_on).
  assert (∀ u v, A u v ≠ 0 → (u, v) ∈ d_arcs d) as Hsup.
  { intros u v Hne. destruct (decide (v ∈ on o [169]%nat (d_nodes d))) as [Hin|Hout]; [destruct (Hf v Hin) as (s & _ & H & _); by apply H|]. by rewrite HA in Hne. }
  assert (∀ v s, bs !! v = Some s → vec_of bs v = s) as Hvb by (intros v s Es; unfold vec_of; by rewrite Es).
  do 5 (split; [done|]). split; [|split].
  - intros u v. rewrite HE. split.
    + intros (Hu & Hv' & Hne). split; [by apply Hsup|]. by rewrite HW.
    + intros (Ha & Hne). destruct (wf_over _ Hv _ _ Ha) as [Hu%Hp Hv'%Hp]. split; [done|]. split; [done|]. by rewrite <-HW.
  - intros v Hin. cbn zeta. destruct (Hf v) as (s & Es & H1 & H2); [by apply Hon|].
    assert (fitted n p X (d_arcs d) (g_w g) (vec_of bs) s v) as (F1 & F2 & F3 & F4).
    { apply (fitted_ext n p X (d_arcs d) A (vec_of bs)); [intros u Hu; symmetry; apply HW; [done|by apply Hp]|done|]. apply H2; [done|].
      destruct (lookup_lt_is_Some_2 bs v) as [x Ex]; [rewrite Hb; by apply Hp|]. by rewrite Ex, (Hvb v x Ex). }
    split; [done|]. split; [done|]. split; [done|]. transitivity s; [unfold vec_of; by rewrite Es|exact F1].
  - intros v Hlt Hout. destruct (Hbs v) as [E1 E2]; [by rewrite Hon|]. unfold vec_of. rewrite E1, E2, lookup_replicate_2 by done. done.
Qed.
(** Columns that do not exist. *)
Theorem C102_labels (o : oracle) (lstsq : nat → mat → vec → vec) (d : dag) (n p : nat) (X : mat) (v : node) :
  v ∈ d_nodes d → (p <= v)%nat → fit_mle o lstsq d n p X = Raise IndexError.
Proof.
  intros Hv Hp. unfold fit_mle. set (C := get_extended_cov n p X).
  assert (∀ u s, (∃ s', fit_step o lstsq d p C u s = Ok s') ∨ fit_step o lstsq d p C u s = Raise IndexError) as Hstep.
  { intros u [[A bs] vs]. unfold fit_step, linear_regression_mle. case_decide; cbn [res_bind]; [|by right]. case_decide; [left; by eexists|by right]. }
  assert (∀ s, fit_step o lstsq d p C v s = Raise IndexError) as Hbad.
  { intros [[A bs] vs]. unfold fit_step, linear_regression_mle. case_decide; cbn [res_bind]; [|done]. rewrite decide_False; [done|].
    intros Hr. apply Forall_cons in Hr as [Hr _]. lia. }
  assert (∀ l s, v ∈ l → loopR (fit_step o lstsq d p C) l s = Raise IndexError) as Hl.
  { induction l as [|u l IH]; intros s Hin; [by apply elem_of_nil in Hin|]. cbn. apply elem_of_cons in Hin as [<-|Hin]; [by rewrite Hbad|].
    destruct (Hstep u s) as [[s' ->]| ->]; [by apply IH|done]. }
  rewrite Hl; [done|]. by apply elem_of_on.
Qed.
(** The means of the fitted model are those of the samples, if the numbers of the nodes follow the arcs (see C47). *)
Theorem C102_means (o : oracle) (lstsq : nat → mat → vec → vec) (d : dag) (n p : nat) (X : mat) (g : gauss) :
  least_squares lstsq → views_agree d → d_nodes d = list_to_set (seq 0 p) → (∀ u v, (u, v) ∈ d_arcs d → (u < v)%nat) → (0 < n)%nat →
  fit_mle o lstsq d n p X = Ok g →
  ∃ m, means o g = Ok m ∧ ∀ v, (v < p)%nat → m v = qsum n (λ r, X r v) / qz (Z.of_nat n).
Proof.
  intros Hls Hv HN Hinc Hn Hg. assert (∀ v, v ∈ d_nodes d ↔ (v < p)%nat) as HN' by (intros v; rewrite HN, elem_of_list_to_set, elem_of_seq; lia).
  destruct (C102_fit_mle o lstsq d n p X Hls Hv) as (g' & E & Hwf & Hl & Hb & _ & HE & Hf & _); [by intros v ?%HN'|]. rewrite Hg in E. injection E as <-.
  destruct (C47_means o g p Hwf Hl Hb) as (m & Hm & H). { intros i j [Ha _]%HE. by apply Hinc. }
  exists m. split; [done|]. intros v. induction (lt_wf v) as [v _ IH]. intros Hlt. rewrite (H v Hlt).
  destruct (Hf v) as (_ & H0 & _); [by apply HN'|]. assert (0 < qn n) as Hq by (by apply qn_pos).
  assert (qn n ≠ 0) as Hq0 by (intros E; rewrite E in Hq; by destruct (Qclt_not_eq _ _ Hq)).
  assert (qsum n (λ r, X r v) = qn n * vec_of (g_bias g) v + qsum p (λ u, qsum n (λ r, X r u) * g_w g u v)) as ->.
  { unfold leftover in H0. rewrite qsum_sub, qsum_sub in H0. rewrite qsum_swap in H0.
    rewrite (qsum_ext p (λ u, qsum n (λ r, X r u) * g_w g u v) (λ u, qsum n (λ r, X r u * g_w g u v))) by (intros; by rewrite qsum_mul_r).
    assert (∀ k c, qsum k (λ _, c) = qn k * c) as Hc. { induction k as [|k IHk]; intros c; cbn [qsum]; [change (qn 0) with 0; ring|]. rewrite qn_S, IHk. ring. }
    rewrite Hc in H0. set (a := qsum n _) in *. set (b := qsum p _) in *. set (c := qn n * _) in *. clearbody a b c. clear -H0. qlra. }
  assert (qsum p (λ u, weight g u v * m u) = qsum p (λ u, qsum n (λ r, X r u) * g_w g u v) / qn n) as ->.
  { unfold Qcdiv. rewrite <-qsum_mul_r. apply qsum_ext. intros u Hu. rewrite (lab_weight g p) by done.
    destruct (decide (g_w g u v = 0)) as [->|Hne]; [ring|]. assert (u < v)%nat as Huv.
    { pose proof Hwf as (_ & _ & _ & _ & HA). apply Hinc. apply HE, HA. - rewrite (lab_weight g p); done. }
    rewrite (IH u Huv Hu). unfold Qcdiv. ring. }
  field. done.
Qed.

(** [get_extended_cov2] computes the same matrix from the sample means and the (unbiased) sample covariances. *)
Theorem C102_extended_cov (n p : nat) (X cov : mat) (mean : vec) :
  (2 <= n)%nat → (∀ a, (a < p)%nat → mean a = qsum n (λ r, X r a) / qz (Z.of_nat n)) →
  (∀ a b, (a < p)%nat → (b < p)%nat → cov a b = qsum n (λ r, (X r a - mean a) * (X r b - mean b)) / (qz (Z.of_nat n) - 1)) →
  meq (S p) (get_extended_cov2 p cov mean n) (get_extended_cov n p X).
Proof.
  intros Hn Hm Hc. assert (0 < qn n - 1) as Hp.
  { destruct n as [|n]; [lia|]. rewrite qn_S. replace (qn n + 1 - 1) with (qn n) by ring. apply qn_pos. lia. }
  assert (qn n ≠ 0) as H0 by (apply qn_ne; lia). assert (qn n - 1 ≠ 0) as H1 by (intros E; rewrite E in Hp; by destruct (Qclt_not_eq _ _ Hp)).
  assert (∀ k c, qsum k (λ _, c) = qn k * c) as Hk. { induction k as [|k IHk]; intros c; cbn [qsum]; [change (qn 0) with 0; ring|]. rewrite qn_S, IHk. ring. }
  assert (∀ a, (a < p)%nat → mean a * qn n = qsum n (λ r, X r a)) as Hm'. { intros a Ha. rewrite Hm by done. by field. }
  intros i j Hi Hj. unfold get_extended_cov2, get_extended_cov, mmul, mT, ext_samples. repeat case_decide.
  - rewrite Hc by done. transitivity (qsum n (λ r, (X r i - mean i) * (X r j - mean j)) + mean i * mean j * qn n); [field; done|].
    rewrite (qsum_ext n _ (λ r, X r i * X r j - (mean j * X r i + (mean i * X r j - mean i * mean j)))) by (intros; ring).
    rewrite qsum_sub, qsum_add, qsum_sub, !qsum_mul_l, Hk, <-!Hm' by done. ring.
  - rewrite Hm' by done. apply qsum_ext. intros. ring.
  - rewrite Hm' by done. apply qsum_ext. intros. ring.
  - rewrite (qsum_ext n (λ _, 1 * 1) (λ _, 1)) by (intros; ring). rewrite Hk. ring.
Qed.

(** ** Likelihood *)
Lemma real_add x y : real (x + y) = (real x + real y)%R.
Proof. unfold real. rewrite <-Qreals.Q2R_plus. apply Qreals.Qeq_eqR, this_add. Qed.
Lemma real_mul x y : real (x * y) = (real x * real y)%R.
Proof. unfold real. rewrite <-Qreals.Q2R_mult. apply Qreals.Qeq_eqR, this_mul. Qed.
Lemma real_0 : real 0 = 0%R.
Proof. unfold real, Q2R. change (IZR 0 * / IZR 1 = 0)%R. rewrite Rinv_1. apply Rmult_1_r. Qed.
Lemma real_1 : real 1 = 1%R.
Proof. unfold real, Q2R. change (IZR 1 * / IZR 1 = 1)%R. rewrite Rinv_1. apply Rmult_1_r. Qed.
Lemma real_le x y : x <= y → (real x <= real y)%R.
Proof. intros H. apply Qreals.Qle_Rle. by apply Qcle_this. Qed.
Lemma real_lt x y : x < y → (real x < real y)%R.
Proof. intros H. apply Qreals.Qlt_Rlt. by apply Qclt_this. Qed.
Lemma real_qn n : real (qn n) = INR n.
Proof. induction n as [|n IH]; [exact real_0|]. rewrite qn_S, real_add, IH, real_1, S_INR. done. Qed.
Lemma real_div x y : y ≠ 0 → real (x / y) = (real x / real y)%R.
Proof.
  intros Hy. assert (real y ≠ 0%R) as Hr.
  { intros E. apply Hy. apply Qc_is_canon. rewrite <-real_0 in E. by apply Qreals.eqR_Qeq in E. }
  assert (real x = real (x / y) * real y)%R as E. { rewrite <-real_mul. f_equal. by field. }
  rewrite E. field. done.
Qed.
Lemma rsum_S n f : rsum (S n) f = (rsum n f + f n)%R.
Proof.
  unfold rsum. rewrite seq_S, fmap_app, foldr_app. cbn [foldr fmap list_fmap Nat.add].
  assert (∀ l z, foldr Rplus z l = foldr Rplus 0 l + z)%R as H; [|rewrite H; lra].
  induction l as [|x l IH]; intros z; cbn; [lra|]. rewrite IH. lra.
Qed.
Lemma rsum_le n f h : (∀ k, (k < n)%nat → (f k <= h k)%R) → (rsum n f <= rsum n h)%R.
Proof. induction n as [|n IH]; intros H; [cbn; lra|]. rewrite !rsum_S. specialize (IH ltac:(intros; apply H; lia)). specialize (H n ltac:(lia)). lra. Qed.
Lemma rsum_lt n f h : (0 < n)%nat → (∀ k, (k < n)%nat → (f k < h k)%R) → (rsum n f < rsum n h)%R.
Proof.
  intros Hn H. destruct n as [|n]; [lia|]. rewrite !rsum_S. pose proof (rsum_le n f h ltac:(intros; left; apply H; lia)). specialize (H n ltac:(lia)). lra.
Qed.
Lemma real_rss n p X W b v s : (0 < s)%R →
  rsum n (λ r, log_normal (real (leftover p X W b r v)) s) = (- (INR n / 2) * ln (2 * PI * s) - real (rss n p X W b v) / (2 * s))%R.
Proof.
  intros Hs. unfold rss. induction n as [|n IH]; [cbn; rewrite real_0; field; lra|]. rewrite rsum_S, IH, S_INR. cbn [qsum]. rewrite real_add, real_mul.
  unfold log_normal. field. lra.
Qed.
(** [ln t <= t - 1], strictly unless [t = 1]. *)
Lemma ln_le_pred t : (0 < t)%R → (ln t <= t - 1)%R.
Proof. intros Ht. destruct (Req_dec (ln t) 0) as [E|Hne]. - rewrite E. assert (t = 1)%R; [|lra]. rewrite <-(exp_ln t Ht), E. apply exp_0. - pose proof (exp_ineq1 (ln t) Hne). rewrite exp_ln in H by done. lra. Qed.
Lemma ln_lt_pred t : (0 < t)%R → t ≠ 1%R → (ln t < t - 1)%R.
Proof. intros Ht H1. assert (ln t ≠ 0%R) as Hne. { intros E. apply H1. rewrite <-(exp_ln t Ht), E. apply exp_0. } pose proof (exp_ineq1 (ln t) Hne). rewrite exp_ln in H by done. lra. Qed.
Lemma node_best (n q q' s : R) : (0 < n)%R → (0 < q)%R → (q <= q')%R → (0 < s)%R →
  (- (n / 2) * ln (2 * PI * s) - q' / (2 * s) <= - (n / 2) * ln (2 * PI * (q / n)) - q / (2 * (q / n)))%R ∧
  (s ≠ (q / n)%R → q = q' → (- (n / 2) * ln (2 * PI * s) - q' / (2 * s) < - (n / 2) * ln (2 * PI * (q / n)) - q / (2 * (q / n)))%R).
Proof.
  intros Hn Hq Hqq Hs. pose proof PI_RGT_0 as Hpi. set (t := (q / (n * s))%R).
  assert (0 < t)%R as Ht. { unfold t. apply Rdiv_lt_0_compat; nra. }
  assert (q / n = t * s)%R as ->. { unfold t. field. lra. }
  assert (2 * PI * (t * s) = 2 * PI * s * t)%R as -> by ring. rewrite (ln_mult (2 * PI * s) t) by nra.
  assert (q / (2 * (t * s)) = n / 2)%R as ->. { unfold t. field. lra. }
  assert (q / (2 * s) = n / 2 * t)%R as Eq. { unfold t. field. lra. }
  assert (q / (2 * s) <= q' / (2 * s))%R as Hle. { unfold Rdiv. apply Rmult_le_compat_r; [|done]. left. apply Rinv_0_lt_compat. lra. }
  split.
  - pose proof (ln_le_pred t Ht). set (L := ln (2 * PI * s)) in *. set (K := ln t) in *. clearbody L K. nra.
  - intros Hne <-. assert (t ≠ 1%R) as Ht1. { intros E. apply Hne. rewrite E. ring. }
    pose proof (ln_lt_pred t Ht Ht1). set (L := ln (2 * PI * s)) in *. set (K := ln t) in *. clearbody L K. nra.
Qed.

(** With the fitted variances divided by the number of samples the parameters are the maximum likelihood estimate ... *)
Theorem C102_max_likelihood (o : oracle) (lstsq : nat → mat → vec → vec) (d : dag) (n p : nat) (X : mat) (g : gauss) :
  least_squares lstsq → views_agree d → d_nodes d = list_to_set (seq 0 p) → (0 < n)%nat →
  fit_mle o lstsq d n p X = Ok g → (∀ v, (v < p)%nat → 0 < vec_of (g_var g) v) →
  ∀ W b s, weights_on (d_arcs d) W → (∀ v, (v < p)%nat → 0 < s v) →
  (log_density n p X W b s <= log_density n p X (g_w g) (vec_of (g_bias g)) (λ v, (vec_of (g_var g) v / qz (Z.of_nat n))%Qc))%R.
Proof.
  intros Hls Hv HN Hn Hg Hpos W b s HW Hs. assert (∀ v, v ∈ d_nodes d ↔ (v < p)%nat) as HN' by (intros v; rewrite HN, elem_of_list_to_set, elem_of_seq; lia).
  destruct (C102_fit_mle o lstsq d n p X Hls Hv) as (g' & E & _ & _ & _ & _ & _ & Hf & _); [by intros v ?%HN'|]. rewrite Hg in E. injection E as <-.
  unfold log_density. apply rsum_le. intros v Hlt. destruct (Hf v) as (Hmin & _ & _ & Hvar); [by apply HN'|]. specialize (Hmin W b HW). rewrite <-Hvar in Hmin.
  pose proof (real_lt _ _ (Hpos v Hlt)) as P1. pose proof (real_lt _ _ (Hs v Hlt)) as P2. rewrite real_0 in P1, P2. assert (0 < INR n)%R as P3 by (by apply lt_0_INR).
  rewrite real_div, real_qn by (by apply qn_ne). rewrite (real_rss n p X W b v) by done. rewrite (real_rss n p X (g_w g)) by (by apply Rdiv_lt_0_compat).
  rewrite <-Hvar. apply node_best; try done. by apply real_le.
Qed.
(** ... so the result of [fit_mle] is not, for two samples or more: it has a smaller likelihood. *)
Theorem C102_not_max_likelihood (o : oracle) (lstsq : nat → mat → vec → vec) (d : dag) (n p : nat) (X : mat) (g : gauss) :
  least_squares lstsq → views_agree d → d_nodes d = list_to_set (seq 0 p) → (2 <= n)%nat → (0 < p)%nat →
  fit_mle o lstsq d n p X = Ok g → (∀ v, (v < p)%nat → 0 < vec_of (g_var g) v) →
  (log_density n p X (g_w g) (vec_of (g_bias g)) (vec_of (g_var g)) <
    log_density n p X (g_w g) (vec_of (g_bias g)) (λ v, (vec_of (g_var g) v / qz (Z.of_nat n))%Qc))%R.
Proof.
  intros Hls Hv HN Hn Hp Hg Hpos. assert (∀ v, v ∈ d_nodes d ↔ (v < p)%nat) as HN' by (intros v; rewrite HN, elem_of_list_to_set, elem_of_seq; lia).
  destruct (C102_fit_mle o lstsq d n p X Hls Hv) as (g' & E & _ & _ & _ & _ & _ & Hf & _); [by intros v ?%HN'|]. rewrite Hg in E. injection E as <-.
  unfold log_density. apply rsum_lt; [done|]. intros v Hlt. destruct (Hf v) as (_ & _ & _ & Hvar); [by apply HN'|].
  pose proof (real_lt _ _ (Hpos v Hlt)) as P1. rewrite real_0 in P1. assert (2 <= INR n)%R as P3 by (apply (le_INR 2); lia).
  rewrite real_div, real_qn by (apply qn_ne; lia). rewrite (real_rss n p X (g_w g) _ v (real (vec_of (g_var g) v))) by done. rewrite (real_rss n p X (g_w g)) by (apply Rdiv_lt_0_compat; lra).
  rewrite <-Hvar. apply node_best; try done; [lra|lra|]. intros E. apply (Rmult_eq_compat_r (INR n)) in E. unfold Rdiv in E. rewrite Rmult_assoc, Rinv_l in E by lra. nra.
Qed.

(** Four samples of two variables. *)
Definition ex_samples : mat := λ r c,
  default 0 ([[qz 0; qz 1]; [qz 1; qz 3]; [qz 2; qz 4]; [qz 3; qz 6]] !! r ≫= (.!! c)).
Definition ex_fit_dag : dag := dag_of {[0; 1]}%nat {[(0, 1)]}%nat.
Lemma ex_fit_nodes : d_nodes ex_fit_dag = list_to_set (seq 0 2).
Proof. by_vm. Qed.
Example C102_fit_mle_ex :
  match fit_mle oracle0 exact_lstsq ex_fit_dag 4 2 ex_samples with
  | Ok g => bool_decide (g_w g 0%nat 1%nat = qz 8 / qz 5 ∧ g_bias g = [qz 3 / qz 2; qz 11 / qz 10] ∧ g_var g = [qz 5; / qz 5] ∧ (0, 1)%nat ∈ d_arcs (g_dag g))
  | Raise _ => false end = true.
Proof. vm_compute. reflexivity. Qed.
Example C102_least_squares_ex : least_squares exact_lstsq.
Proof. exact exact_lstsq_ok. Qed.
Theorem C102_mle_refuted : ∃ (d : dag) (n p : nat) (X : mat) (g : gauss) (s : nat → Qc),
  views_agree d ∧ acyclic (d_arcs d) ∧ d_nodes d = list_to_set (seq 0 p) ∧ fit_mle oracle0 exact_lstsq d n p X = Ok g ∧
  (∀ v, (v < p)%nat → 0 < vec_of (g_var g) v ∧ 0 < s v) ∧
  (log_density n p X (g_w g) (vec_of (g_bias g)) (vec_of (g_var g)) < log_density n p X (g_w g) (vec_of (g_bias g)) s)%R.
Proof.
  assert (views_agree ex_fit_dag) as Hv by (apply wf_views_agree, dag_of_wf).
  destruct (C102_fit_mle oracle0 exact_lstsq ex_fit_dag 4 2 ex_samples exact_lstsq_ok Hv) as (g & Hg & _).
  { rewrite ex_fit_nodes. intros v. rewrite elem_of_list_to_set, elem_of_seq. lia. }
  pose proof C102_fit_mle_ex as H. rewrite Hg in H. apply bool_decide_eq_true in H as (_ & _ & H & _).
  assert (∀ v, (v < 2)%nat → 0 < vec_of (g_var g) v) as Hpos.
  { intros v Hlt. rewrite H. destruct v as [|[|v]]; [| |lia]; unfold vec_of; cbn [lookup list_lookup default]; apply Qclt_this; vm_compute; reflexivity. }
  exists ex_fit_dag, 4%nat, 2%nat, ex_samples, g, (λ v, vec_of (g_var g) v / qz (Z.of_nat 4)).
  split; [done|]. split; [apply acyclicb_spec; vm_compute; reflexivity|]. split; [apply ex_fit_nodes|]. split; [done|]. split.
  - intros v Hlt. specialize (Hpos v Hlt). split; [done|]. assert (0 < / qz (Z.of_nat 4)) as H4 by (apply Qc_inv_pos'; apply qn_pos; lia).
    unfold Qcdiv. set (a := vec_of _ _) in *. set (b := / qz _) in *. clearbody a b. qnra.
  - exact (C102_not_max_likelihood oracle0 exact_lstsq ex_fit_dag 4 2 ex_samples g exact_lstsq_ok Hv ex_fit_nodes ltac:(lia) ltac:(lia) Hg Hpos).
Qed.

Print Assumptions C102_fit_mle.
Print Assumptions C102_labels.
Print Assumptions C102_means.
Print Assumptions C102_extended_cov.
Print Assumptions C102_max_likelihood.
Print Assumptions C102_not_max_likelihood.
Print Assumptions C102_mle_refuted.
