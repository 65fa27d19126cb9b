(** Lemmas about positive definite matrices, their eigenvalues and the covariance matrix of a Gaussian DAG. *)
From mathcomp Require Import all_ssreflect all_algebra.
From Verif Require Import NormalModel.
Set Implicit Arguments.
Unset Strict Implicit.
Unset Printing Implicit Defensive.
Import Order.Theory GRing.Theory Num.Theory.
#[local] Open Scope ring_scope.

(** All arcs go from smaller to larger nodes. *)
Definition upward (F : rcfType) (n : nat) (W : 'M[F]_n) : Prop := forall i j : 'I_n, W i j != 0 -> (i < j)%N.
(** [r] consists of eigenvalues and orthonormal eigenvectors of [S]. *)
Definition eigen_of (F : rcfType) (m : nat) (S : 'M[F]_m) (r : 'rV[F]_m * 'M[F]_m) : Prop :=
  S = r.2 *m diag_mx r.1 *m r.2^T /\ r.2^T *m r.2 = 1%:M.
Definition log_rule (F : rcfType) (ln : F -> F) : Prop := forall x y, 0 < x -> 0 < y -> ln (x * y) = ln x + ln y.
Definition posdef (F : rcfType) (m : nat) (S : 'M[F]_m) : Prop := forall v : 'rV[F]_m, v != 0 -> 0 < (v *m S *m v^T) 0 0.

Section general.
Variable F : rcfType.

Lemma quad_diag (m : nat) (u d : 'rV[F]_m) : (u *m diag_mx d *m u^T) 0 0 = \sum_i u 0 i ^+ 2 * d 0 i.
Proof. rewrite mxE; apply: eq_bigr => i _; by rewrite mul_mx_diag !mxE expr2 -mulrA (mulrC (d 0 i)) mulrA. Qed.

Lemma row_neq0 (m : nat) (v : 'rV[F]_m) : v != 0 -> exists i, v 0 i != 0.
Proof.
move=> Hv; apply/existsP; apply: contraR Hv => /existsPn H; apply/eqP/matrixP => i j; rewrite ord1 mxE.
by move: (H j); rewrite negbK => /eqP.
Qed.

Lemma sum_sq_pos (m : nat) (u d : 'rV[F]_m) : (forall i, 0 < d 0 i) -> u != 0 -> 0 < \sum_i u 0 i ^+ 2 * d 0 i.
Proof.
move=> Hd /row_neq0 [i Hi]; rewrite (bigD1 i) //= ltr_spaddl //.
  by rewrite mulr_gt0 // lt0r sqrf_eq0 Hi sqr_ge0.
by apply: sumr_ge0 => j _; rewrite mulr_ge0 ?sqr_ge0 // ltW.
Qed.

Lemma ln_prod (ln : F -> F) (m : nat) (d : 'rV[F]_m) : log_rule ln -> (forall i, 0 < d 0 i) -> \sum_i ln (d 0 i) = ln (\prod_i d 0 i).
Proof.
move=> Hln Hd. have ln1 : ln 1 = 0 by apply: (addrI (ln 1)); rewrite addr0 -Hln ?mulr1 ?ltr01.
suff [] : 0 < \prod_i d 0 i /\ \sum_i ln (d 0 i) = ln (\prod_i d 0 i) by [].
elim/big_rec2: _ => [|i y1 y2 _ [H1 H2]]; first by rewrite ltr01 ln1.
by rewrite mulr_gt0 // Hln // H2.
Qed.

Section spectral.
Variables (m : nat) (S : 'M[F]_m) (r : 'rV[F]_m * 'M[F]_m).
Hypotheses (HS : posdef S) (Hr : eigen_of S r).

Lemma eigen_pos (j : 'I_m) : 0 < r.1 0 j.
Proof using HS Hr.
case: Hr => E O. pose d : 'rV[F]_m := delta_mx 0 j. pose v := d *m r.2^T.
have vV : v *m r.2 = d by rewrite /v -mulmxA O mulmx1.
have Hv : v != 0.
  apply/eqP => v0; move: vV; rewrite v0 mul0mx /d => /matrixP /(_ 0 j); rewrite !mxE !eqxx => /eqP; by rewrite eq_sym oner_eq0.
have := HS Hv. rewrite E !mulmxA vV. have -> : d *m diag_mx r.1 *m r.2^T *m v^T = d *m diag_mx r.1 *m d^T.
  have dT : d^T = r.2^T *m v^T by rewrite -trmx_mul vV.
  by rewrite dT !mulmxA.
rewrite quad_diag (bigD1 j) //= big1 ?addr0; last first.
  by move=> i Hi; rewrite /d mxE (negbTE Hi) andbF expr0n /= mul0r.
by rewrite /d mxE !eqxx expr1n mul1r.
Qed.

Lemma eigen_inv : S *m (r.2 *m diag_mx (\row_j (1 / r.1 0 j)) *m r.2^T) = 1%:M.
Proof using HS Hr.
case: Hr => E O. rewrite [in LHS]E !mulmxA -(mulmxA _ r.2^T r.2) O mulmx1.
have -> : r.2 *m diag_mx r.1 *m diag_mx (\row_j (1 / r.1 0 j)) = r.2.
  rewrite -mulmxA; have -> : diag_mx r.1 *m diag_mx (\row_j (1 / r.1 0 j)) = 1%:M; last by rewrite mulmx1.
  apply/matrixP => i j; rewrite mul_diag_mx !mxE. case: eqP => [->|_]; last by rewrite !mulr0n mulr0.
  by rewrite !mulr1n div1r divff // lt0r_neq0 // eigen_pos.
exact: mulmx1C O.
Qed.

Lemma eigen_invmx : invmx S = r.2 *m diag_mx (\row_j (1 / r.1 0 j)) *m r.2^T.
Proof using HS Hr.
have [US _] := mulmx1_unit eigen_inv. by rewrite -[LHS]mulmx1 -eigen_inv (mulmxA (invmx S)) (mulVmx US) mul1mx.
Qed.

Lemma eigen_maha (dev : 'rV[F]_m) :
  \sum_j ((dev *m (\matrix_(i, j) (r.2 i j * Num.sqrt (1 / r.1 0 j)))) 0 j) ^+ 2 = (dev *m invmx S *m dev^T) 0 0.
Proof using HS Hr.
rewrite eigen_invmx. have -> : dev *m (r.2 *m diag_mx (\row_j (1 / r.1 0 j)) *m r.2^T) *m dev^T = (dev *m r.2) *m diag_mx (\row_j (1 / r.1 0 j)) *m (dev *m r.2)^T.
  by rewrite trmx_mul !mulmxA.
rewrite quad_diag; apply: eq_bigr => j _.
have -> : (dev *m (\matrix_(i, j0) (r.2 i j0 * Num.sqrt (1 / r.1 0 j0)))) 0 j = (dev *m r.2) 0 j * Num.sqrt (1 / r.1 0 j).
  by rewrite !mxE mulr_suml; apply: eq_bigr => i _; rewrite !mxE mulrA.
rewrite exprMn sqr_sqrtr; first by congr (_ * _); rewrite mxE.
by rewrite divr_ge0 ?ler01 // ltW // eigen_pos.
Qed.

Lemma eigen_det : \prod_j r.1 0 j = \det S.
Proof using Hr.
case: Hr => E O. rewrite E !det_mulmx det_diag mulrAC -det_mulmx (mulmx1C O) det1 mul1r. by [].
Qed.
End spectral.

(** ** The covariance matrix *)
Section cov.
Variables (n : nat) (W : 'M[F]_n) (var b : 'rV[F]_n).
Hypotheses (HW : upward W) (Hvar : forall i, 0 < var 0 i).
Notation B := (1%:M - W).

Lemma W_upper (i j : 'I_n) : (j <= i)%N -> W i j = 0.
Proof using HW. move=> H; apply/eqP; apply: contraTT H => /HW; by rewrite -ltnNge. Qed.

Lemma B_det : \det B = 1.
Proof using HW.
rewrite -det_tr det_trig; last first.
  apply/is_trig_mxP => i j Hij; rewrite !mxE W_upper 1?ltnW // subr0. case: eqP => // ji. by move: Hij; rewrite ji ltnn.
by rewrite big1 // => i _; rewrite !mxE eqxx W_upper // subr0.
Qed.
Lemma B_unit : B \in unitmx.
Proof using HW. by rewrite unitmxE B_det unitr1. Qed.

Lemma covE : n_cov W var = (invmx B)^T *m diag_mx var *m invmx B.
Proof using.
rewrite /n_cov; case: ifP => // /forallP H. have -> : diag_mx var = 1%:M; last by rewrite mulmx1.
by apply/matrixP => i j; rewrite !mxE (eqP (H i)).
Qed.

Lemma cov_posdef : posdef (n_cov W var).
Proof using HW Hvar.
move=> v Hv; rewrite covE. have -> : v *m ((invmx B)^T *m diag_mx var *m invmx B) *m v^T = (v *m (invmx B)^T) *m diag_mx var *m (v *m (invmx B)^T)^T.
  by rewrite trmx_mul trmxK !mulmxA.
rewrite quad_diag. apply: sum_sq_pos => //. apply/eqP => H. move/eqP: Hv; apply.
have UT : B^T \in unitmx by rewrite unitmx_tr B_unit.
by rewrite -[v]mulmx1 -(mulVmx UT) mulmxA -trmx_inv H mul0mx.
Qed.

Lemma cov_inv : invmx (n_cov W var) = B *m diag_mx (\row_i (var 0 i)^-1) *m B^T.
Proof using HW Hvar.
have E : n_cov W var *m (B *m diag_mx (\row_i (var 0 i)^-1) *m B^T) = 1%:M.
  rewrite covE !mulmxA -(mulmxA _ (invmx B) B) (mulVmx B_unit) mulmx1.
  have -> : (invmx B)^T *m diag_mx var *m diag_mx (\row_i (var 0 i)^-1) = (invmx B)^T.
    rewrite -mulmxA; have -> : diag_mx var *m diag_mx (\row_i (var 0 i)^-1) = 1%:M; last by rewrite mulmx1.
    apply/matrixP => i j; rewrite mul_diag_mx !mxE. case: eqP => [->|_]; last by rewrite !mulr0n mulr0.
    by rewrite !mulr1n divff // lt0r_neq0.
  by rewrite -trmx_mul (mulmxV B_unit) trmx1.
have [US _] := mulmx1_unit E. by rewrite -[LHS]mulmx1 -[in LHS]E (mulmxA (invmx _)) (mulVmx US) mul1mx.
Qed.

Lemma cov_det : \det (n_cov W var) = \prod_i var 0 i.
Proof using HW.
have D : \det (invmx B) = 1 by rewrite det_inv B_det invr1.
by rewrite covE !det_mulmx det_tr D det_diag mul1r mulr1.
Qed.

(** A submatrix. *)
Lemma sub_posdef (m : nat) (f : 'I_m -> 'I_n) : injective f -> posdef (\matrix_(i, j) n_cov W var (f i) (f j)).
Proof using HW Hvar.
move=> Hf v Hv. pose E : 'M[F]_(m, n) := \matrix_(i, k) (k == f i)%:R.
have -> : \matrix_(i, j) n_cov W var (f i) (f j) = E *m n_cov W var *m E^T.
  have E1 (p : nat) (A : 'M[F]_(n, p)) i j : (E *m A) i j = A (f i) j.
    rewrite mxE (bigD1 (f i)) //= big1 ?addr0; first by rewrite mxE eqxx mul1r.
    by move=> k Hk; rewrite mxE (negbTE Hk) mul0r.
  have E2 (p : nat) (A : 'M[F]_(p, n)) i j : (A *m E^T) i j = A i (f j).
    rewrite mxE (bigD1 (f j)) //= big1 ?addr0; first by rewrite !mxE eqxx mulr1.
    by move=> k Hk; rewrite !mxE (negbTE Hk) mulr0.
  by apply/matrixP => i j; rewrite E2 E1 mxE.
have -> : v *m (E *m n_cov W var *m E^T) *m v^T = (v *m E) *m n_cov W var *m (v *m E)^T by rewrite trmx_mul !mulmxA.
apply: cov_posdef. have [i Hi] := row_neq0 Hv. apply/eqP => /matrixP /(_ 0 (f i)); rewrite !mxE (bigD1 i) //= big1 ?addr0.
  by rewrite mxE eqxx mulr1 => /eqP H; move: Hi; rewrite H.
by move=> k Hk; rewrite mxE (inj_eq Hf) eq_sym (negbTE Hk) mulr0.
Qed.

(** The means. *)
Definition mean_step (mu : 'rV[F]_n) (i : 'I_n) : 'rV[F]_n := \row_k if k == i then \sum_(j | W j i != 0) W j i * mu 0 j + b 0 i else mu 0 k.
Lemma means_run (s : seq 'I_n) (mu : 'rV[F]_n) : sorted (fun i j : 'I_n => (i < j)%N) s ->
  (forall k, k \notin s -> foldl mean_step mu s 0 k = mu 0 k) /\
  (forall k, k \in s -> foldl mean_step mu s 0 k = \sum_(j | W j k != 0) W j k * foldl mean_step mu s 0 j + b 0 k).
Proof using HW.
elim: s mu => [|i s IH] mu Hs //=.
have tr : transitive (fun i j : 'I_n => (i < j)%N) by move=> a c d; apply: ltn_trans.
move: Hs; rewrite /= (path_sortedE tr) => /andP [/allP Hi Hs]. have [I1 I2] := IH (mean_step mu i) Hs.
have J1 : forall k, k \notin i :: s -> foldl mean_step (mean_step mu i) s 0 k = mu 0 k.
  move=> k; rewrite inE negb_or => /andP [ki ks]. by rewrite I1 // mxE (negbTE ki).
split=> // k; rewrite inE => /orP [/eqP ->|]; last exact: I2.
have is_ : i \notin s by apply/negP => /Hi; rewrite ltnn.
rewrite I1 // mxE eqxx. congr (_ + _). apply: eq_bigr => j Hj. congr (_ * _). rewrite J1 // inE negb_or.
have ji := HW Hj. apply/andP; split; first by apply/eqP => E; move: ji; rewrite E ltnn.
by apply/negP => /Hi; rewrite ltnNge (ltnW ji).
Qed.
Lemma means_ok (i : 'I_n) : n_means W b 0 i = \sum_j n_means W b 0 j * W j i + b 0 i.
Proof using HW.
have Hs : sorted (fun i j : 'I_n => (i < j)%N) (enum 'I_n).
  have := iota_ltn_sorted 0 n. by rewrite -val_enum_ord sorted_map.
have [_ H] := means_run 0 Hs. have E : n_means W b = foldl mean_step 0 (enum 'I_n) by [].
rewrite E (H i) ?mem_enum //. congr (_ + _). rewrite [RHS](bigID (fun j => W j i != 0)) /= [X in _ + X]big1 ?addr0.
  by apply: eq_bigr => j _; rewrite mulrC.
by move=> j; rewrite negbK => /eqP ->; rewrite mulr0.
Qed.
Lemma means_B : n_means W b *m B = b.
Proof using HW.
apply/rowP => i; rewrite mulmxBr mulmx1 [LHS]mxE [X in _ + X]mxE [X in _ - X]mxE means_ok addrAC subrr add0r. by [].
Qed.
End cov.
End general.
