(** Final theorems about the log densities of a Gaussian DAG: C133. *)
From mathcomp Require Import all_ssreflect all_algebra.
From Verif Require Import NormalModel NormalProofs.
Set Implicit Arguments.
Unset Strict Implicit.
Unset Printing Implicit Defensive.
Import Order.Theory GRing.Theory Num.Theory.
#[local] Open Scope ring_scope.

(** The logarithm of the density of the normal distribution with mean [mean] and covariance matrix [S] at [x]. *)
Definition log_density (F : rcfType) (ln : F -> F) (log2pi : F) (m : nat) (mean : 'rV[F]_m) (S : 'M[F]_m) (x : 'rV[F]_m) : F :=
  - (1 / 2%:R) * (m%:R * log2pi + ((x - mean) *m invmx S *m (x - mean)^T) 0 0 + ln (\det S)).

(** ** C133: [fast_logpdf], [log_probability] and [logpdf] *)

Lemma empty_quad (F : rcfType) (m : nat) (S : 'M[F]_m) (dev : 'rV[F]_m) : m = 0%N -> (dev *m invmx S *m dev^T) 0 0 = 0 /\ \det S = 1.
Proof. move=> m0; subst m. by rewrite mxE big_ord0 det_mx00. Qed.
Lemma log_density1 (F : rcfType) (ln : F -> F) (log2pi a s y : F) : 0 < s ->
  log_density ln log2pi (\row__ a : 'rV[F]_1) s%:M (\row__ y) = norm_logpdf ln log2pi (y - a) s.
Proof.
move=> Hs; rewrite /log_density /norm_logpdf mul1r det_scalar1 invmx_scalar. congr (_ * (_ + _ + _)); first by rewrite mul1r.
by rewrite mul_mx_scalar mxE big_ord1 !mxE expr2 -[LHS]mulrA [LHS]mulrC.
Qed.

(** If arcs go from smaller to larger nodes and variances are positive, [fast_logpdf] is the log density of the
    marginal distribution of the given distinct nodes under the structural equations: the means are the solution of
    [mu = mu W + b] and the covariance matrix that of [e (I - W)^-1] for independent [e] with variances [var]. *)
Theorem C133_fast_logpdf (F : rcfType) (ln : F -> F) (log2pi : F) eigh (n : nat) (W : 'M[F]_n) (var b : 'rV[F]_n) (m : nat) (nodes : 'I_m -> 'I_n) (x : 'rV[F]_n) :
  upward W -> (forall i, 0 < var 0 i) -> log_rule ln -> injective nodes ->
  let mean := b *m invmx (1%:M - W) in
  let cov := (invmx (1%:M - W))^T *m diag_mx var *m invmx (1%:M - W) in
  let S : 'M[F]_m := \matrix_(i, j) cov (nodes i) (nodes j) in
  eigen_of S (eigh m S) ->
  fast_logpdf ln log2pi eigh W var b nodes x = log_density ln log2pi (\row_i mean 0 (nodes i)) S (\row_i x 0 (nodes i)).
Proof.
move=> HW Hvar Hln Hinj. cbv zeta. rewrite -covE => He.
have Hm : b *m invmx (1%:M - W) = n_means W b by rewrite -{1}(means_B b HW) -mulmxA (mulmxV (B_unit HW)) mulmx1.
rewrite Hm /fast_logpdf /log_density. set S := \matrix_(i, j) _ in He *.
have HS : posdef S by apply: sub_posdef.
rewrite (eigen_maha HS He) (ln_prod Hln (eigen_pos HS He)) (eigen_det He).
case: eqP => [m0|//]. move: (\row_i x 0 (nodes i) - _) => dev.
have [-> ->] := empty_quad S dev m0.
have -> : ln 1 = 0 by apply: (addrI (ln 1)); rewrite addr0 -Hln ?mulr1 ?ltr01.
by rewrite m0 mul0r !addr0 mulr0.
Qed.

(** [log_probability] is the sum of the log densities of the nodes given their parents, biases included. *)
Theorem C133_log_probability (F : rcfType) (ln : F -> F) (log2pi : F) eigh (n : nat) (W : 'M[F]_n) (var b x : 'rV[F]_n) :
  upward W -> (forall i, 0 < var 0 i) -> log_rule ln -> eigen_of (n_cov W var) (eigh n (n_cov W var)) ->
  log_probability ln log2pi eigh W var b x =
  \sum_i log_density ln log2pi (\row__ (b 0 i + \sum_j x 0 j * W j i)) (var 0 i)%:M (\row__ x 0 i : 'rV[F]_1).
Proof.
move=> HW Hvar Hln He. rewrite (eq_bigr (fun i => norm_logpdf ln log2pi (x 0 i - (b 0 i + \sum_j x 0 j * W j i)) (var 0 i))); last first.
  by move=> i _; rewrite log_density1.
have E (A : 'M[F]_n) : \matrix_(i, j) A i j = A by apply/matrixP => i j; rewrite mxE.
have Er (v : 'rV[F]_n) : \row_i v 0 i = v by apply/rowP => i; rewrite mxE.
rewrite /log_probability C133_fast_logpdf //; last first.
  by rewrite -covE E.
rewrite -covE E !Er /log_density (cov_inv HW Hvar) (cov_det var HW).
set mean := b *m _. have Hd : (x - mean) *m (1%:M - W) = x *m (1%:M - W) - b by rewrite mulmxBl /mean -mulmxA (mulVmx (B_unit HW)) mulmx1.
have -> : (x - mean) *m ((1%:M - W) *m diag_mx (\row_i (var 0 i)^-1) *m (1%:M - W)^T) *m (x - mean)^T =
  ((x - mean) *m (1%:M - W)) *m diag_mx (\row_i (var 0 i)^-1) *m ((x - mean) *m (1%:M - W))^T by rewrite trmx_mul !mulmxA.
rewrite quad_diag Hd -(ln_prod Hln Hvar) /norm_logpdf -mulr_sumr !big_split /= sumr_const card_ord.
congr (_ * (_ + _ + _)); first by rewrite mulr_natl.
apply: eq_bigr => i _. congr (_ ^+ 2 * _); last by rewrite mxE.
by rewrite mulmxBr mulmx1 !mxE opprD addrA addrAC.
Qed.
Lemma foldl_sum (F : rcfType) (T : Type) (f : T -> F) (s : seq T) (a : F) : foldl (fun acc i => acc + f i) a s = a + \sum_(i <- s) f i.
Proof. elim: s a => [|i s IH] a /=; first by rewrite big_nil addr0. by rewrite IH big_cons addrA. Qed.
(** With biases 0 it agrees with [logpdf], for every topological order. *)
Theorem C133_logpdf (F : rcfType) (ln : F -> F) (log2pi : F) eigh (n : nat) (W : 'M[F]_n) (var x : 'rV[F]_n) (order : seq 'I_n) :
  upward W -> (forall i, 0 < var 0 i) -> log_rule ln -> eigen_of (n_cov W var) (eigh n (n_cov W var)) -> perm_eq order (enum 'I_n) ->
  log_probability ln log2pi eigh W var 0 x = n_logpdf ln log2pi W var order x.
Proof.
move=> HW Hvar Hln He Hord. rewrite C133_log_probability //.
have -> : n_logpdf ln log2pi W var order x = \sum_(i <- order) norm_logpdf ln log2pi (x 0 i - \sum_(j | W j i != 0) x 0 j * W j i) (var 0 i).
  by rewrite /n_logpdf foldl_sum add0r.
rewrite (perm_big _ Hord) /= big_enum /=. apply: eq_bigr => i _. rewrite log_density1 // mxE add0r. congr (norm_logpdf _ _ (_ - _) _).
rewrite (bigID (fun j => W j i != 0)) /= [X in _ + X]big1 ?addr0 // => j; by rewrite negbK => /eqP ->; rewrite mulr0.
Qed.
(** With another bias the two differ already for one node. *)
Theorem C133_biases_refuted (F : rcfType) (ln : F -> F) (log2pi : F) : log_rule ln ->
  exists eigh (W : 'M[F]_1) (var b x : 'rV[F]_1), upward W /\ (forall i, 0 < var 0 i) /\ eigen_of (n_cov W var) (eigh 1%N (n_cov W var)) /\
    log_probability ln log2pi eigh W var b x <> n_logpdf ln log2pi W var (enum 'I_1) x.
Proof.
move=> Hln. exists (fun m S => (\row_i S i i, 1%:M)), 0, (const_mx 1), (const_mx 1), 0.
have HW : upward (0 : 'M[F]_1) by move=> i j; rewrite mxE eqxx.
have Hv : forall i, 0 < (const_mx 1 : 'rV[F]_1) 0 i by move=> i; rewrite mxE ltr01.
have He : eigen_of (n_cov (0 : 'M[F]_1) (const_mx 1)) (\row_i n_cov (0 : 'M[F]_1) (const_mx 1) i i, 1%:M).
  split=> /=; last by rewrite trmx1 mulmx1.
  rewrite trmx1 mulmx1 mul1mx. by apply/matrixP => i j; rewrite !ord1 !mxE eqxx mulr1n.
split=> //. split=> //. split=> //. rewrite C133_log_probability // big_ord1 log_density1 ?Hv //.
rewrite /n_logpdf enum_ordS enum_ord0 /= !big1; try by move=> j _; rewrite !mxE mul0r.
rewrite !mxE !add0r addr0 oppr0 /norm_logpdf sqrrN expr1n expr0n /= mul0r addr0 divr1 => /eqP.
have h : - (1 / 2%:R) != 0 :> F by rewrite oppr_eq0 div1r invr_eq0 pnatr_eq0.
rewrite (inj_eq (mulfI h)) (inj_eq (addIr _)) -subr_eq0 addrAC subrr add0r oner_eq0. by [].
Qed.

(** Two nodes with variances 10 and 13/5, the weight 6/5 and any biases; the covariance matrix is ((10, 12), (12, 17)), and the stated
    eigenvalues 26 and 1 with vectors (3, 4)/5 and (-4, 3)/5 meet the assumption about [eigh]. *)
Definition exW : 'M[rat]_2 := \matrix_(i, j) if (i == 0) && (j == 1) then 6%:R / 5%:R else 0.
Definition exvar : 'rV[rat]_2 := \row_i if i == 0 then 10%:R else 13%:R / 5%:R.
Definition exvals : 'rV[rat]_2 := \row_i if i == 0 then 26%:R else 1.
Definition exvecs : 'M[rat]_2 :=
  \matrix_(i, j) if i == j then 3%:R / 5%:R else if i == 0 then - 4%:R / 5%:R else 4%:R / 5%:R.
Lemma mx2P (A B : 'M[rat]_2) : A 0 0 = B 0 0 -> A 0 1 = B 0 1 -> A 1 0 = B 1 0 -> A 1 1 = B 1 1 -> A = B.
Proof.
move=> H1 H2 H3 H4. apply/matrixP => i j.
have [->|->] : i = 0 \/ i = 1 by case: i => [[|[|k]] Hk] //; [left|right]; apply/val_inj.
all: have [->|->] : j = 0 \/ j = 1 by case: j => [[|[|k]] Hk] //; [left|right]; apply/val_inj.
all: by [].
Qed.
Lemma exW_inv : invmx (1%:M - exW) = 1%:M + exW.
Proof.
have H : (1%:M - exW) *m (1%:M + exW) = 1%:M.
  by apply: mx2P; rewrite mxE !big_ord_recl big_ord0 !mxE; vm_compute.
have [U _] := mulmx1_unit H. have := congr1 (mulmx (invmx (1%:M - exW))) H. by rewrite mulmxA (mulVmx U) mul1mx mulmx1.
Qed.
Lemma excov : (invmx (1%:M - exW))^T *m diag_mx exvar *m invmx (1%:M - exW) = exvecs *m diag_mx exvals *m exvecs^T.
Proof.
rewrite exW_inv. by apply: mx2P; do ! (rewrite mxE ?big_ord_recl ?big_ord0); vm_compute.
Qed.
Lemma exorth : exvecs^T *m exvecs = 1%:M.
Proof. by apply: mx2P; rewrite mxE !big_ord_recl big_ord0 !mxE; vm_compute. Qed.
Definition emb (F : rcfType) (m n : nat) (A : 'M[rat]_(m, n)) : 'M[F]_(m, n) := map_mx (ratr : rat -> F) A.
Lemma emb_mul (F : rcfType) (m n p : nat) (A : 'M[rat]_(m, n)) (B : 'M[rat]_(n, p)) : emb F (A *m B) = emb F A *m emb F B.
Proof. exact: (map_mxM (ratr_rmorphism F)). Qed.
Lemma emb_tr (F : rcfType) (m n : nat) (A : 'M[rat]_(m, n)) : emb F A^T = (emb F A)^T.
Proof. by rewrite /emb map_trmx. Qed.
Lemma emb_diag (F : rcfType) (n : nat) (d : 'rV[rat]_n) : emb F (diag_mx d) = diag_mx (emb F d).
Proof. exact: (map_diag_mx (ratr_rmorphism F)). Qed.
Lemma emb_inv (F : rcfType) (n : nat) (A : 'M[rat]_n) : emb F (invmx (1%:M - A)) = invmx (1%:M - emb F A).
Proof.
have -> : 1%:M - emb F A = emb F (1%:M - A) by rewrite /emb -(map_mx1 (ratr_rmorphism F)) -(map_mxB (ratr_rmorphism F)).
exact: (map_invmx (ratr_rmorphism F)).
Qed.
Lemma emb_one (F : rcfType) (n : nat) : emb F (1%:M : 'M[rat]_n) = 1%:M.
Proof. exact: (map_mx1 (ratr_rmorphism F)). Qed.
Example C133_example (F : rcfType) :
  exists eigh : forall m, 'M[F]_m -> 'rV[F]_m * 'M[F]_m,
    upward (emb F exW) /\ (forall i, 0 < emb F exvar 0 i) /\
    eigh 2%N (n_cov (emb F exW) (emb F exvar)) = (emb F exvals, emb F exvecs) /\
    eigen_of (n_cov (emb F exW) (emb F exvar)) (eigh 2%N (n_cov (emb F exW) (emb F exvar))).
Proof.
exists (fun m => match m with 2 => fun _ => (emb F exvals, emb F exvecs) | _ => fun _ => (0, 0) end).
split; [|split; [|split=> //]].
- move=> i j; rewrite !mxE. case: i => [[|[|k]] Hk] //; case: j => [[|[|l]] Hl] //=; by rewrite raddf0 eqxx.
- move=> i; rewrite !mxE. by case: ifP => _; rewrite ltr0q.
- split=> /=.
    by rewrite covE -emb_inv -!emb_tr -!emb_diag -!emb_mul excov.
  by rewrite -emb_tr -emb_mul exorth emb_one.
Qed.

Print Assumptions C133_fast_logpdf.
Print Assumptions C133_log_probability.
Print Assumptions C133_logpdf.
Print Assumptions C133_biases_refuted.
