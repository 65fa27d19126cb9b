(** Proofs about fitting linear Gaussian models. *)
From Coq Require Import QArith.Qcanon Field.
From Verif Require Import Py Spec DagModel QMatModel GaussModel GaussLinModel GaussFitModel SpecGaussFit SpecLin TopoProofs StateProofs QMatProofs SemProofs QcTac.
#[local] Open Scope Qc_scope.

(** ** Projections *)
Definition dot (n : nat) (u v : vec) : Qc := qsum n (λ i, u i * v i).
Definition lin (k : nat) (c : nat → vec) (x : vec) : vec := λ r, qsum k (λ j, c j r * x j).
Lemma dot_sym n u v : dot n u v = dot n v u.
Proof. apply qsum_ext. intros. ring. Qed.
Lemma dot_sub_r n u v w : dot n u (λ r, v r - w r) = dot n u v - dot n u w.
Proof. unfold dot. rewrite <-qsum_sub. apply qsum_ext. intros. ring. Qed.
Lemma dot_sub_l n u v w : dot n (λ r, v r - w r) u = dot n v u - dot n w u.
Proof. rewrite dot_sym, dot_sub_r. by rewrite (dot_sym n u v), (dot_sym n u w). Qed.
Lemma dot_mul_r n u v t : dot n u (λ r, t * v r) = t * dot n u v.
Proof. unfold dot. rewrite <-qsum_mul_l. apply qsum_ext. intros. ring. Qed.
Lemma dot_ext n u v u' v' : (∀ r, (r < n)%nat → u r = u' r) → (∀ r, (r < n)%nat → v r = v' r) → dot n u v = dot n u' v'.
Proof. intros H1 H2. apply qsum_ext. intros k Hk. by rewrite H1, H2. Qed.
Lemma dot_lin n k c x u : dot n u (lin k c x) = qsum k (λ j, dot n u (c j) * x j).
Proof.
  unfold dot, lin. rewrite (qsum_ext n _ (λ i, qsum k (λ j, u i * (c j i * x j)))) by (intros; by rewrite qsum_mul_l).
  rewrite qsum_swap. apply qsum_ext. intros j _. rewrite <-qsum_mul_r. apply qsum_ext. intros. ring.
Qed.
Lemma dot_lin0 n k c x u : (∀ j, (j < k)%nat → dot n u (c j) = 0) → dot n u (lin k c x) = 0.
Proof. intros H. rewrite dot_lin. apply qsum_zero. intros j Hj. rewrite H by done. ring. Qed.
Lemma dot_nonneg n u : 0 <= dot n u u.
Proof. apply qsum_nonneg. intros. apply Qc_square_nonneg. Qed.
Lemma dot_zero n u : dot n u u = 0 → ∀ r, (r < n)%nat → u r = 0.
Proof.
  intros H r Hr. destruct (decide (u r = 0)) as [|Hne]; [done|]. assert (0 < dot n u u) as Hp.
  { apply (qsum_pos _ _ r); [intros; apply Qc_square_nonneg|done|by apply Qc_square_pos]. }
  rewrite H in Hp. by destruct (Qclt_not_eq _ _ Hp).
Qed.

(** A vector of length [k] that is computed once. *)
Definition memo (k : nat) (f : vec) : vec := let l := f <$> seq 0 k in λ i, default 0 (l !! i).
Lemma memo_at k f i : (i < k)%nat → memo k f i = f i.
Proof. intros Hi. unfold memo. by rewrite list_lookup_fmap, lookup_seq_lt. Qed.
Lemma lin_memo k c x r : lin k c (memo k x) r = lin k c x r.
Proof. apply qsum_ext. intros j Hj. by rewrite memo_at. Qed.
(** Coefficients of a projection of [y] on the space of [c 0 .. c (k - 1)]. *)
Fixpoint proj (n k : nat) (c : nat → vec) (y : vec) : vec :=
  match k with
  | O => λ _, 0
  | S k =>
    let zc := memo k (proj n k c (c k)) in
    let rk : vec := memo n (λ r, c k r - lin k c zc r) in
    let zy := memo k (proj n k c y) in
    let t := dot n rk y / dot n rk rk in
    λ j, if decide (j = k) then t else zy j - t * zc j
  end.
Lemma proj_normal n k c : ∀ y i, (i < k)%nat → dot n (c i) (λ r, y r - lin k c (proj n k c y) r) = 0.
Proof.
  induction k as [|k IH]; [lia|]. intros y.
  set (zc := memo k (proj n k c (c k))). set (zy := memo k (proj n k c y)). set (rk := memo n (λ r, c k r - lin k c zc r)). set (t := dot n rk y / dot n rk rk).
  assert (∀ r, (r < n)%nat → rk r = c k r - lin k c zc r) as Hrk by (intros r Hr; by apply memo_at).
  assert (∀ y i, (i < k)%nat → dot n (c i) (λ r, y r - lin k c (memo k (proj n k c y)) r) = 0) as IH'.
  { intros y' i Hi. rewrite <-(IH y' i Hi). apply dot_ext; [done|]. intros r _. by rewrite lin_memo. }
  assert (∀ i, (i < k)%nat → dot n (c i) rk = 0) as Hrk0.
  { intros i Hi. rewrite <-(IH' (c k) i Hi). by apply dot_ext. }
  assert (∀ r, (r < n)%nat → y r - lin (S k) c (proj n (S k) c y) r = (y r - lin k c zy r) - t * rk r) as Hres.
  { intros r Hr. change (proj n (S k) c y) with (λ j, if decide (j = k) then t else zy j - t * zc j).
    unfold lin at 1. cbn [qsum]. rewrite decide_True by done.
    rewrite (qsum_ext k _ (λ j, c j r * zy j - t * (c j r * zc j))) by (intros j Hj; rewrite decide_False by lia; ring).
    rewrite qsum_sub, qsum_mul_l. fold (lin k c zy r). fold (lin k c zc r). rewrite Hrk by done. ring. }
  assert (∀ i, (i < k)%nat → dot n (c i) (λ r, (y r - lin k c zy r) - t * rk r) = 0) as Hlow.
  { intros i Hi. rewrite (dot_sub_r n (c i) (λ r, y r - lin k c zy r) (λ r, t * rk r)), dot_mul_r. unfold zy. rewrite IH', Hrk0 by done. ring. }
  intros i Hi. rewrite (dot_ext n (c i) _ (c i) (λ r, (y r - lin k c zy r) - t * rk r)) by done.
  destruct (decide (i = k)) as [->|Hne]; [|apply Hlow; lia].
  rewrite (dot_ext n (c k) _ (λ r, rk r - (0 - lin k c zc r)) (λ r, (y r - lin k c zy r) - t * rk r)); [|intros r Hr; rewrite (Hrk r Hr); ring|done].
  rewrite (dot_sub_l n _ rk (λ r, 0 - lin k c zc r)), (dot_sub_l n _ (λ _, 0) (lin k c zc)).
  rewrite (dot_sym n (lin k c zc)), (dot_lin0 n k c zc) by (intros j Hj; rewrite dot_sym; by apply Hlow).
  assert (dot n (λ _, 0) (λ r, y r - lin k c zy r - t * rk r) = 0) as -> by (apply qsum_zero; intros; ring).
  rewrite (dot_sub_r n rk (λ r, y r - lin k c zy r) (λ r, t * rk r)), dot_mul_r, dot_sub_r.
  rewrite (dot_lin0 n k c zy rk) by (intros j Hj; rewrite dot_sym; by apply Hrk0).
  destruct (decide (dot n rk rk = 0)) as [E|Hne].
  - assert (dot n rk y = 0) as ->; [|rewrite E; ring]. apply qsum_zero. intros r Hr. rewrite (dot_zero n rk E r Hr). ring.
  - unfold t. by field.
Qed.
Lemma normal_min n k c y x x' : (∀ i, (i < k)%nat → dot n (c i) (λ r, y r - lin k c x r) = 0) →
  dot n (λ r, y r - lin k c x r) (λ r, y r - lin k c x r) <= dot n (λ r, y r - lin k c x' r) (λ r, y r - lin k c x' r).
Proof.
  intros H. set (e := λ r, y r - lin k c x r) in *. set (s := lin k c (λ j, x' j - x j)).
  assert (∀ r, y r - lin k c x' r = e r - s r) as Es.
  { intros r. unfold e, s, lin. rewrite (qsum_ext k (λ j, c j r * (x' j - x j)) (λ j, c j r * x' j - c j r * x j)) by (intros; ring). rewrite qsum_sub. ring. }
  rewrite (dot_ext n (λ r, y r - lin k c x' r) (λ r, y r - lin k c x' r) (λ r, e r - s r) (λ r, e r - s r)) by done.
  rewrite dot_sub_r, !dot_sub_l. rewrite (dot_sym n s e). unfold s at 1 2. rewrite dot_lin0 by (intros j Hj; rewrite dot_sym; by apply H).
  fold s. pose proof (dot_nonneg n s) as Hs. set (a := dot n e e). set (b := dot n s s) in *. clearbody a b. qlra.
Qed.
(** An exact [lstsq]. *)
Definition exact_lstsq (k : nat) (A : mat) (b : vec) : vec := let c := (λ j, memo k (λ i, A i j)) <$> seq 0 k in memo k (proj k k (λ j, default (λ _, 0) (c !! j)) (memo k b)).
Lemma exact_lstsq_ok : least_squares exact_lstsq.
Proof.
  intros k A b y. cbv beta zeta. set (l := (λ j, memo k (λ i, A i j)) <$> seq 0 k). set (c := λ j, default (λ _, 0) (l !! j)).
  assert (∀ i j, (i < k)%nat → (j < k)%nat → c j i = A i j) as Hc.
  { intros i j Hi Hj. unfold c, l. rewrite list_lookup_fmap, lookup_seq_lt by done. cbn. by rewrite memo_at. }
  pose proof (normal_min k k c (memo k b) (proj k k c (memo k b)) y (λ i Hi, proj_normal k k c (memo k b) i Hi)) as H.
  assert (∀ x x' : vec, (∀ j, (j < k)%nat → x j = x' j) → qsum k (λ i, (qsum k (λ j, A i j * x j) - b i) * (qsum k (λ j, A i j * x j) - b i)) =
    dot k (λ r, memo k b r - lin k c x' r) (λ r, memo k b r - lin k c x' r)) as E.
  { intros x x' Hx. apply qsum_ext. intros i Hi. rewrite memo_at by done. unfold lin.
    rewrite (qsum_ext k (λ j, A i j * x j) (λ j, c j i * x' j)) by (intros j Hj; by rewrite Hc, Hx). ring. }
  rewrite (E y y) by done. rewrite (E (exact_lstsq k A b) (proj k k c (memo k b))); [exact H|]. intros j Hj. unfold exact_lstsq. by rewrite memo_at.
Qed.
(** A system with a solution is solved. *)
Lemma ls_solves lstsq k A b z : least_squares lstsq → (∀ i, (i < k)%nat → qsum k (λ j, A i j * z j) = b i) →
  ∀ i, (i < k)%nat → qsum k (λ j, A i j * lstsq k A b j) = b i.
Proof.
  intros Hls Hz. specialize (Hls k A b z). cbn in Hls. rewrite (qsum_zero k (λ i, (qsum k (λ j, A i j * z j) - b i) * _)) in Hls by (intros i Hi; rewrite Hz by done; ring).
  set (u := λ i, qsum k (λ j, A i j * lstsq k A b j) - b i). change (dot k u u <= 0) in Hls.
  assert (dot k u u = 0) as E by (apply Qcle_antisym; [done|apply dot_nonneg]).
  intros i Hi. pose proof (dot_zero k u E i Hi) as H. unfold u in H. set (a := qsum _ _) in *. clearbody a. clear -H. qlra.
Qed.

(** Sums over a list of positions. *)
Lemma asum_seq n f : asum (seq 0 n) f = qsum n f.
Proof.
  induction n as [|n IH]; [done|]. cbn [qsum]. rewrite <-IH, seq_S. assert (∀ l, asum (l ++ [n]) f = asum l f + f n) as ->; [|done].
  induction l as [|x l IHl]; cbn; [ring|]. rewrite IHl. ring.
Qed.
Lemma asum_app {A} (l k : list A) f : asum (l ++ k) f = asum l f + asum k f.
Proof. induction l as [|x l IH]; cbn; [ring|]. rewrite IH. ring. Qed.
Lemma qsum_asum_list {A} (l : list A) (x0 : A) f : qsum (length l) (λ j, f (default x0 (l !! j))) = asum l f.
Proof.
  induction l as [|x l IH] using rev_ind; [done|]. rewrite app_length, Nat.add_comm. cbn [length Nat.add qsum]. rewrite asum_app. cbn.
  rewrite list_lookup_middle by done. cbn. rewrite <-IH. f_equal; [|ring].
  apply qsum_ext. intros j Hj. by rewrite lookup_app_l.
Qed.
Lemma qsum_support p (ps : list nat) f : NoDup ps → (∀ u, u ∈ ps → (u < p)%nat) → (∀ u, u ∉ ps → f u = 0) → qsum p f = asum ps f.
Proof.
  intros Hnd Hlt H0. rewrite <-asum_seq. rewrite (asum_perm (seq 0 p) (ps ++ filter (λ u, u ∉ ps) (seq 0 p))).
  - rewrite asum_app. assert (∀ l, (∀ u, u ∈ l → u ∉ ps) → asum l f = 0) as Hl.
    { induction l as [|u l IH]; intros Hu; cbn; [done|]. rewrite H0, IH; [ring|intros; apply Hu; by right|apply Hu; by left]. }
    rewrite (Hl (filter (λ u, u ∉ ps) (seq 0 p))); [ring|]. by intros u [Hu _]%elem_of_list_filter.
  - apply NoDup_Permutation; [apply NoDup_seq| |].
    + apply NoDup_app. split; [done|]. split; [by intros u Hu [Hn _]%elem_of_list_filter|]. apply NoDup_filter, NoDup_seq.
    + intros u. rewrite elem_of_app, elem_of_list_filter, elem_of_seq. split; [|intros [Hu|[_ Hu]]; [apply Hlt in Hu|]; lia].
      intros Hu. destruct (decide (u ∈ ps)); [by left|]. right. split; [done|]. lia.
Qed.

(** ** One regression *)
Section regression.
  Context (lstsq : nat → mat → vec → vec) (Hls : least_squares lstsq) (n p : nat) (X : mat) (ps : list nat) (v : nat).
  Context (Hnd : NoDup ps) (Hps : ∀ u, u ∈ ps → (u < p)%nat) (Hv : (v < p)%nat).
  Let ii := ps ++ [p].
  Let C := get_extended_cov n p X.
  Let col (j : nat) : vec := λ r, ext_samples p X r (default 0%nat (ii !! j)).
  Let y : vec := λ r, X r v.
  Lemma gram_eq a b : mix_ ii ii C a b = dot n (col a) (col b).
  Proof using. done. Qed.
  Lemma cross_eq a : mix_ ii [v] C a 0%nat = dot n (col a) y.
  Proof using Hv. unfold mix_, C, get_extended_cov, mmul. apply qsum_ext. intros r _. unfold mT, col, y. cbn. unfold ext_samples at 2. by rewrite decide_True. Qed.
  Let k := length ii.
  Let x := lstsq k (mix_ ii ii C) (λ i, mix_ ii [v] C i 0%nat).
  Lemma lr_normal i : (i < k)%nat → dot n (col i) (λ r, y r - lin k col x r) = 0.
  Proof using Hls Hv.
    intros Hi. rewrite dot_sub_r. rewrite dot_lin.
    assert (qsum k (λ j, dot n (col i) (col j) * x j) = dot n (col i) y) as ->; [|ring]. rewrite <-cross_eq.
    apply (ls_solves lstsq k (mix_ ii ii C) (λ i, mix_ ii [v] C i 0%nat) (proj n k col y) Hls); [|done].
    intros i' Hi'. rewrite cross_eq. pose proof (proj_normal n k col y i' Hi') as H. rewrite dot_sub_r, dot_lin in H.
    rewrite (qsum_ext k _ (λ j, dot n (col i') (col j) * proj n k col y j)) by done. symmetry.
    set (a := dot n (col i') y) in *. set (b := qsum k _) in *. clearbody a b. clear -H. qlra.
  Qed.
  Lemma k_eq : k = S (length ps).
  Proof using. unfold k, ii. rewrite app_length. by rewrite Nat.add_comm. Qed.
  (** A predictor as a combination of the columns. *)
  Lemma lin_eq (w : nat → Qc) (b : Qc) (z : vec) r : (∀ j u, ps !! j = Some u → z j = w u) → z (length ps) = b → (∀ u, u ∉ ps → w u = 0) →
    lin k col z r = b + qsum p (λ u, X r u * w u).
  Proof using Hnd Hps Hv.
    intros Hz Hb Hw. unfold lin. rewrite k_eq. cbn [qsum]. rewrite Hb.
    assert (col (length ps) r = 1) as ->.
    { unfold col, ii. rewrite list_lookup_middle by done. cbn. unfold ext_samples. by rewrite decide_False by lia. }
    rewrite (qsum_support p ps) by (try done; intros u Hu; rewrite Hw by done; ring).
    rewrite <-(qsum_asum_list ps 0%nat). rewrite (qsum_ext (length ps) _ (λ j, X r (default 0%nat (ps !! j)) * w (default 0%nat (ps !! j)))); [ring|].
    intros j Hj. destruct (lookup_lt_is_Some_2 ps j Hj) as [u Eu]. unfold col, ii. rewrite lookup_app_l by done. rewrite Eu. cbn. rewrite (Hz j u Eu).
    unfold ext_samples. rewrite decide_True; [done|]. apply Hps. by eapply elem_of_list_lookup_2.
  Qed.
  Lemma linear_regression_ok : ∃ coefs bias variance, linear_regression_mle lstsq p C ps v = Ok (coefs, bias, variance) ∧ length coefs = length ps ∧
    ∀ (W : mat) (b : vec), (∀ j u, ps !! j = Some u → coefs !! j = Some (W u v)) → b v = bias → (∀ u, u ∉ ps → W u v = 0) →
      variance = rss n p X W b v ∧ qsum n (λ r, leftover p X W b r v) = 0 ∧ (∀ u, u ∈ ps → qsum n (λ r, X r u * leftover p X W b r v) = 0) ∧
      ∀ W' b', (∀ u, u ∉ ps → W' u v = 0) → rss n p X W b v <= rss n p X W' b' v.
  Proof using Hls Hnd Hps Hv.
    unfold linear_regression_mle. fold ii. rewrite decide_True.
    2:{ apply Forall_cons. split; [lia|]. apply Forall_app. split; [|by repeat constructor]. apply Forall_forall. intros u Hu%Hps. lia. }
    fold k. fold x. eexists _, _, _. split; [done|]. split; [rewrite fmap_length, seq_length, k_eq; done|].
    intros W b HW Hb HW0.
    assert (∀ r, y r - lin k col x r = leftover p X W b r v) as Hleft.
    { intros r. rewrite (lin_eq (λ u, W u v) (b v) x r); [unfold leftover, y; ring| |by rewrite Hb, k_eq|done].
      intros j u Eu. specialize (HW j u Eu). rewrite list_lookup_fmap in HW. rewrite lookup_seq_lt in HW by (rewrite k_eq; cbn; by eapply lookup_lt_Some). by injection HW. }
    assert (∀ r, leftover p X W b r v = y r - lin k col x r) as Hleft' by done.
    split; [|split; [|split]].
    - unfold rss. rewrite (qsum_ext n _ (λ r, (y r - lin k col x r) * (y r - lin k col x r))) by (intros; by rewrite Hleft).
      change (qsum n (λ r, (y r - lin k col x r) * (y r - lin k col x r))) with (dot n (λ r, y r - lin k col x r) (λ r, y r - lin k col x r)).
      rewrite dot_sub_l. rewrite (dot_sym n (lin k col x)). rewrite (dot_lin0 n k col x (λ r, y r - lin k col x r)) by (intros j Hj; rewrite dot_sym; by apply lr_normal).
      rewrite dot_sub_r. assert (C v v = dot n y y) as ->.
      { unfold C, get_extended_cov, mmul, dot. apply qsum_ext. intros r _. unfold mT, y, ext_samples. by rewrite decide_True. }
      assert (qsum k (λ i, x i * qsum k (λ j, mix_ ii ii C i j * x j)) = dot n y (lin k col x)) as ->; [|ring].
      rewrite dot_lin. apply qsum_ext. intros i Hi.
      assert (qsum k (λ j, mix_ ii ii C i j * x j) = dot n (col i) y) as ->; [|rewrite (dot_sym n y); ring].
      pose proof (lr_normal i Hi) as H. rewrite dot_sub_r, dot_lin in H. change (qsum k (λ j, dot n (col i) (col j) * x j) = dot n (col i) y).
      set (a := dot n (col i) y) in *. set (c := qsum k _) in *. clearbody a c. clear -H. qlra.
    - pose proof (lr_normal (length ps) ltac:(rewrite k_eq; lia)) as H. rewrite <-H. unfold dot. apply qsum_ext. intros r _. rewrite Hleft.
      unfold col, ii. rewrite list_lookup_middle by done. cbn. unfold ext_samples. rewrite decide_False by lia. ring.
    - intros u Hu. apply elem_of_list_lookup_1 in Hu as [j Ej]. pose proof (lookup_lt_Some _ _ _ Ej) as Hj.
      pose proof (lr_normal j ltac:(rewrite k_eq; lia)) as H. rewrite <-H. unfold dot. apply qsum_ext. intros r _. rewrite Hleft.
      unfold col, ii. rewrite lookup_app_l by done. rewrite Ej. cbn. unfold ext_samples. rewrite decide_True; [done|]. apply Hps. by eapply elem_of_list_lookup_2.
    - intros W' b' HW'. pose proof (normal_min n k col y x (λ j, if decide (j = length ps) then b' v else W' (default 0%nat (ps !! j)) v) lr_normal) as H.
      unfold rss. rewrite (qsum_ext n _ (λ r, (y r - lin k col x r) * (y r - lin k col x r))) by (intros; by rewrite Hleft).
      eapply Qcle_trans; [exact H|]. match goal with |- ?a <= ?b => assert (a = b) as ->; [|apply Qcle_refl] end.
      apply qsum_ext. intros r _. assert (∀ r, y r - lin k col (λ j, if decide (j = length ps) then b' v else W' (default 0%nat (ps !! j)) v) r = leftover p X W' b' r v) as H'; [|by rewrite !H'].
      intros r'. rewrite (lin_eq (λ u, W' u v) (b' v)); [unfold leftover, y; ring| |by rewrite decide_True|done].
      intros j u Eu. rewrite decide_False by (apply lookup_lt_Some in Eu; lia). by rewrite Eu.
  Qed.
End regression.

(** ** The loop *)
Lemma put_column_other l v A u w : w ≠ v → put_column l v A u w = A u w.
Proof. intros Hw. revert A. induction l as [|[a x] l IH]; intros A; cbn; [done|]. rewrite IH. unfold mupd. case_decide; naive_solver. Qed.
Lemma put_column_out l v A u : u ∉ l.*1 → put_column l v A u v = A u v.
Proof.
  revert A. induction l as [|[a x] l IH]; intros A Hu; cbn; [done|]. cbn in Hu. rewrite not_elem_of_cons in Hu. rewrite IH by apply Hu.
  unfold mupd. case_decide; naive_solver.
Qed.
Lemma put_column_in l v A j u x : NoDup l.*1 → l !! j = Some (u, x) → put_column l v A u v = x.
Proof.
  revert A j. induction l as [|[a z] l IH]; intros A j Hnd Hj; [done|]. cbn in *. apply NoDup_cons in Hnd as [Ha Hnd]. destruct j as [|j]; cbn in Hj.
  - injection Hj as -> ->. rewrite put_column_out by done. unfold mupd. by rewrite decide_True.
  - by eapply IH.
Qed.

(** The parameters of [v] are those of a least squares fit. *)
Definition fitted (n p : nat) (X : mat) (E : arcset) (W : mat) (b : vec) (s : Qc) (v : nat) : Prop :=
  s = rss n p X W b v ∧ qsum n (λ r, leftover p X W b r v) = 0 ∧ (∀ u, (u, v) ∈ E → qsum n (λ r, X r u * leftover p X W b r v) = 0) ∧
  ∀ W' b', weights_on E W' → rss n p X W b v <= rss n p X W' b' v.

Section fit.
  Context (o : oracle) (lstsq : nat → mat → vec → vec) (Hls : least_squares lstsq) (d : dag) (Hwf : wf d) (n p : nat) (X : mat).
  Context (Hp : ∀ v, v ∈ d_nodes d → (v < p)%nat).
  Let C := get_extended_cov n p X.
  Lemma fit_step_ok v A bs vs : v ∈ d_nodes d → length bs = p → length vs = p → (∀ u, A u v = 0) →
    ∃ A' bs' vs' s, fit_step o lstsq d p C v (A, bs, vs) = Ok (A', bs', vs') ∧ length bs' = p ∧ length vs' = p ∧
      (∀ u w, w ≠ v → A' u w = A u w) ∧ (∀ w, w ≠ v → bs' !! w = bs !! w ∧ vs' !! w = vs !! w) ∧
      vs' !! v = Some s ∧ (∀ u, A' u v ≠ 0 → (u, v) ∈ d_arcs d) ∧
      ∀ W b, (∀ u, W u v = A' u v) → bs' !! v = Some (b v) → fitted n p X (d_arcs d) W b s v.
  Proof using Hls Hwf Hp.
    intros Hv Hb Hs HA. unfold fit_step. set (ps := on o [170; v]%nat (parents d v)).
    assert (∀ u, u ∈ ps ↔ (u, v) ∈ d_arcs d) as Hps by (intros u; unfold ps; rewrite elem_of_on; by rewrite (wf_par _ Hwf)).
    assert (NoDup ps) as Hnd by apply NoDup_on.
    assert (∀ u, u ∈ ps → (u < p)%nat) as Hlt by (intros u Hu%Hps; apply Hp; by destruct (wf_over _ Hwf _ _ Hu)).
    destruct (linear_regression_ok lstsq Hls n p X ps v Hnd Hlt (Hp v Hv)) as (coefs & bias & s & E & Hlen & Hfit). fold C in E. rewrite E. cbn [res_bind].
    rewrite decide_True by (apply Forall_cons; split; [by apply Hp|by apply Forall_forall]).
    assert ((zip ps coefs).*1 = ps) as Hz by (apply fst_zip; lia).
    eexists _, _, _, s. split; [done|]. rewrite !insert_length. do 2 (split; [done|]).
    split; [intros; by apply put_column_other|]. split; [intros w Hw; by rewrite !list_lookup_insert_ne by done|].
    split; [apply list_lookup_insert; rewrite Hs; by apply Hp|].
    assert (∀ u, u ∉ ps → put_column (zip ps coefs) v A u v = 0) as Hout by (intros u Hu; rewrite put_column_out by (by rewrite Hz); apply HA).
    split; [intros u Hu; apply Hps; destruct (decide (u ∈ ps)) as [|Hn]; [done|]; by rewrite (Hout u Hn) in Hu|].
    intros W b HW Hbv. rewrite list_lookup_insert in Hbv by (rewrite Hb; by apply Hp). injection Hbv as Hbv.
    destruct (Hfit W b) as (H1 & H2 & H3 & H4).
    - intros j u Ej. destruct (lookup_lt_is_Some_2 coefs j) as [x Ex]; [rewrite Hlen; by eapply lookup_lt_Some|]. rewrite Ex. f_equal. rewrite HW.
      symmetry. apply (put_column_in _ _ _ j); [by rewrite Hz|]. apply lookup_zip_with_Some. by eexists _, _.
    - done.
    - intros u Hu. rewrite HW. by apply Hout.
    - split; [done|]. split; [done|]. split; [intros u Hu; apply H3; by apply Hps|]. intros W' b' HW'. apply H4. intros u Hu.
      destruct (decide (W' u v = 0)) as [|Hne]; [done|]. destruct Hu. by apply Hps, HW'.
  Qed.
  Lemma fit_loop l : ∀ A bs vs, NoDup l → (∀ v, v ∈ l → v ∈ d_nodes d) → length bs = p → length vs = p → (∀ u v, v ∈ l → A u v = 0) →
    ∃ A' bs' vs', loopR (fit_step o lstsq d p C) l (A, bs, vs) = Ok (A', bs', vs') ∧ length bs' = p ∧ length vs' = p ∧
      (∀ u w, w ∉ l → A' u w = A u w) ∧ (∀ w, w ∉ l → bs' !! w = bs !! w ∧ vs' !! w = vs !! w) ∧
      ∀ v, v ∈ l → ∃ s, vs' !! v = Some s ∧ (∀ u, A' u v ≠ 0 → (u, v) ∈ d_arcs d) ∧
        ∀ W b, (∀ u, W u v = A' u v) → bs' !! v = Some (b v) → fitted n p X (d_arcs d) W b s v.
  Proof using Hls Hwf Hp.
    induction l as [|v l IH]; intros A bs vs Hnd Hl Hb Hs HA.
    { exists A, bs, vs. cbn. do 5 (split; [done|]). by intros v Hv%elem_of_nil. }
    apply NoDup_cons in Hnd as [Hv Hnd]. cbn [loopR].
    destruct (fit_step_ok v A bs vs) as (A1 & bs1 & vs1 & s & -> & Hb1 & Hs1 & HA1 & Hbs1 & H1 & H2 & H3); [apply Hl; by left|done|done|intros; apply HA; by left|].
    destruct (IH A1 bs1 vs1) as (A2 & bs2 & vs2 & E0 & Hb2 & Hs2 & HA2 & Hbs2 & H4); [done|by intros w Hw; apply Hl; right|done|done| |].
    { intros u w Hw. rewrite HA1 by (intros ->; done). apply HA. by right. }
    exists A2, bs2, vs2. split; [exact E0|]. do 2 (split; [done|]). split; [|split].
    - intros u w Hw. rewrite not_elem_of_cons in Hw. rewrite HA2, HA1 by apply Hw. done.
    - intros w Hw. rewrite not_elem_of_cons in Hw. destruct (Hbs2 w (proj2 Hw)) as [-> ->]. apply Hbs1, Hw.
    - intros w [->|Hw]%elem_of_cons; [|by apply H4]. destruct (Hbs2 v Hv) as [E1 E2]. exists s. rewrite E2. split; [done|].
      split; [intros u; rewrite HA2 by done; apply H2|]. intros W b HW. rewrite E1. apply H3. intros u. by rewrite HW, HA2.
  Qed.
End fit.
