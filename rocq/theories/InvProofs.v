(** Submatrices and inverses of positive definite matrices, and an exact matrix
    inversion. *)
From Coq Require Import QArith.Qcanon Field.
From Verif Require Import Py Spec DagModel UGraphModel QMatModel GaussModel GaussLinModel QMatProofs SpecLin LinProofs SemProofs.
#[local] Open Scope Qc_scope.

(** ** Sums over lists *)
Fixpoint lsum (f : nat → Qc) (l : list nat) : Qc := match l with [] => 0 | x :: l => f x + lsum f l end.
Lemma lsum_app f l1 l2 : lsum f (l1 ++ l2) = lsum f l1 + lsum f l2.
Proof. induction l1 as [|x l1 IH]; cbn; [ring|]. rewrite IH. ring. Qed.
Lemma lsum_perm f l1 l2 : l1 ≡ₚ l2 → lsum f l1 = lsum f l2.
Proof. induction 1 as [|x l1 l2 _ IH|x y l|l1 l2 l3 _ IH1 _ IH2]; cbn; [done|by rewrite IH|ring|congruence]. Qed.
Lemma qsum_lsum n f : qsum n f = lsum f (seq 0 n).
Proof. induction n as [|n IH]; [done|]. rewrite seq_S, lsum_app. cbn. rewrite IH. ring. Qed.
Lemma lsum_qsum f l : lsum f l = qsum (length l) (λ k, f (default O (l !! k))).
Proof.
  induction l as [|x l IH] using rev_ind; [done|]. rewrite lsum_app, app_length, Nat.add_comm. cbn. rewrite IH. f_equal.
  - apply qsum_ext. intros k Hk. by rewrite lookup_app_l.
  - rewrite lookup_app_r by lia. rewrite Nat.sub_diag. cbn. ring.
Qed.
(** Splitting the indices into two lists. *)
Lemma qsum_split n f l c : l ++ c ≡ₚ seq 0 n →
  qsum n f = qsum (length l) (λ k, f (default O (l !! k))) + qsum (length c) (λ k, f (default O (c !! k))).
Proof. intros H. rewrite qsum_lsum, <-(lsum_perm f _ _ H), lsum_app, !lsum_qsum. done. Qed.

(** ** Submatrices *)
Section sub.
  Context (n : nat) (S : mat) (l : list nat) (Hnd : NoDup l) (Hr : in_range n l).
  Notation at_ a := (default O (l !! a)).
  Lemma at_range a : (a < length l)%nat → (at_ a < n)%nat.
  Proof using Hr. intros [x Hx]%lookup_lt_is_Some. rewrite Hx. cbn. unfold in_range in Hr. rewrite Forall_lookup in Hr. by eapply Hr. Qed.
  Lemma at_inj a b : (a < length l)%nat → (b < length l)%nat → at_ a = at_ b → a = b.
  Proof using Hnd.
    intros [x Hx]%lookup_lt_is_Some [y Hy]%lookup_lt_is_Some. rewrite Hx, Hy. cbn. intros ->. by eapply NoDup_lookup.
  Qed.
  (** A combination of the selected variables. *)
  Definition emb (u : nat → Qc) : nat → Qc := λ x, qsum (length l) (λ a, u a * eunit (at_ a) x).
  Lemma emb_at u a : (a < length l)%nat → emb u (at_ a) = u a.
  Proof using Hnd.
    intros Ha. unfold emb. rewrite (qsum_one _ _ a); [|done|].
    - unfold eunit. rewrite decide_True by done. ring.
    - intros b Hb Hba. unfold eunit. rewrite decide_False; [ring|]. intros E. apply Hba. symmetry. by apply at_inj.
  Qed.
  Lemma emb_out u x : x ∉ l → emb u x = 0.
  Proof using.
    intros Hx. apply qsum_zero. intros a Ha. unfold eunit. rewrite decide_False; [ring|]. intros ->. apply Hx. apply lookup_lt_is_Some in Ha as [y Hy].
    rewrite Hy. cbn. by eapply elem_of_list_lookup_2.
  Qed.
  Lemma cov_emb_r u v : lcov n S u (emb v) = qsum (length l) (λ a, v a * lcov n S u (eunit (at_ a))).
  Proof using.
    unfold emb. rewrite (cov_sum_r n S _ (λ a x, v a * eunit (at_ a) x)). apply qsum_ext. intros a _.
    transitivity (lcov n S u (λ x, v a * eunit (at_ a) x + 0 * eunit (at_ a) x)); [apply cov_ext; [done|]; intros; ring|].
    rewrite cov_lin_r. ring.
  Qed.
  Lemma cov_emb_unit u y : (y < n)%nat → lcov n S (emb u) (eunit y) = qsum (length l) (λ a, u a * S (at_ a) y).
  Proof using Hr.
    intros Hy. rewrite cov_unit_r by done. unfold emb. transitivity (qsum n (λ i, qsum (length l) (λ a, u a * (eunit (at_ a) i * S i y)))).
    { apply qsum_ext. intros i _. rewrite <-qsum_mul_r. apply qsum_ext. intros a _. ring. }
    rewrite qsum_swap. apply qsum_ext. intros a Ha. rewrite qsum_mul_l. f_equal. rewrite (qsum_one n _ (at_ a)).
    - unfold eunit. rewrite decide_True by done. ring.
    - by apply at_range.
    - intros k _ Hk. unfold eunit. rewrite decide_False by done. ring.
  Qed.
  Lemma lcov_sub u v : lcov (length l) (mix_ l l S) u v = lcov n S (emb u) (emb v).
  Proof using Hr.
    rewrite cov_emb_r, cov_split. apply qsum_ext. intros b Hb. rewrite cov_unit_r by done. rewrite cov_emb_unit by by apply at_range.
    unfold mix_. ring.
  Qed.
  Lemma posdef_sub : posdef n S → posdef (length l) (mix_ l l S).
  Proof using Hr Hnd.
    intros [Hs Hp]. split; [intros a b Ha Hb; unfold mix_; apply Hs; by apply at_range|]. intros u (a & Ha & Hu). rewrite lcov_sub. apply Hp.
    exists (at_ a). split; [by apply at_range|]. by rewrite emb_at.
  Qed.
End sub.

(** ** Inverses *)
Lemma lcov_unit_l n S x v : (x < n)%nat → lcov n S (eunit x) v = qsum n (λ j, S x j * v j).
Proof.
  intros Hx. unfold lcov. rewrite (qsum_one n _ x); [|done|].
  - apply qsum_ext. intros j _. unfold eunit. rewrite decide_True by done. ring.
  - intros k _ Hk. apply qsum_zero. intros j _. unfold eunit. rewrite decide_False by done. ring.
Qed.
(** The residual of a regression, computed by the Gram-Schmidt process. *)
Fixpoint gs (n : nat) (S : mat) (W : list nat) (x : nat) : nat → Qc :=
  match W with
  | [] => eunit x
  | w :: W =>
    let r := gs n S W x in
    let s := gs n S W w in
    let t := lcov n S r (eunit w) / lcov n S s s in
    λ i, 1 * r i + - t * s i
  end.
Lemma gs_residual n S W : posdef n S → NoDup W → in_range n W → ∀ x, residual n S (list_to_set W) x (gs n S W x).
Proof.
  intros Hpd. induction W as [|w W IH]; intros Hnd Hr x; cbn [gs list_to_set]; [split; [done|set_solver]|].
  apply list.NoDup_cons in Hnd as [Hw Hnd]. apply Forall_cons in Hr as [Hwn Hr]. pose proof (IH Hnd Hr x) as Hx. pose proof (IH Hnd Hr w) as Hs.
  set (r := gs n S W x) in *. set (s := gs n S W w) in *. set (q := lcov n S s s).
  assert (q = lcov n S s (eunit w)) as Hq by by eapply residual_cov.
  assert (q ≠ 0) as Hq0.
  { apply Qc_lt_ne. apply Hpd. exists w. split; [done|]. rewrite (proj1 Hs) by (done || by rewrite elem_of_list_to_set). unfold eunit. by rewrite decide_True by done. }
  split.
  - intros i Hi HW. apply not_elem_of_union in HW as [Hiw HW]. rewrite (proj1 Hx), (proj1 Hs) by done.
    assert (eunit w i = 0) as ->; [|ring]. unfold eunit. rewrite decide_False; [done|]. intros ->. set_solver.
  - intros z Hz HW. rewrite cov_lin_l. apply elem_of_union in HW as [->%elem_of_singleton|HW].
    + rewrite <-Hq. field. done.
    + rewrite (proj2 Hx), (proj2 Hs) by done. ring.
Qed.
Definition pdinv (n : nat) (S : mat) : mat := λ i x,
  let r := gs n S (filter (λ z, z ≠ x) (seq 0 n)) x in r i / lcov n S r (eunit x).
Lemma pdinv_ok n S : posdef n S → is_inverse n S (pdinv n S).
Proof.
  intros Hpd. assert (meq n (mmul n S (pdinv n S)) mid) as H1.
  { intros z x Hz Hx. set (W := filter (λ z, z ≠ x) (seq 0 n)). set (r := gs n S W x).
    assert (residual n S (list_to_set W) x r) as Hr.
    { apply gs_residual; [done|apply NoDup_filter, NoDup_seq|]. apply Forall_forall. intros y [_ Hy]%elem_of_list_filter. apply elem_of_seq in Hy. lia. }
    assert (x ∉ (list_to_set W : nset)) as HxW. { rewrite elem_of_list_to_set. intros [? _]%elem_of_list_filter. done. }
    assert (lcov n S r (eunit x) ≠ 0) as Hq.
    { rewrite <-(residual_cov n S (list_to_set W) x x r r) by done. apply Qc_lt_ne, Hpd. exists x. split; [done|]. rewrite (proj1 Hr) by done. unfold eunit. by rewrite decide_True by done. }
    unfold mmul, pdinv. fold W. fold r. transitivity (lcov n S r (eunit z) / lcov n S r (eunit x)).
    - rewrite (cov_unit_r n S r z) by done. unfold Qcdiv. rewrite <-qsum_mul_r. apply qsum_ext. intros k Hk. rewrite (proj1 Hpd z k) by done. ring.
    - unfold mid. destruct (decide (z = x)) as [->|Hne]; [field; done|].
      rewrite (proj2 Hr z Hz); [field; done|]. rewrite elem_of_list_to_set. apply elem_of_list_filter. split; [done|]. apply elem_of_seq. lia. }
  split; [done|]. set (V := pdinv n S) in *.
  assert (meq n (mmul n (mT V) S) mid) as H2.
  { assert (meq n (mT S) S) as Hs by (intros i j Hi Hj; unfold mT; by apply Hpd).
    transitivity (mT (mmul n S V)); [|rewrite H1; apply mT_id]. rewrite mT_mul, Hs. done. }
  assert (meq n (mT V) V) as HV. { transitivity (mmul n (mmul n (mT V) S) V); [rewrite mmul_assoc, H1, mmul_id_r; done|]. rewrite H2, mmul_id_l. done. }
  rewrite <-HV at 1. done.
Qed.
(** [inv] inverts every invertible matrix. *)
Definition inverts (inv : nat → mat → mat) : Prop := ∀ n A, (∃ V, is_inverse n A V) → is_inverse n A (inv n A).
Lemma lcov_gram n A u : lcov n (mmul n (mT A) A) u u = qsum n (λ k, qsum n (λ i, A k i * u i) * qsum n (λ i, A k i * u i)).
Proof.
  unfold lcov, mmul, mT. transitivity (qsum n (λ i, qsum n (λ j, qsum n (λ k, (A k i * u i) * (A k j * u j))))).
  { apply qsum_ext. intros i _. apply qsum_ext. intros j _. rewrite <-qsum_mul_l, <-qsum_mul_r. apply qsum_ext. intros k _. ring. }
  transitivity (qsum n (λ i, qsum n (λ k, qsum n (λ j, (A k i * u i) * (A k j * u j))))). { apply qsum_ext. intros i _. by rewrite qsum_swap. }
  rewrite qsum_swap. apply qsum_ext. intros k _. rewrite <-qsum_mul_r. apply qsum_ext. intros i _. by rewrite qsum_mul_l.
Qed.
Lemma gram_posdef n A V : is_inverse n A V → posdef n (mmul n (mT A) A).
Proof.
  intros [_ HV]. split.
  - intros i j _ _. unfold mmul, mT. apply qsum_ext. intros k _. ring.
  - intros u (i & Hi & Hu). rewrite lcov_gram. set (w := λ k, qsum n (λ i, A k i * u i)).
    assert (∃ k, (k < n)%nat ∧ w k ≠ 0) as (k & Hk & Hw).
    { assert (u i = qsum n (λ k, V i k * w k)) as E.
      { transitivity (qsum n (λ j, mid i j * u j)).
        - rewrite (qsum_one n _ i); [|done|]; unfold mid; [rewrite decide_True by done; ring|]. intros k _ Hk. rewrite decide_False by done. ring.
        - transitivity (qsum n (λ j, qsum n (λ k, V i k * (A k j * u j)))).
          + apply qsum_ext. intros j Hj. rewrite <-(HV i j Hi Hj). unfold mmul. rewrite <-qsum_mul_r. apply qsum_ext. intros k _. ring.
          + rewrite qsum_swap. apply qsum_ext. intros k _. unfold w. by rewrite qsum_mul_l. }
      rewrite E in Hu. apply qsum_nonzero in Hu as (k & Hk & Hne). exists k. split; [done|]. intros E0. apply Hne. rewrite E0. ring. }
    apply (qsum_pos n _ k); [|done|by apply Qc_square_pos]. intros m _. apply Qc_square_nonneg.
Qed.
(** A matrix whose entries are computed once. *)
Definition memo (n : nat) (A : mat) : mat :=
  let t := (λ i, (λ j, A i j) <$> seq 0 n) <$> seq 0 n in
  λ i j, default 0 (default [] (t !! i) !! j).
Lemma memo_ok n A : meq n (memo n A) A.
Proof.
  intros i j Hi Hj. unfold memo. rewrite list_lookup_fmap, lookup_seq_lt by done. cbn. rewrite list_lookup_fmap, lookup_seq_lt by done. done.
Qed.
Lemma posdef_proper n S S' : meq n S S' → posdef n S → posdef n S'.
Proof.
  intros E [H1 H2]. split; [intros i j Hi Hj; rewrite <-!E by done; by apply H1|]. intros u Hu. specialize (H2 u Hu).
  replace (lcov n S' u u) with (lcov n S u u); [done|]. unfold lcov. apply qsum_ext. intros i Hi. apply qsum_ext. intros j Hj. by rewrite E.
Qed.
(** An inversion that can be run: [inv(A.T @ A) @ A.T]. *)
Definition exact_inv (n : nat) (A : mat) : mat :=
  let A := memo n A in memo n (mmul n (memo n (pdinv n (memo n (mmul n (mT A) A)))) (mT A)).
Lemma exact_inv_ok : inverts exact_inv.
Proof.
  intros n A (V & HV). unfold exact_inv. set (B := memo n A). assert (meq n B A) as HB by apply memo_ok.
  assert (is_inverse n B V) as HBV by (eapply inverse_proper; [symmetry; exact HB|reflexivity|exact HV]).
  pose proof (gram_posdef n B V HBV) as Hpd. apply (posdef_proper n _ (memo n (mmul n (mT B) B))) in Hpd; [|symmetry; apply memo_ok].
  set (G := memo n (mmul n (mT B) B)) in *. pose proof (pdinv_ok n G Hpd) as [_ H2]. assert (meq n G (mmul n (mT B) B)) as HG by apply memo_ok.
  assert (meq n (mmul n (pdinv n G) (mmul n (mT B) B)) mid) as H3. { transitivity (mmul n (pdinv n G) G); [|done]. f_equiv; by symmetry. }
  set (X := memo n (mmul n (memo n (pdinv n G)) (mT B))).
  assert (meq n (mmul n X B) mid) as HL. {
    assert (meq n X (mmul n (memo n (pdinv n G)) (mT B))) as EX by apply memo_ok. assert (meq n (memo n (pdinv n G)) (pdinv n G)) as EG by apply memo_ok.
    rewrite EX, EG, mmul_assoc. done. }
  assert (meq n X V) as E. { rewrite <-(mmul_id_r n X), <-(proj1 HBV), <-mmul_assoc, HL, mmul_id_l. done. }
  destruct HV as [HV1 HV2]. split; by rewrite E.
Qed.
Lemma inverts_pd inv n S : inverts inv → posdef n S → is_inverse n S (inv n S).
Proof. intros Hi Hp. apply Hi. eexists. by apply pdinv_ok. Qed.

(** The inverse of a positive definite matrix is positive definite. *)
Lemma posdef_inverse n S P : posdef n S → is_inverse n S P → posdef n P.
Proof.
  intros Hpd HP. assert (meq n (mT S) S) as Hs by (intros i j Hi Hj; unfold mT; by apply Hpd).
  assert (meq n (mT P) P) as HPs. { apply (inverse_unique n S); [|done]. eapply inverse_proper; [exact Hs|done|]. by apply inverse_T. }
  split. { intros i j Hi Hj. symmetry. by apply (HPs i j). }
  intros u (i & Hi & Hu). set (w := λ k, qsum n (λ j, P k j * u j)).
  assert (∀ k, (k < n)%nat → u k = qsum n (λ j, S k j * w j)) as Hw.
  { intros k Hk. transitivity (qsum n (λ j, mid k j * u j)).
    - rewrite (qsum_one n _ k); [|done|]; unfold mid; [rewrite decide_True by done; ring|]. intros m _ Hm. rewrite decide_False by done. ring.
    - transitivity (qsum n (λ j, qsum n (λ m, S k m * (P m j * u j)))).
      + apply qsum_ext. intros j Hj. rewrite <-(proj1 HP k j Hk Hj). unfold mmul. rewrite <-qsum_mul_r. apply qsum_ext. intros m _. ring.
      + rewrite qsum_swap. apply qsum_ext. intros m _. unfold w. by rewrite qsum_mul_l. }
  assert (lcov n P u u = lcov n S w w) as ->.
  { transitivity (qsum n (λ k, u k * w k)).
    - unfold lcov. apply qsum_ext. intros k _. unfold w. rewrite <-qsum_mul_l. apply qsum_ext. intros j _. ring.
    - unfold lcov. apply qsum_ext. intros k Hk. rewrite (Hw k Hk), <-qsum_mul_r. apply qsum_ext. intros j _.
      transitivity (w k * S k j * w j); [ring|done]. }
  apply Hpd. destruct (decide (Exists (λ k, w k ≠ 0) (seq 0 n))) as [He|He].
  - apply Exists_exists in He as (k & Hk & Hne). exists k. apply elem_of_seq in Hk. split; [lia|done].
  - exfalso. apply Hu. rewrite (Hw i Hi). apply qsum_zero. intros j Hj. destruct (decide (w j = 0)) as [->|Hne]; [ring|]. destruct He. apply Exists_exists. exists j. split; [apply elem_of_seq; lia|done].
Qed.
