(** The factorisation of [from_precision]: existence and uniqueness. *)
From Coq Require Import QArith.Qcanon Field.
From Verif Require Import Py Spec SpecLin DagModel UGraphModel QMatModel GaussModel GaussLinModel QMatProofs LinProofs SemProofs InvProofs PartialProofs SchurProofs.
#[local] Open Scope Qc_scope.

Section ldl.
  Context (A : mat).
  Notation L_ k := (ldl A k).1.
  Notation d_ k := (ldl A k).2.
  Definition dpivot k : Qc := A k k - qsum k (λ m, L_ k k m * L_ k k m * d_ k m).
  Lemma ldl_S k : ldl A (S k) =
    (λ i j, if decide (j = k) then if decide (i < k)%nat then 0 else if decide (i = k) then 1
              else (A i k - qsum k (λ m, L_ k i m * L_ k k m * d_ k m)) / dpivot k else L_ k i j,
     vupd (d_ k) k (dpivot k)).
  Proof using. unfold dpivot. cbn [ldl]. destruct (ldl A k) as [L d]. done. Qed.
  Lemma ldl_old k i j : (j < k)%nat → L_ (S k) i j = L_ k i j ∧ d_ (S k) j = d_ k j.
  Proof using. intros Hj. rewrite ldl_S. cbn. unfold vupd. rewrite !decide_False by lia. done. Qed.
  Lemma ldl_new k i : d_ (S k) k = dpivot k ∧
    L_ (S k) i k = if decide (i < k)%nat then 0 else if decide (i = k) then 1 else (A i k - qsum k (λ m, L_ k i m * L_ k k m * d_ k m)) / dpivot k.
  Proof using. rewrite ldl_S. cbn. unfold vupd. rewrite !decide_True by done. done. Qed.
  Lemma ldl_stable k k' : (k <= k')%nat → ∀ i j, (j < k)%nat → L_ k' i j = L_ k i j ∧ d_ k' j = d_ k j.
  Proof using.
    induction 1 as [|k' Hk IH]; intros i j Hj; [done|]. destruct (ldl_old k' i j) as [-> ->]; [lia|]. by apply IH.
  Qed.
  Lemma ldl_shape n i j : (j < n)%nat → ((i < j)%nat → L_ n i j = 0) ∧ L_ n j j = 1.
  Proof using.
    intros Hj. destruct (ldl_stable (S j) n Hj i j) as [-> _]; [lia|]. destruct (ldl_stable (S j) n Hj j j) as [-> _]; [lia|].
    split; [intros Hi; destruct (ldl_new j i) as [_ ->]; by rewrite decide_True by done|]. destruct (ldl_new j j) as [_ ->]. by rewrite decide_False, decide_True by lia.
  Qed.
  (** The entries of the product below the diagonal. *)
  Lemma ldl_entry n i j : (∀ m, (m < n)%nat → d_ n m ≠ 0) → (j < n)%nat → (j <= i)%nat →
    A i j = qsum n (λ m, L_ n i m * d_ n m * L_ n j m).
  Proof using.
    intros Hd Hj Hi.
    assert (∀ q f, (∀ m, (j < m)%nat → f m = 0) → (j < q)%nat → qsum q f = qsum j f + f j) as Hcut.
    { intros q f Hf. induction q as [|q IH]; [lia|]. intros Hq. cbn. destruct (decide (q = j)) as [->|Hne]; [done|]. rewrite IH, (Hf q) by lia. ring. }
    destruct (ldl_shape n j j Hj) as [_ H1].
    rewrite (qsum_ext n _ (λ m, if decide (m <= j)%nat then L_ n i m * d_ n m * L_ n j m else 0)).
    2: { intros m Hm. case_decide; [done|]. destruct (ldl_shape n j m Hm) as [-> _]; [ring|lia]. }
    rewrite Hcut; [|intros m Hm; by rewrite decide_False by lia|done]. rewrite decide_True by lia. rewrite H1.
    rewrite (qsum_ext j _ (λ m, L_ j i m * L_ j j m * d_ j m)).
    2: { intros m Hm. rewrite decide_True by lia. destruct (ldl_stable j n ltac:(lia) i m Hm) as [-> ->]. destruct (ldl_stable j n ltac:(lia) j m Hm) as [-> _]. ring. }
    specialize (Hd j Hj). destruct (ldl_stable (S j) n Hj i j ltac:(lia)) as [EL Ed]. destruct (ldl_new j i) as [Ep EL']. rewrite EL, EL'.
    rewrite Ed, Ep in Hd. rewrite Ed, Ep. rewrite decide_False by lia. clear EL EL'. case_decide as Hij.
    - subst i. unfold dpivot. ring.
    - field. done.
  Qed.
  (** Any other factorisation is the same. *)
  Lemma ldl_unique n (L' : mat) (d' : vec) :
    (∀ i j, (i < n)%nat → (j < n)%nat → (i < j)%nat → L' i j = 0) → (∀ i, (i < n)%nat → L' i i = 1) → (∀ i, (i < n)%nat → d' i ≠ 0) →
    (∀ i j, (i < n)%nat → (j < n)%nat → A i j = qsum n (λ m, L' i m * d' m * L' j m)) →
    ∀ k, (k <= n)%nat → ∀ j, (j < k)%nat → d_ k j = d' j ∧ ∀ i, (i < n)%nat → L_ k i j = L' i j.
  Proof using.
    intros HU H1 Hd HA. induction k as [|k IH]; intros Hk j Hj; [lia|].
    destruct (decide (j = k)) as [->|Hne].
    2: { destruct (IH ltac:(lia) j ltac:(lia)) as [E1 E2]. split; [by destruct (ldl_old k 0 j ltac:(lia)) as [_ ->]|]. intros i Hi. destruct (ldl_old k i j ltac:(lia)) as [-> _]. by apply E2. }
    assert (∀ q f, (∀ m, (m < q)%nat → (k < m)%nat → f m = 0) → (k < q)%nat → qsum q f = qsum k f + f k) as Hcut.
    { clear. intros q f. induction q as [|q IH]; [lia|]. intros Hf Hq. cbn. destruct (decide (q = k)) as [->|Hne]; [done|].
      rewrite IH, (Hf q); [ring|lia|lia|intros; apply Hf; lia|lia]. }
    assert (∀ i, (i < n)%nat → A i k - qsum k (λ m, L_ k i m * L_ k k m * d_ k m) = L' i k * d' k) as Hcol.
    { intros i Hi. rewrite (HA i k) by lia. rewrite (Hcut n); [|intros m Hm Hkm; rewrite (HU k m) by lia; ring|lia].
      rewrite (H1 k) by lia. rewrite (qsum_ext k (λ m, L_ k i m * L_ k k m * d_ k m) (λ m, L' i m * d' m * L' k m)); [ring|].
      intros m Hm. destruct (IH ltac:(lia) m Hm) as [-> E]. rewrite (E i), (E k) by lia. ring. }
    assert (dpivot k = d' k) as Hp. { unfold dpivot. rewrite Hcol by lia. rewrite H1 by lia. ring. }
    split; [by destruct (ldl_new k 0) as [-> _]|]. intros i Hi. destruct (ldl_new k i) as [_ ->]. rewrite Hp.
    case_decide as D; [symmetry; apply HU; lia|]. case_decide as D'; [subst; symmetry; apply H1; lia|].
    rewrite Hcol by done. field. apply Hd. lia.
  Qed.
  (** The pivots of a positive definite matrix are positive. *)
  Lemma ldl_posdef n : posdef n A → ∀ k, (k < n)%nat → 0 < dpivot k.
  Proof using.
    intros Hpd. intros k. induction k as [k IH] using lt_wf_ind. intros Hk.
    assert (∀ m, (m < k)%nat → d_ k m ≠ 0) as Hd.
    { intros m Hm. destruct (ldl_stable (S m) k ltac:(lia) 0 m ltac:(lia)) as [_ ->]. destruct (ldl_new m 0) as [-> _]. apply Qc_lt_ne, IH; lia. }
    set (D := λ m, d_ k m). set (Lk := L_ k).
    (* row k of [L], solved backwards: a combination of the first variables and [X_k] *)
    assert (∃ u : nat → Qc, u k = 1 ∧ (∀ x, (k < x)%nat → u x = 0) ∧ ∀ j, (j < k)%nat → qsum (S k) (λ x, u x * A x j) = 0) as (u & Hu1 & Hu2 & Hu3).
    { set (S' := list_to_set (seq 0 k) : nset). destruct (residual_exists n A Hpd S' k) as (r & Hr1 & Hr2).
      exists (λ x, if decide (x <= k)%nat then r x else 0). assert (k ∉ S') as HkS by (unfold S'; rewrite elem_of_list_to_set, elem_of_seq; lia).
      split; [|split].
      - rewrite decide_True by lia. rewrite Hr1 by done. unfold eunit. by rewrite decide_True.
      - intros x Hx. by rewrite decide_False by lia.
      - intros j Hj. assert (j ∈ S') as HjS by (unfold S'; rewrite elem_of_list_to_set, elem_of_seq; lia). specialize (Hr2 j ltac:(lia) HjS). rewrite cov_unit_r in Hr2 by lia.
        rewrite <-Hr2. symmetry.
        assert (∀ q f, (∀ m, (m < q)%nat → (k < m)%nat → f m = 0) → (k < q)%nat → qsum q f = qsum (S k) f) as Hcut.
        { clear. intros q f. induction q as [|q IHq]; [lia|]. intros Hf Hq. destruct (decide (q = k)) as [->|Hne]; [done|]. cbn [qsum].
          rewrite IHq, (Hf q); [cbn; ring|lia|lia|intros; apply Hf; lia|lia]. }
        rewrite (Hcut n); [|intros m Hm Hkm; rewrite Hr1; [unfold eunit; rewrite decide_False by lia; ring|done|unfold S'; rewrite elem_of_list_to_set, elem_of_seq; lia]|done].
        apply qsum_ext. intros x Hx. by rewrite decide_True by lia. }
    (* its covariance with [X_k] is the pivot *)
    assert (∀ i j, (j < k)%nat → (j <= i)%nat → (i < n)%nat → A i j = qsum k (λ m, Lk i m * D m * Lk j m)) as HE by (intros i j Hj Hi Hin; by apply ldl_entry).
    assert (∀ i, (i <= k)%nat → A i k = qsum k (λ m, Lk i m * D m * Lk k m) + (if decide (i = k) then dpivot k else 0)) as HEk.
    { intros i Hi. case_decide as Hik.
      - subst i. unfold dpivot. fold Lk D. rewrite (qsum_ext k (λ m, Lk k m * D m * Lk k m) (λ m, Lk k m * Lk k m * D m)) by (intros; ring). change (λ m, Lk k m * Lk k m * d_ k m) with (λ m, Lk k m * Lk k m * D m). ring.
      - rewrite (proj1 Hpd i k) by lia. rewrite (HE k i) by lia. rewrite (qsum_ext k (λ m, Lk k m * D m * Lk i m) (λ m, Lk i m * D m * Lk k m)) by (intros; ring). ring. }
    assert (∀ j, (j < k)%nat → qsum (S k) (λ x, u x * qsum k (λ m, Lk x m * D m * Lk j m)) = 0) as Hz.
    { intros j Hj. rewrite <-(Hu3 j Hj). apply qsum_ext. intros x Hx. f_equal. destruct (decide (j <= x)%nat) as [Hjx|Hjx]; [symmetry; apply HE; lia|].
      rewrite (proj1 Hpd x j) by lia. rewrite (HE j x) by lia. apply qsum_ext. intros m _. ring. }
    (* hence [sum_x u x * L x m = 0] for every [m < k] *)
    set (c := λ m, qsum (S k) (λ x, u x * Lk x m)).
    assert (∀ j, (j < k)%nat → qsum k (λ m, c m * D m * Lk j m) = 0) as Hz2.
    { intros j Hj. rewrite <-(Hz j Hj). unfold c. transitivity (qsum k (λ m, qsum (S k) (λ x, u x * (Lk x m * D m * Lk j m)))).
      - apply qsum_ext. intros m _. rewrite <-!qsum_mul_r. apply qsum_ext. intros x _. ring.
      - rewrite qsum_swap. apply qsum_ext. intros x _. by rewrite qsum_mul_l. }
    assert (∀ j, (j < k)%nat → c j = 0) as Hc.
    { intros j. induction j as [j IHj] using lt_wf_ind. intros Hj. specialize (Hz2 j Hj). rewrite (qsum_one k _ j) in Hz2; [|done|].
      - destruct (ldl_shape k j j Hj) as [_ E]. fold Lk in E. rewrite E in Hz2. destruct (Qcmult_integral (c j) (D j)) as [?|HD0]; [rewrite <-Hz2; ring|done|by destruct (Hd j Hj)].
      - intros m Hm Hmj. destruct (decide (m < j)%nat) as [Hlt|Hlt]; [rewrite (IHj m) by lia; ring|]. destruct (ldl_shape k j m Hm) as [E _]. fold Lk in E. rewrite E by lia. ring. }
    assert (lcov n A u u = dpivot k) as <-.
    { assert (∀ f, (∀ x, (k < x)%nat → f x = 0) → qsum n f = qsum (S k) f) as Hcut.
      { clear -Hk. intros f Hf. induction n as [|q IHq]; [lia|]. destruct (decide (q = k)) as [->|Hne]; [done|]. cbn [qsum]. rewrite IHq, (Hf q) by lia. cbn. ring. }
      unfold lcov. rewrite Hcut.
      2: { intros x Hx. apply qsum_zero. intros y _. rewrite Hu2 by done. ring. }
      transitivity (qsum (S k) (λ i, u i * qsum (S k) (λ j, u j * A j i))).
      { apply qsum_ext. intros i Hi. rewrite Hcut; [|intros y Hy; rewrite (Hu2 y) by done; ring]. rewrite <-qsum_mul_l. apply qsum_ext. intros j Hj. rewrite (proj1 Hpd i j) by lia. ring. }
      cbn [qsum]. rewrite Hu1. rewrite qsum_zero.
      2: { intros i Hi. pose proof (Hu3 i Hi) as E. cbn [qsum] in E. rewrite Hu1 in E. rewrite E. ring. }
      transitivity (qsum (S k) (λ j, u j * A j k)); [cbn [qsum]; rewrite Hu1; ring|].
      transitivity (qsum (S k) (λ j, u j * qsum k (λ m, Lk j m * D m * Lk k m) + (if decide (j = k) then u j * dpivot k else 0))).
      { apply qsum_ext. intros j Hj. rewrite HEk by lia. case_decide; ring. }
      rewrite qsum_add. rewrite (qsum_one (S k) (λ j, if decide (j = k) then _ else _) k); [|lia|intros; by rewrite decide_False]. rewrite decide_True by done. rewrite Hu1.
      transitivity (qsum k (λ m, c m * D m * Lk k m) + dpivot k).
      - f_equal; [|ring]. transitivity (qsum (S k) (λ x, qsum k (λ m, u x * (Lk x m * D m * Lk k m)))); [apply qsum_ext; intros; by rewrite qsum_mul_l|].
        rewrite qsum_swap. apply qsum_ext. intros m _. unfold c. rewrite <-!qsum_mul_r. apply qsum_ext. intros x _. ring.
      - rewrite qsum_zero; [ring|]. intros m Hm. rewrite Hc by done. ring. }
    apply Hpd. exists k. split; [done|]. by rewrite Hu1.
  Qed.
End ldl.
