(** What [from_precision] returns. *)
From Coq Require Import QArith.Qcanon Field.
From Verif Require Import Py Spec SpecLin DagModel UGraphModel QMatModel GaussModel GaussLinModel QMatProofs LinProofs SemProofs InvProofs PartialProofs SchurProofs LdlProofs.
#[local] Open Scope Qc_scope.

Lemma pos_in_lookup l v : v ∈ l → l !! pos_in l v = Some v.
Proof. induction l as [|x l IH]; cbn; [by intros ?%elem_of_nil|]. case_decide as D; [by subst|]. intros [->|H]%elem_of_cons; [done|]. cbn. by apply IH. Qed.
Lemma tol2_pos : 0 < tol2. Proof. done. Qed.

Section prec.
  Context (n : nat) (ord : list node) (Hord : ord ≡ₚ seq 0 n).
  Notation rev := (reverse ord).
  Lemma rev_perm : rev ++ [] ≡ₚ seq 0 n.
  Proof using Hord. by rewrite app_nil_r, reverse_Permutation. Qed.
  Lemma rev_len : length rev = n.
  Proof using Hord. rewrite reverse_length, Hord. apply seq_length. Qed.
  Lemma rev_nodup : NoDup rev.
  Proof using Hord. rewrite reverse_Permutation, Hord. apply NoDup_seq. Qed.
  Lemma rev_in v : v ∈ rev ↔ (v < n)%nat.
  Proof using Hord. rewrite reverse_Permutation, Hord, elem_of_seq. lia. Qed.
  Lemma rev_range : in_range n rev.
  Proof using Hord. apply Forall_forall. intros v. apply rev_in. Qed.
  Lemma rev_at a : (a < n)%nat → rev !! a = Some (default O (rev !! a)) ∧ (default O (rev !! a) < n)%nat.
  Proof using Hord.
    intros Ha. rewrite <-rev_len in Ha. apply lookup_lt_is_Some in Ha as [v Hv]. rewrite Hv. split; [done|]. cbn. apply rev_in. by eapply elem_of_list_lookup_2.
  Qed.
  Lemma pos_at a : (a < n)%nat → pos_in rev (default O (rev !! a)) = a.
  Proof using Hord.
    intros Ha. destruct (rev_at a Ha) as [E Hr]. eapply (NoDup_lookup rev); [apply rev_nodup| |exact E]. by apply pos_in_lookup, rev_in.
  Qed.
  Lemma at_pos v : (v < n)%nat → default O (rev !! pos_in rev v) = v ∧ (pos_in rev v < n)%nat.
  Proof using Hord.
    intros Hv. apply rev_in in Hv. pose proof (pos_in_lookup _ _ Hv) as E. rewrite E. split; [done|]. apply lookup_lt_Some in E. by rewrite rev_len in E.
  Qed.
  Lemma rev_sum f : qsum n f = qsum n (λ a, f (default O (rev !! a))).
  Proof using Hord. rewrite (qsum_split n f _ _ rev_perm). cbn. rewrite rev_len. ring. Qed.
  Lemma before_pos x y : (x < n)%nat → (y < n)%nat → before ord x y ↔ (pos_in rev y < pos_in rev x)%nat.
  Proof using Hord.
    intros Hx Hy. pose proof rev_len as Hlen. rewrite reverse_length in Hlen.
    assert (NoDup ord) as Hnd by (rewrite Hord; apply NoDup_seq).
    assert (∀ v, (v < n)%nat → ord !! (n - S (pos_in rev v))%nat = Some v) as Hl.
    { intros v Hv. pose proof (pos_in_lookup rev v) as E. rewrite rev_in in E. specialize (E Hv). apply reverse_lookup_Some in E as [E _]. by rewrite Hlen in E. }
    destruct (at_pos x Hx) as [_ Px], (at_pos y Hy) as [_ Py]. split.
    - intros (i & j & Hi & Hj & Hij). assert (i = n - S (pos_in rev x))%nat by (eapply NoDup_lookup; eauto). assert (j = n - S (pos_in rev y))%nat by (eapply NoDup_lookup; eauto). lia.
    - intros H. exists (n - S (pos_in rev x))%nat, (n - S (pos_in rev y))%nat. split; [by apply Hl|]. split; [by apply Hl|]. lia.
  Qed.

  (** A factorisation is what [ldl] computes. *)
  Lemma factors_ldl P U e : factors n ord P U e →
    let '(L, d) := ldl (mix_ rev rev P) n in
    ∀ x y, (x < n)%nat → (y < n)%nat → L (pos_in rev x) (pos_in rev y) = U x y ∧ d (pos_in rev y) = e y.
  Proof using Hord.
    intros (H1 & H2 & H3). destruct (ldl _ n) as [L d] eqn:E.
    assert (∀ j, (j < n)%nat → d j = e (default O (rev !! j)) ∧ ∀ i, (i < n)%nat → L i j = U (default O (rev !! i)) (default O (rev !! j))) as HL.
    { intros j Hj. pose proof (ldl_unique (mix_ rev rev P) n (λ a b, U (default O (rev !! a)) (default O (rev !! b))) (λ a, e (default O (rev !! a)))) as Hu.
      specialize (Hu) with (k := n) (j := j). rewrite E in Hu. apply Hu; [| | | |done|done].
      - intros a b Ha Hb Hab. destruct (rev_at a Ha) as [_ Ra], (rev_at b Hb) as [_ Rb].
        destruct (decide (U (default O (rev !! a)) (default O (rev !! b)) = 0)) as [|Hne]; [done|]. apply H2 in Hne; [|done|done|].
        + apply before_pos in Hne; [|done|done]. rewrite !pos_at in Hne by done. lia.
        + intros Heq. pose proof (pos_at a Ha) as E1. rewrite Heq, pos_at in E1 by done. lia.
      - intros a Ha. apply H1. by apply rev_at.
      - intros a Ha. apply Qc_lt_ne, H1. by apply rev_at.
      - intros a b Ha Hb. unfold mix_. rewrite H3 by by apply rev_at. by rewrite rev_sum. }
    intros x y Hx Hy. destruct (at_pos x Hx) as [Ex Px], (at_pos y Hy) as [Ey Py]. destruct (HL _ Py) as [-> HL']. rewrite (HL' _ Px), Ex, Ey. done.
  Qed.
  (** Conversely, if [ldl] finds positive pivots it is a factorisation. *)
  Lemma ldl_factors P : (∀ i j, (i < n)%nat → (j < n)%nat → P i j = P j i) →
    let '(L, d) := ldl (mix_ rev rev P) n in
    (∀ k, (k < n)%nat → 0 < d k) → factors n ord P (λ x y, L (pos_in rev x) (pos_in rev y)) (λ x, d (pos_in rev x)).
  Proof using Hord.
    intros HP. destruct (ldl _ n) as [L d] eqn:E. intros Hd.
    assert (∀ i j, (j < n)%nat → (j <= i)%nat → mix_ rev rev P i j = qsum n (λ m, L i m * d m * L j m)) as HE.
    { intros i j Hj Hji. pose proof (ldl_entry (mix_ rev rev P) n i j) as He. rewrite E in He. apply He; [|done|done]. intros m Hm. by apply Qc_lt_ne, Hd. }
    split; [|split].
    - intros i Hi. destruct (at_pos i Hi) as [_ Pi]. split; [|by apply Hd]. pose proof (ldl_shape (mix_ rev rev P) n (pos_in rev i) (pos_in rev i) Pi) as [_ H1]. by rewrite E in H1.
    - intros i j Hi Hj Hij Hne. apply before_pos; [done|done|]. destruct (at_pos i Hi) as [Ei Pi], (at_pos j Hj) as [Ej Pj].
      assert (pos_in rev i ≠ pos_in rev j) as Hpp. { intros Epp. apply Hij. rewrite <-Ei, <-Ej, Epp. done. }
      destruct (decide (pos_in rev i < pos_in rev j)%nat) as [Hlt|Hlt]; [|lia]. destruct Hne.
      pose proof (ldl_shape (mix_ rev rev P) n (pos_in rev i) (pos_in rev j) Pj) as [H1 _]. rewrite E in H1. by apply H1.
    - intros i j Hi Hj. destruct (at_pos i Hi) as [Ei Pi], (at_pos j Hj) as [Ej Pj].
      transitivity (qsum n (λ m, L (pos_in rev i) m * d m * L (pos_in rev j) m)).
      2: { rewrite (rev_sum (λ m, L (pos_in rev i) (pos_in rev m) * d (pos_in rev m) * L (pos_in rev j) (pos_in rev m))). apply qsum_ext. intros m Hm. by rewrite pos_at. }
      transitivity (mix_ rev rev P (pos_in rev i) (pos_in rev j)); [unfold mix_; by rewrite Ei, Ej|].
      destruct (decide (pos_in rev j <= pos_in rev i)%nat) as [Hle|Hle]; [by apply HE|].
      transitivity (mix_ rev rev P (pos_in rev j) (pos_in rev i)); [unfold mix_; rewrite Ei, Ej; by apply HP|].
      rewrite HE by lia. apply qsum_ext. intros m _. ring.
  Qed.
End prec.
(** A matrix has a factorisation if and only if it is positive definite. *)
Lemma factors_exist n ord P : ord ≡ₚ seq 0 n → posdef n P → ∃ U e, factors n ord P U e.
Proof.
  intros Hord Hpd. pose proof (ldl_factors n ord Hord P (proj1 Hpd)) as HF. destruct (ldl (mix_ (reverse ord) (reverse ord) P) n) as [L d] eqn:E.
  exists (λ x y, L (pos_in (reverse ord) x) (pos_in (reverse ord) y)), (λ x, d (pos_in (reverse ord) x)). apply HF. intros k Hk.
  pose proof (posdef_sub n P (reverse ord) (rev_nodup n ord Hord) (rev_range n ord Hord) Hpd) as Hs. rewrite (rev_len n ord Hord) in Hs.
  pose proof (ldl_posdef _ n Hs k Hk) as Hp. destruct (ldl_stable (mix_ (reverse ord) (reverse ord) P) (S k) n Hk O k ltac:(lia)) as [_ E2]. rewrite E in E2. cbn [snd] in E2. rewrite E2.
  by destruct (ldl_new (mix_ (reverse ord) (reverse ord) P) k O) as [-> _].
Qed.
Lemma factors_posdef n ord P U e : ord ≡ₚ seq 0 n → factors n ord P U e → posdef n P.
Proof.
  intros Hord (H1 & H2 & H3). split. { intros i j Hi Hj. rewrite !H3 by done. apply qsum_ext. intros m _. ring. }
  intros u Hu. set (w := λ m, qsum n (λ i, U i m * u i)).
  assert (lcov n P u u = qsum n (λ m, e m * (w m * w m))) as ->.
  { unfold lcov. transitivity (qsum n (λ i, qsum n (λ j, qsum n (λ m, (U i m * u i) * (e m * (U j m * u j)))))).
    { apply qsum_ext. intros i Hi. apply qsum_ext. intros j Hj. rewrite H3 by done. rewrite <-qsum_mul_l, <-qsum_mul_r. apply qsum_ext. intros m _. ring. }
    transitivity (qsum n (λ i, qsum n (λ m, (U i m * u i) * (e m * w m)))).
    { apply qsum_ext. intros i _. rewrite qsum_swap. apply qsum_ext. intros m _. unfold w. by rewrite <-!qsum_mul_l. }
    rewrite qsum_swap. apply qsum_ext. intros m _. rewrite qsum_mul_r. fold (w m). ring. }
  (* the last position with a non-zero entry *)
  set (rv := reverse ord). assert (∃ a, (a < n)%nat ∧ u (default O (rv !! a)) ≠ 0 ∧ ∀ b, (a < b)%nat → (b < n)%nat → u (default O (rv !! b)) = 0) as (a & Ha & Hua & Hub).
  { destruct Hu as (i & Hi & Hui). destruct (at_pos n ord Hord i Hi) as [Ei Pi]. fold rv in Ei, Pi. rewrite <-Ei in Hui. clear Ei Hi. revert Pi Hui. generalize (pos_in rv i). intros p. clear i.
    remember (n - p)%nat as q eqn:Hq. revert p Hq. induction q as [q IH] using lt_wf_ind. intros p Hq Hp Hu'.
    destruct (decide (Exists (λ b, (p < b)%nat ∧ u (default O (rv !! b)) ≠ 0) (seq 0 n))) as [He|He].
    - apply Exists_exists in He as (b & Hb & Hpb & Hne). apply elem_of_seq in Hb. apply (IH (n - b)%nat ltac:(lia) b); [done|lia|done].
    - exists p. split; [done|]. split; [done|]. intros b Hb Hbn. destruct (decide (u (default O (rv !! b)) = 0)) as [|Hne]; [done|]. destruct He. apply Exists_exists. exists b. split; [apply elem_of_seq; lia|done]. }
  destruct (rev_at n ord Hord a Ha) as [_ Ra]. fold rv in Ra. set (x := default O (rv !! a)) in *.
  assert (w x = u x) as Hwx.
  { unfold w. rewrite (qsum_one n _ x); [destruct (H1 x Ra) as [-> _]; ring|done|]. intros k Hk Hkx.
    destruct (decide (U k x = 0)) as [->|Hne]; [ring|]. apply H2 in Hne; [|done..]. apply (before_pos n ord Hord) in Hne; [|done|done]. fold rv in Hne.
    assert (pos_in rv x = a) as Ex by by apply (pos_at n ord Hord). rewrite Ex in Hne. destruct (at_pos n ord Hord k Hk) as [Ek Pk]. fold rv in Ek, Pk.
    rewrite <-Ek at 2. rewrite Hub by done. ring. }
  assert (∀ m, (m < n)%nat → 0 <= e m * (w m * w m)) as Hnn.
  { intros m Hm. replace 0 with (0 * (w m * w m)) by ring. apply Qcmult_le_compat_r; [apply Qclt_le_weak; by apply H1|apply Qc_square_nonneg]. }
  apply (qsum_pos n _ x Hnn Ra). rewrite Hwx. replace 0 with (0 * (u x * u x)) by ring. apply Qcmult_lt_compat_r; [by apply Qc_square_pos|by apply H1].
Qed.

Lemma tol2_eq : tol2 = / qz 10000000000000000.
Proof. apply Qc_is_canon. vm_compute. reflexivity. Qed.
Lemma chop_id L d x y : (L x y ≠ 0 → tol2 < L x y * L x y * d y) → chop L d x y = L x y.
Proof.
  intros H. unfold chop. case_decide as D; [|done]. destruct (decide (L x y = 0)) as [->|Hne]; [done|]. by apply H, Qclt_not_le in Hne.
Qed.
Lemma sym_ok n P : (∀ i j, (i < n)%nat → (j < n)%nat → P i j = P j i) → is_symmetric n P = true.
Proof.
  intros H. unfold is_symmetric. apply forallb_forall. intros i Hi%elem_of_list_In%elem_of_seq. apply forallb_forall. intros j Hj%elem_of_list_In%elem_of_seq. apply bool_decide_eq_true.
  rewrite (H i j) by lia. replace (P j i - P j i) with 0 by ring. done.
Qed.
