(** What [partial_correlation] computes. *)
From Coq Require Import QArith.Qcanon Field.
From Verif Require Import Py Spec SpecLin DagModel UGraphModel QMatModel GaussModel GaussLinModel QMatProofs LinProofs SemProofs InvProofs.
#[local] Open Scope Qc_scope.

Lemma Qcmult_lt_0_le_reg_r' (p q : Qc) : 0 < q → 0 < p * q → 0 < p.
Proof.
  intros Hq Hpq. destruct (Qclt_le_dec 0 p) as [|Hp]; [done|]. exfalso. apply (Qclt_not_le _ _ Hpq). replace 0 with (0 * q) by ring.
  apply Qcmult_le_compat_r; [done|by apply Qclt_le_weak].
Qed.
Lemma Qc_inv_pos (q : Qc) : 0 < q → 0 < / q.
Proof.
  intros Hq. pose proof (Qc_lt_ne q Hq) as H0. apply (Qcmult_lt_0_le_reg_r' _ q Hq). by rewrite Qcmult_inv_l.
Qed.

(** The numbers computed from the inverse of a submatrix. *)
Lemma partial_spec o inv n (S : mat) i j (cond : nset) :
  inverts inv → posdef n S → (i < n)%nat → (j < n)%nat → i ≠ j → i ∉ cond → j ∉ cond → (∀ v, v ∈ cond → (v < n)%nat) →
  ∃ a b, partial_correlation o inv n S i j cond = Ok (a, b) ∧ 0 < b ∧
    ∀ r s, residual n S cond i r → residual n S cond j s →
      ∃ k, 0 < k ∧ a = k * lcov n S r s ∧ b = k * k * (lcov n S r r * lcov n S s s).
Proof.
  intros Hinv Hpd Hi Hj Hij HiC HjC HC. unfold partial_correlation.
  assert (∀ x r, (x < n)%nat → x ∉ cond → residual n S cond x r → 0 < lcov n S r r) as Hpos.
  { intros x r Hx HxC Hr. apply Hpd. exists x. split; [done|]. rewrite (proj1 Hr) by done. unfold eunit. by rewrite decide_True. }
  assert (∀ p q : Qc, 0 < p → 0 < q → 0 < p * q) as Hmul.
  { intros p q Hp Hq. replace 0 with (0 * q) by ring. by apply Qcmult_lt_compat_r. }
  destruct (decide (cond = ∅)) as [->|Hne].
  { rewrite decide_True by (by repeat constructor). assert (∀ x, residual n S ∅ x (eunit x)) as H0. { intros x. split; [done|set_solver]. }
    assert (∀ x y, (x < n)%nat → (y < n)%nat → lcov n S (eunit x) (eunit y) = S x y) as HS.
    { intros x y Hx Hy. rewrite lcov_unit_l by done. rewrite (qsum_one n _ y); [|done|]; unfold eunit; [rewrite decide_True by done; ring|].
      intros k _ Hk. rewrite decide_False by done. ring. }
    exists (S i j), (S i i * S j j). split; [done|]. split.
    - rewrite <-!HS by done. apply Hmul; [by apply (Hpos i)|by apply (Hpos j)].
    - intros r s Hr Hs. exists 1. split; [done|].
      assert (∀ t, residual n S ∅ i t → ∀ k, (k < n)%nat → t k = eunit i k) as E1 by (intros t Ht k Hk; by apply Ht).
      assert (∀ t, residual n S ∅ j t → ∀ k, (k < n)%nat → t k = eunit j k) as E2 by (intros t Ht k Hk; by apply Ht).
      rewrite (cov_ext n S r (eunit i) s (eunit j)), (cov_ext n S r (eunit i) r (eunit i)), (cov_ext n S s (eunit j) s (eunit j)) by auto.
      rewrite !HS by done. split; ring. }
  set (cs := on o [149%nat] cond). set (l := i :: j :: cs).
  assert (∀ v, v ∈ cs ↔ v ∈ cond) as Hcs by (intros v; apply elem_of_on).
  assert (in_range n l) as Hr.
  { constructor; [done|]. constructor; [done|]. apply Forall_forall. intros v Hv. by apply HC, Hcs. }
  assert (NoDup l) as Hnd.
  { apply list.NoDup_cons. split; [intros [->|?%Hcs]%elem_of_cons; done|]. apply list.NoDup_cons. split; [by rewrite Hcs|apply NoDup_on]. }
  rewrite decide_True by done. set (m := length l). set (th := inv m (mix_ l l S)).
  assert (is_inverse m (mix_ l l S) th) as [H1 H2] by exact (inverts_pd inv m _ Hinv (posdef_sub n S l Hnd Hr Hpd)).
  assert (2 <= m)%nat as Hm by (unfold m, l; cbn; lia).
  exists (- th 0%nat 1%nat), (th 0%nat 0%nat * th 1%nat 1%nat). split; [done|].
  assert (∀ r s, residual n S cond i r → residual n S cond j s →
    ∃ k, 0 < k ∧ - th 0%nat 1%nat = k * lcov n S r s ∧ th 0%nat 0%nat * th 1%nat 1%nat = k * k * (lcov n S r r * lcov n S s s)) as Hkey; cycle 1.
  { split; [|exact Hkey]. destruct (residual_exists n S Hpd cond i) as (r & Hres). destruct (residual_exists n S Hpd cond j) as (s & Hress).
    destruct (Hkey r s Hres Hress) as (k & Hk & _ & ->). apply Hmul; [by apply Hmul|]. apply Hmul; [by apply (Hpos i)|by apply (Hpos j)]. }
  intros r s Hres Hress.
  (* the columns of the inverse as combinations of the variables *)
  assert (∀ c, (c < m)%nat → ∀ a, (a < m)%nat → lcov n S (emb l (λ b, th b c)) (eunit (default O (l !! a))) = if decide (a = c) then 1 else 0) as Hcol.
  { intros c Hc a Ha. rewrite cov_emb_unit by (done || by apply at_range). fold m. pose proof (H1 a c Ha Hc) as E. unfold mid in E. rewrite <-E. unfold mmul, mix_.
    apply qsum_ext. intros b Hb. rewrite (proj1 Hpd (default O (l !! b)) (default O (l !! a))) by (by apply at_range). ring. }
  set (A := lcov n S r r). set (B := lcov n S s s). set (Cc := lcov n S r s).
  assert (lcov n S s r = Cc) as HCs by by apply cov_sym.
  assert (∀ v, (v < n)%nat → v ∉ cond → r v = eunit i v ∧ s v = eunit j v) as Hrs by (intros v Hv HvC; split; [by apply Hres|by apply Hress]).
  assert (∀ c, (c < 2)%nat → ∀ v, (v < n)%nat → emb l (λ b, th b c) v = th 0%nat c * r v + th 1%nat c * s v) as Hexp.
  { intros c Hc2. assert (c < m)%nat as Hc by lia. set (T := emb l (λ b, th b c)). set (u := λ v, 1 * T v + - (1) * (th 0%nat c * r v + th 1%nat c * s v)).
    assert (T i = th 0%nat c) as Ti. { apply (emb_at l Hnd (λ b, th b c) 0%nat). unfold l. cbn. lia. }
    assert (T j = th 1%nat c) as Tj. { apply (emb_at l Hnd (λ b, th b c) 1%nat). unfold l. cbn. lia. }
    assert (∀ v, (v < n)%nat → v ∉ cond → u v = 0) as Hu0.
    { intros v Hv HvC. unfold u. destruct (Hrs v Hv HvC) as [-> ->]. destruct (decide (v = i)) as [->|Hvi].
      - rewrite Ti. unfold eunit. rewrite decide_True, decide_False by done. ring.
      - destruct (decide (v = j)) as [->|Hvj].
        + rewrite Tj. unfold eunit. rewrite decide_False, decide_True by done. ring.
        + unfold T. rewrite emb_out; [|intros [->|[->|?%Hcs]%elem_of_cons]%elem_of_cons; done]. unfold eunit. rewrite !decide_False by done. ring. }
    assert (∀ w, (w < n)%nat → w ∈ cond → lcov n S u (eunit w) = 0) as Horth.
    { intros w Hw HwC. unfold u. rewrite cov_lin_l, cov_lin_l. rewrite (proj2 Hres w Hw HwC), (proj2 Hress w Hw HwC).
      assert (w ∈ l) as [a Ha]%elem_of_list_lookup by (apply elem_of_cons; right; apply elem_of_cons; right; by apply Hcs).
      pose proof (lookup_lt_Some _ _ _ Ha) as Hal. pose proof (Hcol c Hc a Hal) as E. rewrite Ha in E. cbn in E. unfold T. rewrite E.
      rewrite decide_False; [ring|]. intros ->. destruct c as [|[|c]]; [| |lia]; unfold l in Ha; cbn in Ha; injection Ha as <-; done. }
    assert (lcov n S u u = 0) as Huu.
    { rewrite cov_split. apply qsum_zero. intros w Hw. destruct (decide (w ∈ cond)) as [HwC|HwC]; [rewrite Horth by done; ring|rewrite Hu0 by done; ring]. }
    intros v Hv. pose proof (cov_zero n S Hpd u Huu v Hv) as E. unfold u in E.
    replace (T v) with (1 * T v + - (1) * (th 0%nat c * r v + th 1%nat c * s v) + (th 0%nat c * r v + th 1%nat c * s v)) by ring. rewrite E. ring. }
  assert (lcov n S r (eunit i) = A) as Eri by (symmetry; by eapply residual_cov).
  assert (lcov n S s (eunit j) = B) as Esj by (symmetry; by eapply residual_cov).
  assert (lcov n S r (eunit j) = Cc) as Erj by (symmetry; by eapply residual_cov).
  assert (lcov n S s (eunit i) = Cc) as Esi by (rewrite <-HCs; symmetry; by eapply residual_cov).
  assert (∀ c, (c < 2)%nat → th 0%nat c * A + th 1%nat c * Cc = (if decide (0%nat = c) then 1 else 0) ∧
    th 0%nat c * Cc + th 1%nat c * B = (if decide (1%nat = c) then 1 else 0)) as Heq.
  { intros c Hc. split.
    - rewrite <-(Hcol c) by lia. change (default O (l !! 0%nat)) with i. rewrite (cov_ext n S _ (λ v, th 0%nat c * r v + th 1%nat c * s v) _ (eunit i)) by auto.
      by rewrite cov_lin_l, Eri, Esi.
    - rewrite <-(Hcol c) by lia. change (default O (l !! 1%nat)) with j. rewrite (cov_ext n S _ (λ v, th 0%nat c * r v + th 1%nat c * s v) _ (eunit j)) by auto.
      by rewrite cov_lin_l, Erj, Esj. }
  destruct (Heq 0%nat) as [E00 E01]; [lia|]. destruct (Heq 1%nat) as [E10 E11]; [lia|]. rewrite decide_True in E00 by done. rewrite decide_True in E11 by done. rewrite decide_False in E01 by done. rewrite decide_False in E10 by done.
  assert (0 < B) as HB by by apply (Hpos j).
  set (D := A * B - Cc * Cc).
  assert (0 < D) as HD.
  { assert (0 < lcov n S (λ v, B * r v + - Cc * s v) (λ v, B * r v + - Cc * s v)) as H0.
    { apply Hpd. exists i. split; [done|]. destruct (Hrs i Hi HiC) as [-> ->]. unfold eunit. rewrite decide_True, decide_False by done.
      replace (B * 1 + - Cc * 0) with B by ring. by apply Qc_lt_ne. }
    rewrite cov_lin_l, !cov_lin_r, HCs in H0. fold A B Cc in H0.
    replace (B * (B * A + - Cc * Cc) + - Cc * (B * Cc + - Cc * B)) with (D * B) in H0 by (unfold D; ring).
    apply (Qcmult_lt_0_le_reg_r' D B HB H0). }
  assert (D ≠ 0) as HD0 by by apply Qc_lt_ne.
  assert (th 0%nat 1%nat * D = - Cc) as F01.
  { unfold D. transitivity (B * (th 0%nat 1%nat * A + th 1%nat 1%nat * Cc) - Cc * (th 0%nat 1%nat * Cc + th 1%nat 1%nat * B)); [ring|]. rewrite E10, E11. ring. }
  assert (th 0%nat 0%nat * D = B) as F00.
  { unfold D. transitivity (B * (th 0%nat 0%nat * A + th 1%nat 0%nat * Cc) - Cc * (th 0%nat 0%nat * Cc + th 1%nat 0%nat * B)); [ring|]. rewrite E00, E01. ring. }
  assert (th 1%nat 1%nat * D = A) as F11.
  { unfold D. transitivity (A * (th 0%nat 1%nat * Cc + th 1%nat 1%nat * B) - Cc * (th 0%nat 1%nat * A + th 1%nat 1%nat * Cc)); [ring|]. rewrite E10, E11. ring. }
  exists (/ D). split; [by apply Qc_inv_pos|]. split.
  - replace Cc with (- (th 0%nat 1%nat * D)) by (rewrite F01; ring). field. done.
  - rewrite <-F00 at 1. rewrite <-F11 at 1. field. done.
Qed.
