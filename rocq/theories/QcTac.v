(** Linear arithmetic on exact rationals, products and means. *)
From Coq Require Import QArith.QArith QArith.Qcanon Lqa Field.
From Verif Require Import Py QMatModel QMatProofs.
#[local] Open Scope Qc_scope.

Lemma Qc_eq_this (x y : Qc) : x = y ↔ (this x == this y)%Q.
Proof. split; [by intros ->|apply Qc_is_canon]. Qed.
Lemma this_add (x y : Qc) : (this (x + y) == this x + this y)%Q.
Proof. apply Qred_correct. Qed.
Lemma this_mul (x y : Qc) : (this (x * y) == this x * this y)%Q.
Proof. apply Qred_correct. Qed.
Lemma this_opp (x : Qc) : (this (- x) == - this x)%Q.
Proof. apply Qred_correct. Qed.
Lemma this_sub (x y : Qc) : (this (x - y) == this x - this y)%Q.
Proof. unfold Qcminus. rewrite this_add, this_opp. reflexivity. Qed.
Lemma this_0 : (this 0%Qc == 0)%Q.
Proof. reflexivity. Qed.
Lemma this_1 : (this 1%Qc == 1)%Q.
Proof. reflexivity. Qed.
Lemma Qcle_this (x y : Qc) : x <= y ↔ (this x <= this y)%Q.
Proof. done. Qed.
Lemma Qclt_this (x y : Qc) : x < y ↔ (this x < this y)%Q.
Proof. done. Qed.

Ltac qc_norm :=
  repeat match goal with
  | H : @eq Qc _ _ |- _ => apply (proj1 (Qc_eq_this _ _)) in H
  | H : _ <= _ |- _ => apply (proj1 (Qcle_this _ _)) in H
  | H : _ < _ |- _ => apply (proj1 (Qclt_this _ _)) in H
  | H : ¬ (_ <= _) |- _ => apply Qcnot_le_lt in H
  | H : ¬ (_ < _) |- _ => apply Qcnot_lt_le in H
  | |- @eq Qc _ _ => apply (proj2 (Qc_eq_this _ _))
  | |- _ <= _ => apply (proj2 (Qcle_this _ _))
  | |- _ < _ => apply (proj2 (Qclt_this _ _))
  end;
  repeat match goal with
  | H : context [this ?e] |- _ => progress (rewrite ?this_sub, ?this_add, ?this_mul, ?this_opp, ?this_0, ?this_1 in H)
  | |- context [this ?e] => progress (rewrite ?this_sub, ?this_add, ?this_mul, ?this_opp, ?this_0, ?this_1)
  end.
Ltac qlra := qc_norm; lra.
Ltac qnra := qc_norm; nra.

(** ** Whole numbers *)
Notation qn k := (qz (Z.of_nat k)).
Lemma this_qz z : (this (qz z) == inject_Z z)%Q.
Proof. apply Qred_correct. Qed.
Lemma qz_inj a b : qz a = qz b → a = b.
Proof. intros H%(f_equal this). assert (inject_Z a == inject_Z b)%Q as E by (rewrite <-!this_qz, H; reflexivity). by apply inject_Z_injective. Qed.
Lemma qz_add a b : qz (a + b) = qz a + qz b.
Proof. apply Qc_eq_this. rewrite this_add, !this_qz, inject_Z_plus. reflexivity. Qed.
Lemma qn_S k : qn (S k) = qn k + 1.
Proof. rewrite Nat2Z.inj_succ, <-Z.add_1_r, qz_add. done. Qed.
Lemma qn_add a b : qn (a + b) = qn a + qn b.
Proof. by rewrite Nat2Z.inj_add, qz_add. Qed.
Lemma qn_nonneg k : 0 <= qn k.
Proof. apply Qcle_this. rewrite this_qz. change (this 0) with (inject_Z 0). rewrite <-Zle_Qle. lia. Qed.
Lemma qn_pos k : (0 < k)%nat → 0 < qn k.
Proof. intros H. apply Qclt_this. rewrite this_qz. change (this 0) with (inject_Z 0). rewrite <-Zlt_Qlt. lia. Qed.
Lemma qn_ne k : (0 < k)%nat → qn k ≠ 0.
Proof. intros H%qn_pos E. rewrite E in H. by destruct (Qclt_not_eq _ _ H). Qed.
Lemma Qc_inv_pos' (q : Qc) : 0 < q → 0 < / q.
Proof.
  intros H. destruct (Qclt_le_dec 0 (/ q)) as [|Hc]; [done|]. exfalso.
  assert (q * / q = 1) as E by (apply Qcmult_inv_r; intros ->; by destruct (Qclt_not_eq _ _ H)). qnra.
Qed.

(** ** Sums and products over lists *)
Fixpoint asum {A} (l : list A) (f : A → Qc) : Qc := match l with [] => 0 | x :: l => f x + asum l f end.
Fixpoint aprod {A} (l : list A) (f : A → Qc) : Qc := match l with [] => 1 | x :: l => f x * aprod l f end.
Section lists.
  Context {A : Type}.
  Implicit Types (l : list A) (f g : A → Qc).
  Lemma asum_ext l f g : (∀ x, x ∈ l → f x = g x) → asum l f = asum l g.
  Proof. induction l as [|x l IH]; intros H; [done|]. cbn. rewrite H by (by left). f_equal. apply IH. intros y Hy. apply H. by right. Qed.
  Lemma aprod_ext l f g : (∀ x, x ∈ l → f x = g x) → aprod l f = aprod l g.
  Proof. induction l as [|x l IH]; intros H; [done|]. cbn. rewrite H by (by left). f_equal. apply IH. intros y Hy. apply H. by right. Qed.
  Lemma asum_le l f g : (∀ x, x ∈ l → f x <= g x) → asum l f <= asum l g.
  Proof.
    induction l as [|x l IH]; intros H; [apply Qcle_refl|]. cbn. apply Qcplus_le_compat; [apply H; by left|]. apply IH. intros y Hy. apply H. by right.
  Qed.
  Lemma asum_add l f g : asum l (λ x, f x + g x) = asum l f + asum l g.
  Proof. induction l as [|x l IH]; cbn; [ring|]. rewrite IH. ring. Qed.
  Lemma asum_mul_l l f c : asum l (λ x, c * f x) = c * asum l f.
  Proof. induction l as [|x l IH]; cbn; [ring|]. rewrite IH. ring. Qed.
  Lemma asum_const l c : asum l (λ _, c) = qn (length l) * c.
  Proof. induction l as [|x l IH]; cbn [asum length]; [change (qz (Z.of_nat 0)) with 0; ring|]. rewrite qn_S. rewrite IH. ring. Qed.
  Lemma asum_qsum l n (f : A → nat → Qc) : asum l (λ x, qsum n (f x)) = qsum n (λ k, asum l (λ x, f x k)).
  Proof. induction l as [|x l IH]; cbn; [symmetry; by apply qsum_zero|]. rewrite IH, <-qsum_add. done. Qed.
  Lemma asum_nonneg l f : (∀ x, x ∈ l → 0 <= f x) → 0 <= asum l f.
  Proof.
    induction l as [|x l IH]; intros H; [apply Qcle_refl|]. cbn. assert (0 <= f x) by (apply H; by left).
    assert (0 <= asum l f) by (apply IH; intros y Hy; apply H; by right). qlra.
  Qed.
  Lemma aprod_nonneg l f : (∀ x, x ∈ l → 0 <= f x) → 0 <= aprod l f.
  Proof.
    induction l as [|x l IH]; intros H; [done|]. cbn. assert (0 <= f x) by (apply H; by left).
    assert (0 <= aprod l f) by (apply IH; intros y Hy; apply H; by right). qnra.
  Qed.
  Lemma aprod_mul l f g : aprod l (λ x, f x * g x) = aprod l f * aprod l g.
  Proof. induction l as [|x l IH]; cbn; [ring|]. rewrite IH. ring. Qed.
  Lemma asum_perm l l' f : l ≡ₚ l' → asum l f = asum l' f.
  Proof. induction 1 as [|x l l' _ IH|x y l|l1 l2 l3 _ IH1 _ IH2]; cbn; [done|by rewrite IH|ring|congruence]. Qed.
  Lemma aprod_perm l l' f : l ≡ₚ l' → aprod l f = aprod l' f.
  Proof. induction 1 as [|x l l' _ IH|x y l|l1 l2 l3 _ IH1 _ IH2]; cbn; [done|by rewrite IH|ring|congruence]. Qed.
  Lemma asum_if l (P : A → Prop) `{∀ x, Decision (P x)} c : asum l (λ x, if decide (P x) then c else 0) = qn (length (filter P l)) * c.
  Proof.
    induction l as [|x l IH]; [transitivity (0 * c); [cbn; ring|done]|]. rewrite filter_cons. cbn [asum]. rewrite IH.
    destruct (decide (P x)); cbn [length]; rewrite ?qn_S; ring.
  Qed.
End lists.
Lemma asum_swap {A B} (l : list A) (m : list B) (f : A → B → Qc) : asum l (λ x, asum m (f x)) = asum m (λ y, asum l (λ x, f x y)).
Proof.
  induction l as [|x l IH]; cbn.
  - induction m as [|y m IHm]; cbn; [done|]. rewrite <-IHm. ring.
  - rewrite IH. by rewrite <-asum_add.
Qed.
Lemma aprod_swap {A B} (l : list A) (m : list B) (f : A → B → Qc) : aprod l (λ x, aprod m (f x)) = aprod m (λ y, aprod l (λ x, f x y)).
Proof.
  induction l as [|x l IH]; cbn.
  - induction m as [|y m IHm]; cbn; [done|]. rewrite <-IHm. ring.
  - rewrite IH. by rewrite <-aprod_mul.
Qed.

(** ** Numbers with mean at most 1 have product at most 1 *)
Lemma mean_prod (n : nat) (l : list Qc) : length l = n → (∀ x, x ∈ l → 0 <= x) → asum l id <= qn n → aprod l id <= 1.
Proof.
  revert l. induction n as [|n IH]; intros l Hl Hnn Hs.
  { by destruct l. }
  destruct (decide (Exists (λ x, 1 < x) l)) as [He|He].
  2:{ assert (∀ x, x ∈ l → 0 <= x ∧ x <= 1) as H1.
      { intros x Hx. split; [by apply Hnn|]. apply Qcnot_lt_le. intros H. apply He, Exists_exists. eauto. }
      clear -H1. induction l as [|x l IHl]; [done|]. cbn. destruct (H1 x ltac:(by left)).
      assert (aprod l id <= 1) by (apply IHl; intros y Hy; apply H1; by right).
      assert (0 <= aprod l id) by (apply aprod_nonneg; intros y Hy; apply H1; by right). unfold id in *. set (p := aprod l (λ x, x)) in *. clearbody p. qnra. }
  apply Exists_exists in He as (y & Hy & Hy1). apply elem_of_Permutation in Hy as [l1 Hp].
  rewrite (asum_perm _ _ _ Hp) in Hs. rewrite (aprod_perm _ _ _ Hp).
  assert (length l1 = n) as Hl1 by (apply Permutation_length in Hp; cbn in Hp; lia).
  assert (∀ x, x ∈ l1 → 0 <= x) as Hn1 by (intros x Hx; apply Hnn; rewrite Hp; by right).
  assert (∃ x, x ∈ l1 ∧ x <= 1) as (x & Hx & Hx1).
  { destruct (decide (Exists (λ x, x <= 1) l1)) as [Hc|Hc]; [by apply Exists_exists in Hc|]. exfalso.
    assert (asum l1 (λ _, 1) <= asum l1 id) as Hle.
    { apply asum_le. intros x Hx. unfold id. apply Qclt_le_weak, Qcnot_le_lt. intros H. apply Hc, Exists_exists. eauto. }
    rewrite asum_const, Hl1 in Hle. cbn [asum] in Hs. unfold id in *. rewrite qn_S in Hs. qlra. }
  apply elem_of_Permutation in Hx as [l2 Hp2]. cbn [asum aprod] in *.
  rewrite (asum_perm _ _ _ Hp2) in Hs.
  rewrite (aprod_perm _ _ _ Hp2).
  cbn [asum aprod] in *. assert (0 <= x) as Hx0 by (apply Hn1; rewrite Hp2; by left).
  assert (aprod ((x + y - 1) :: l2) id <= 1) as HI.
  { apply IH.
    - apply Permutation_length in Hp2. cbn in *. lia.
    - intros z [->|Hz]%elem_of_cons; [qlra|]. apply Hn1. rewrite Hp2. by right.
    - cbn. rewrite qn_S in Hs. unfold id in *. qlra. }
  assert (0 <= aprod l2 id) as Hz by (apply aprod_nonneg; intros z Hz; apply Hn1; rewrite Hp2; by right).
  cbn in HI. set (q := aprod l2 id) in *. clearbody q. unfold id in *.
  assert (y * (x * q) <= (x + y - 1) * q); [|qlra].
  assert (x * y <= x + y - 1) as Hxy by qnra. assert (0 <= (x + y - 1 - x * y) * q); [|qlra].
  set (p := x + y - 1 - x * y). assert (0 <= p) by (unfold p; qlra). clearbody p. qnra.
Qed.
