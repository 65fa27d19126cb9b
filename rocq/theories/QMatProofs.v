(** Matrix algebra. *)
From Coq Require Import QArith.Qcanon.
From Verif Require Import Py QMatModel.
#[local] Open Scope Qc_scope.

Lemma qsum_ext n f g : (∀ k, (k < n)%nat → f k = g k) → qsum n f = qsum n g.
Proof. induction n as [|n IH]; intros H; cbn; [done|]. rewrite IH, H; [done|lia|]. intros k Hk. apply H. lia. Qed.
Lemma qsum_zero n f : (∀ k, (k < n)%nat → f k = 0) → qsum n f = 0.
Proof. induction n as [|n IH]; intros H; cbn; [done|]. rewrite IH, H; [ring|lia|]. intros k Hk. apply H. lia. Qed.
Lemma qsum_add n f g : qsum n (λ k, f k + g k) = qsum n f + qsum n g.
Proof. induction n as [|n IH]; cbn; [ring|]. rewrite IH. ring. Qed.
Lemma qsum_sub n f g : qsum n (λ k, f k - g k) = qsum n f - qsum n g.
Proof. induction n as [|n IH]; cbn; [ring|]. rewrite IH. ring. Qed.
Lemma qsum_mul_l n f c : qsum n (λ k, c * f k) = c * qsum n f.
Proof. induction n as [|n IH]; cbn; [ring|]. rewrite IH. ring. Qed.
Lemma qsum_mul_r n f c : qsum n (λ k, f k * c) = qsum n f * c.
Proof. induction n as [|n IH]; cbn; [ring|]. rewrite IH. ring. Qed.
Lemma qsum_swap n m (f : nat → nat → Qc) : qsum n (λ i, qsum m (λ j, f i j)) = qsum m (λ j, qsum n (λ i, f i j)).
Proof.
  induction n as [|n IH]; cbn.
  - symmetry. by apply qsum_zero.
  - rewrite IH, <-qsum_add. done.
Qed.
Lemma qsum_one n f i : (i < n)%nat → (∀ k, (k < n)%nat → k ≠ i → f k = 0) → qsum n f = f i.
Proof.
  induction n as [|n IH]; intros Hi H; [lia|]. cbn. destruct (decide (i = n)) as [->|Hne].
  - rewrite qsum_zero; [ring|]. intros k Hk. apply H; lia.
  - rewrite IH; [|lia|intros k Hk; apply H; lia]. rewrite (H n); [ring|lia|done].
Qed.
Lemma qsum_nonzero n f : qsum n f ≠ 0 → ∃ k, (k < n)%nat ∧ f k ≠ 0.
Proof.
  induction n as [|n IH]; intros H; cbn in H; [done|]. destruct (decide (f n = 0)) as [Hz|Hz]; [|exists n; split; [lia|done]].
  destruct IH as (k & ? & ?). { intros E. apply H. rewrite E, Hz. ring. } exists k. split; [lia|done].
Qed.

#[global] Instance meq_equiv n : Equivalence (meq n).
Proof.
  split; [intros A i j; done|intros A B H i j Hi Hj; by rewrite H|intros A B C H1 H2 i j Hi Hj; by rewrite H1, H2].
Qed.
#[global] Instance mmul_proper n : Proper (meq n ==> meq n ==> meq n) (mmul n).
Proof. intros A A' HA B B' HB i j Hi Hj. apply qsum_ext. intros k Hk. by rewrite HA, HB. Qed.
#[global] Instance mT_proper n : Proper (meq n ==> meq n) mT.
Proof. intros A A' HA i j Hi Hj. by apply HA. Qed.
#[global] Instance msub_proper n : Proper (meq n ==> meq n ==> meq n) msub.
Proof. intros A A' HA B B' HB i j Hi Hj. unfold msub. by rewrite HA, HB. Qed.
#[global] Instance madd_proper n : Proper (meq n ==> meq n ==> meq n) madd.
Proof. intros A A' HA B B' HB i j Hi Hj. unfold madd. by rewrite HA, HB. Qed.

Lemma mmul_assoc n A B C : meq n (mmul n (mmul n A B) C) (mmul n A (mmul n B C)).
Proof.
  intros i j _ _. unfold mmul. transitivity (qsum n (λ k, qsum n (λ l, A i l * B l k * C k j))).
  { apply qsum_ext. intros k _. by rewrite <-qsum_mul_r. }
  rewrite qsum_swap. apply qsum_ext. intros l _. rewrite <-qsum_mul_l. apply qsum_ext. intros k _. ring.
Qed.
Lemma mmul_id_l n A : meq n (mmul n mid A) A.
Proof.
  intros i j Hi Hj. unfold mmul, mid. rewrite (qsum_one n _ i); [rewrite decide_True by done; ring|done|].
  intros k _ Hk. rewrite decide_False by done. ring.
Qed.
Lemma mmul_id_r n A : meq n (mmul n A mid) A.
Proof.
  intros i j Hi Hj. unfold mmul, mid. rewrite (qsum_one n _ j); [rewrite decide_True by done; ring|done|].
  intros k _ Hk. rewrite decide_False by done. ring.
Qed.
Lemma mT_mul n A B : meq n (mT (mmul n A B)) (mmul n (mT B) (mT A)).
Proof. intros i j _ _. unfold mT, mmul. apply qsum_ext. intros k _. ring. Qed.
Lemma mT_id n : meq n (mT mid) mid.
Proof. intros i j _ _. unfold mT, mid. destruct (decide (i = j)), (decide (j = i)); congruence. Qed.
Lemma mdiag_one n : meq n (mdiag (λ _, 1)) mid.
Proof. done. Qed.
Lemma mdiag_mul n v w : meq n (mmul n (mdiag v) (mdiag w)) (mdiag (λ i, v i * w i)).
Proof.
  intros i j Hi Hj. unfold mmul, mdiag. rewrite (qsum_one n _ i); [|done|].
  - rewrite decide_True by done. case_decide; [done|ring].
  - intros k _ Hk. rewrite decide_False by done. ring.
Qed.
Lemma mmul_sub_l n A B C : meq n (mmul n (msub A B) C) (msub (mmul n A C) (mmul n B C)).
Proof. intros i j _ _. unfold mmul, msub. rewrite <-qsum_sub. apply qsum_ext. intros k _. ring. Qed.
Lemma mmul_sub_r n A B C : meq n (mmul n A (msub B C)) (msub (mmul n A B) (mmul n A C)).
Proof. intros i j _ _. unfold mmul, msub. rewrite <-qsum_sub. apply qsum_ext. intros k _. ring. Qed.
Lemma mmul_add_r n A B C : meq n (mmul n A (madd B C)) (madd (mmul n A B) (mmul n A C)).
Proof. intros i j _ _. unfold mmul, madd. rewrite <-qsum_add. apply qsum_ext. intros k _. ring. Qed.

Lemma inverse_unique n A V V' : is_inverse n A V → is_inverse n A V' → meq n V V'.
Proof. intros [H1 H2] [H1' H2']. rewrite <-(mmul_id_r n V), <-H1', <-mmul_assoc, H2. apply mmul_id_l. Qed.
Lemma inverse_T n A V : is_inverse n A V → is_inverse n (mT A) (mT V).
Proof. intros [H1 H2]. split; rewrite <-mT_mul; [rewrite H2|rewrite H1]; apply mT_id. Qed.
Lemma inverse_proper n A A' V V' : meq n A A' → meq n V V' → is_inverse n A V → is_inverse n A' V'.
Proof. intros HA HV [H1 H2]. split; by rewrite <-HA, <-HV. Qed.

(** The geometric series. *)
Fixpoint mpow (n : nat) (A : mat) (k : nat) : mat :=
  match k with O => mid | S k => mmul n A (mpow n A k) end.
Fixpoint mgeom (n : nat) (A : mat) (k : nat) : mat :=
  match k with O => mzero | S k => madd (mgeom n A k) (mpow n A k) end.

Lemma mpow_comm n A k : meq n (mmul n (mpow n A k) A) (mpow n A (S k)).
Proof.
  induction k as [|k IH]; cbn [mpow]; [by rewrite mmul_id_l, mmul_id_r|].
  rewrite mmul_assoc, IH. done.
Qed.
Lemma mgeom_l n A k : meq n (mmul n (msub mid A) (mgeom n A k)) (msub mid (mpow n A k)).
Proof.
  induction k as [|k IH]; cbn [mgeom mpow].
  - intros i j Hi Hj. unfold mmul, msub, mzero. rewrite qsum_zero; [ring|]. intros l _. ring.
  - rewrite mmul_add_r, IH, mmul_sub_l, mmul_id_l. intros i j _ _. unfold madd, msub. ring.
Qed.
Lemma mgeom_r n A k : meq n (mmul n (mgeom n A k) (msub mid A)) (msub mid (mpow n A k)).
Proof.
  induction k as [|k IH]; cbn [mgeom].
  - intros i j Hi Hj. unfold mmul, msub, mzero. cbn. rewrite qsum_zero; [ring|]. intros l _. ring.
  - assert (meq n (mmul n (madd (mgeom n A k) (mpow n A k)) (msub mid A))
      (madd (mmul n (mgeom n A k) (msub mid A)) (mmul n (mpow n A k) (msub mid A)))) as ->.
    { intros i j _ _. unfold mmul, madd. rewrite <-qsum_add. apply qsum_ext. intros l _. ring. }
    rewrite IH, mmul_sub_r, mmul_id_r, mpow_comm. intros i j _ _. unfold madd, msub. ring.
Qed.

(** A matrix whose non-zero entries form no cycle. *)
Definition mstep (n : nat) (A : mat) (i j : nat) : Prop := (i < n)%nat ∧ (j < n)%nat ∧ A i j ≠ 0.
Definition macyclic (n : nat) (A : mat) : Prop := ∀ i, ¬ tc (mstep n A) i i.

Lemma mpow_steps n A k i j : (i < n)%nat → (j < n)%nat → mpow n A k i j ≠ 0 → nsteps (mstep n A) k i j.
Proof.
  revert i. induction k as [|k IH]; intros i Hi Hj H; cbn in H.
  - unfold mid in H. case_decide; [subst; constructor|done].
  - unfold mmul in H. apply qsum_nonzero in H as (l & Hl & H). econstructor; [|apply IH; [exact Hl|done|]].
    + split_and!; [done..|]. intros E. apply H. rewrite E. ring.
    + intros E. apply H. rewrite E. ring.
Qed.
Lemma nsteps_nodup n A k i j : macyclic n A → (i < n)%nat → nsteps (mstep n A) k i j →
  ∃ l, length l = k ∧ NoDup (i :: l) ∧ Forall (λ v, (v < n)%nat) (i :: l) ∧ ∀ v, v ∈ l → tc (mstep n A) i v.
Proof.
  intros Hac Hi Hs. induction Hs as [i|k i m j Hstep _ IH].
  - exists []. split_and!; [done|apply NoDup_singleton|by constructor|intros v []%elem_of_nil].
  - pose proof Hstep as (_ & Hm & _). destruct (IH Hm) as (l & Hl & Hnd & Hf & Ht). exists (m :: l).
    assert (∀ v, v ∈ m :: l → tc (mstep n A) i v) as Hv.
    { intros v [->|Hv]%elem_of_cons; [by apply tc_once|]. eapply tc_l; [done|]. by apply Ht. }
    split_and!; [cbn; by rewrite Hl| |by constructor|done]. apply list.NoDup_cons. split; [|done]. intros H. by apply (Hac i), Hv.
Qed.
Lemma mpow_nilpotent n A : macyclic n A → meq n (mpow n A n) mzero.
Proof.
  intros Hac i j Hi Hj. destruct (decide (mpow n A n i j = 0)) as [->|H]; [done|]. exfalso.
  apply mpow_steps in H; [|done..]. apply nsteps_nodup in H as (l & Hl & Hnd & Hf & _); [|done..].
  assert (length (i :: l) ≤ length (seq 0 n))%nat as Hlen.
  { apply submseteq_length, NoDup_submseteq; [done|]. intros v Hv. rewrite Forall_forall in Hf. apply elem_of_seq. specialize (Hf v Hv). lia. }
  rewrite seq_length in Hlen. cbn in Hlen. lia.
Qed.
Lemma acyclic_inverse n A : macyclic n A → is_inverse n (msub mid A) (mgeom n A n).
Proof.
  intros Hac. assert (meq n (msub mid (mpow n A n)) mid) as H.
  { rewrite mpow_nilpotent by done. intros i j _ _. unfold msub, mzero. ring. }
  split; [by rewrite mgeom_l|by rewrite mgeom_r].
Qed.
