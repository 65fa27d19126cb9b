(** Cliques of graphs in which parents are joined. *)
From Verif Require Import Py Spec SpecDct.

Lemma least_nat (P : nat → Prop) `{∀ n, Decision (P n)} k : P k → ∃ j, j ≤ k ∧ P j ∧ ∀ i, i < j → ¬ P i.
Proof.
  induction k as [k IH] using lt_wf_ind. intros Hk. destruct (decide (Exists P (seq 0 k))) as [He|He].
  - apply Exists_exists in He as (i & Hi%elem_of_seq & HP). destruct (IH i) as (j & ? & ? & ?); [lia|done|]. exists j. split; [lia|done].
  - exists k. split; [done|]. split; [done|]. intros i Hi HP. apply He. apply Exists_exists. exists i. split; [apply elem_of_seq; lia|done].
Qed.
Lemma list_argmax {A} (f : A → nat) (l : list A) : l ≠ [] → ∃ x, x ∈ l ∧ ∀ y, y ∈ l → f y ≤ f x.
Proof.
  induction l as [|a l IH]; [done|]. intros _. destruct (decide (l = [])) as [->|Hl].
  - exists a. split; [by left|]. intros y ->%elem_of_list_singleton. done.
  - destruct IH as (x & Hx & Hm); [done|]. destruct (decide (f a ≤ f x)) as [H|H].
    + exists x. split; [by right|]. intros y [->|Hy]%elem_of_cons; [done|by apply Hm].
    + exists a. split; [by left|]. intros y [->|Hy]%elem_of_cons; [done|]. specialize (Hm y Hy). lia.
Qed.

#[global] Instance joined_dec A x y : Decision (joined A x y).
Proof. unfold joined. apply _. Defined.
Lemma joined_sym A x y : joined A x y → joined A y x.
Proof. unfold joined. tauto. Qed.

Section graph.
  Context (N : nset) (A : arcset) (r : node → nat).
  Context (Hr : ∀ x y, (x, y) ∈ A → r x < r y) (Hmoral : moral_arcs A) (Hov : over N A).
  Notation joined := (joined A).

  Lemma joined_ne x y : joined x y → x ≠ y.
  Proof using Hr. intros [H|H] ->; apply Hr in H; lia. Qed.
  Lemma shield x y z : joined x z → joined y z → r x ≤ r z → r y ≤ r z → x ≠ y → joined x y.
  Proof using Hr Hmoral.
    intros H1 H2 H3 H4 Hne. apply (Hmoral x y z); [| |done].
    - destruct H1 as [?|H]; [done|]. apply Hr in H. lia.
    - destruct H2 as [?|H]; [done|]. apply Hr in H. lia.
  Qed.

  (** A walk outside of [X] between two nodes that are joined with all of [X] can be replaced by one
      over such nodes. *)
  Definition full (X : nset) (x : node) : Prop := x ∉ X ∧ set_Forall (λ s, joined s x) X.
  Lemma not_full X x : x ∉ X → ¬ full X x → ∃ s, s ∈ X ∧ ¬ joined s x.
  Proof.
    intros Hx Hn. destruct (decide (Exists (λ s, ¬ joined s x) (elements X))) as [H|H].
    - apply Exists_exists in H as (s & Hs & H). exists s. by rewrite <-elem_of_elements.
    - exfalso. apply Hn. split; [done|]. intros s Hs. destruct (decide (joined s x)) as [|Hj]; [done|]. exfalso. apply H, Exists_exists. exists s. by rewrite elem_of_elements.
  Qed.
  Lemma chain X k : ∀ v : nat → node, (∀ i, i < k → joined (v i) (v (S i))) → (∀ i, i ≤ k → v i ∉ X) → full X (v 0) → full X (v k) →
    rtc (λ x y, joined x y ∧ full X x ∧ full X y) (v 0) (v k).
  Proof using Hr Hmoral.
    induction k as [k IH] using lt_wf_ind. intros v Hv HX H0 Hk.
    destruct (decide (k = 0)) as [->|Hk0]; [done|]. destruct (decide (k = 1)) as [->|Hk1]; [apply rtc_once; split; [apply Hv; lia|done]|].
    destruct (decide (Exists (λ i, full X (v i)) (seq 1 (k - 1)))) as [Hf|Hf].
    { apply Exists_exists in Hf as (i & Hi%elem_of_seq & Hf). etrans.
      - apply (IH i); [lia| | |done|done]; intros; [apply Hv; lia|apply HX; lia].
      - pose proof (IH (k - i) ltac:(lia) (λ t, v (i + t))) as H. cbn beta in H. rewrite Nat.add_0_r in H. replace (i + (k - i)) with k in H by lia.
        apply H; [| |done|done].
        + intros t Ht. replace (i + S t) with (S (i + t)) by lia. apply Hv. lia.
        + intros t Ht. apply HX. lia. }
    destruct (decide (Exists (λ i, Exists (λ j, i + 2 ≤ j ∧ (v i = v j ∨ joined (v i) (v j))) (seq 0 (S k))) (seq 0 (S k)))) as [Hs|Hs].
    { apply Exists_exists in Hs as (i & Hi%elem_of_seq & Hs). apply Exists_exists in Hs as (j & Hj%elem_of_seq & Hij & [He|Hs]).
      - set (v' := λ t, if decide (t ≤ i) then v t else v (t + (j - i))). pose proof (IH (k - (j - i)) ltac:(lia) v') as H.
        assert (v' 0 = v 0) as E0 by (unfold v'; by rewrite decide_True by lia).
        assert (v' (k - (j - i)) = v k) as Ek.
        { unfold v'. case_decide; [|f_equal; lia]. replace (k - (j - i)) with i by lia. rewrite He. f_equal. lia. }
        rewrite E0, Ek in H. apply H; [| |done|done].
        + intros t Ht. unfold v'. destruct (decide (t ≤ i)) as [H1|H1], (decide (S t ≤ i)) as [H2|H2]; [apply Hv; lia| |lia|].
          * assert (t = i) as -> by lia. rewrite He. replace (S i + (j - i)) with (S j) by lia. apply Hv. lia.
          * replace (S t + (j - i)) with (S (t + (j - i))) by lia. apply Hv. lia.
        + intros t Ht. unfold v'. case_decide; apply HX; lia.
      - set (v' := λ t, if decide (t ≤ i) then v t else v (t + (j - i - 1))). pose proof (IH (k - (j - i - 1)) ltac:(lia) v') as H.
        assert (v' 0 = v 0) as E0 by (unfold v'; by rewrite decide_True by lia).
        assert (v' (k - (j - i - 1)) = v k) as Ek by (unfold v'; rewrite decide_False by lia; f_equal; lia).
        rewrite E0, Ek in H. apply H; [| |done|done].
        + intros t Ht. unfold v'. destruct (decide (t ≤ i)) as [H1|H1], (decide (S t ≤ i)) as [H2|H2]; [apply Hv; lia| |lia|].
          * assert (t = i) as -> by lia. replace (S i + (j - i - 1)) with j by lia. done.
          * replace (S t + (j - i - 1)) with (S (t + (j - i - 1))) by lia. apply Hv. lia.
        + intros t Ht. unfold v'. case_decide; apply HX; lia. }
    exfalso. assert (∀ i j, i + 2 ≤ j → j ≤ k → v i ≠ v j ∧ ¬ joined (v i) (v j)) as Hno.
    { intros i j Hij Hj. split; intros H; apply Hs; apply Exists_exists; exists i; (split; [apply elem_of_seq; lia|]); apply Exists_exists; exists j; (split; [apply elem_of_seq; lia|]); split; [done|by left|done|by right]. }
    destruct (not_full X (v 1)) as (s & HsX & Hs1).
    { apply HX. lia. } { intros H. apply Hf. apply Exists_exists. exists 1. split; [apply elem_of_seq; lia|done]. }
    destruct (least_nat (λ j, 1 ≤ j ∧ joined s (v j)) k) as (j & Hjk & [Hj1 Hj] & Hmin).
    { split; [lia|]. by apply Hk. }
    assert (2 ≤ j) as Hj2. { destruct (decide (j = 1)) as [->|]; [done|lia]. }
    assert (∀ i, i ≤ k → s ≠ v i) as Hsv by (intros i Hi ->; by apply (HX i Hi)).
    destruct (list_argmax r (s :: (v <$> seq 0 (S j)))) as (m & Hm & Hmax); [done|].
    assert (∀ i, i ≤ j → r (v i) ≤ r m) as Hmv.
    { intros i Hi. apply Hmax. right. apply elem_of_list_fmap. exists i. split; [done|]. apply elem_of_seq. lia. }
    assert (r s ≤ r m) as Hms by (apply Hmax; by left).
    assert (joined s (v 0)) as Hs0 by (by apply H0).
    apply elem_of_cons in Hm as [->|Hm].
    - (* the last node is [s] *)
      apply (Hno 0 j); [lia|done|]. apply (shield _ _ s); [by apply joined_sym|by apply joined_sym|apply Hmv; lia|apply Hmv; lia|]. apply (Hno 0 j); [lia|done].
    - apply elem_of_list_fmap in Hm as (i & -> & Hi%elem_of_seq). destruct (decide (i = 0)) as [->|Hi0]; [|destruct (decide (i = j)) as [->|Hij]].
      + apply Hs1. apply (shield _ _ (v 0)); [done|apply joined_sym, Hv; lia|done|apply Hmv; lia|apply Hsv; lia].
      + apply (Hmin (j - 1)); [lia|]. split; [lia|]. apply (shield _ _ (v j)); [done| |done|apply Hmv; lia|apply Hsv; lia].
        replace (v j) with (v (S (j - 1))) by (f_equal; lia). apply Hv. lia.
      + destruct (Hno (i - 1) (S i)) as [Hn1 Hn2]; [lia|lia|]. apply Hn2. apply (shield _ _ (v i)); [|apply joined_sym, Hv; lia|apply Hmv; lia|apply Hmv; lia|done].
        replace (v i) with (v (S (i - 1))) by (f_equal; lia). apply Hv. lia.
  Qed.
  (** The same for walks given as a relation. *)
  Lemma rtc_walk {B} (R : relation B) x y : rtc R x y → ∃ k (v : nat → B), v 0 = x ∧ v k = y ∧ ∀ i, i < k → R (v i) (v (S i)).
  Proof.
    induction 1 as [x|x y z Hxy _ (k & v & E0 & Ek & Hv)]; [exists 0, (λ _, x); split; [done|split; [done|lia]]|].
    exists (S k), (λ i, match i with O => x | S i => v i end). split; [done|]. split; [done|]. intros [|i] Hi; [by rewrite E0|]. apply Hv. lia.
  Qed.
  Lemma chain_rtc X x y : rtc (λ x y, joined x y ∧ x ∉ X ∧ y ∉ X) x y → full X x → full X y →
    rtc (λ x y, joined x y ∧ full X x ∧ full X y) x y.
  Proof using Hr Hmoral.
    intros Hw Hx Hy. apply rtc_walk in Hw as (k & v & E0 & Ek & Hv). rewrite <-E0, <-Ek. apply chain.
    - intros i Hi. by apply Hv.
    - intros i Hi. destruct (decide (i = k)) as [->|]; [rewrite Ek; apply Hy|]. apply Hv. lia.
    - by rewrite E0.
    - by rewrite Ek.
  Qed.

  (** ** Maximal cliques *)
  Lemma extend C : C ≠ ∅ → C ⊆ N → clique A C → ∃ C', C ⊆ C' ∧ maximal_clique N A C'.
  Proof using Type.
    clear r Hr Hmoral Hov.
    remember (size N - size C) as n eqn:Hn. revert C Hn. induction n as [n IH] using lt_wf_ind. intros C -> Hne HC Hcl.
    destruct (decide (Exists (λ x, x ∉ C ∧ set_Forall (λ y, joined y x) C) (elements N))) as [He|He].
    - apply Exists_exists in He as (x & Hx%elem_of_elements & HxC & Hall). destruct (IH (size N - size ({[x]} ∪ C))) with ({[x]} ∪ C) as (C' & H1 & H2).
      + assert (size ({[x]} ∪ C) = S (size C)) as -> by (rewrite size_union, size_singleton; [done|set_solver]).
        assert (size C < size N); [|lia]. apply subset_size. split; [done|]. set_solver.
      + done.
      + set_solver.
      + set_solver.
      + intros a b Ha Hb Hab. rewrite elem_of_union, elem_of_singleton in Ha, Hb. destruct Ha as [->|Ha], Hb as [->|Hb]; [done|apply joined_sym; by apply Hall|by apply Hall|by apply Hcl].
      + exists C'. split; [set_solver|done].
    - exists C. split; [done|]. split; [done|]. split; [done|]. split; [done|]. intros C' HC' Hcl' Hsub x Hx. destruct (decide (x ∈ C)) as [|Hn]; [done|]. exfalso.
      apply He, Exists_exists. exists x. split; [apply elem_of_elements; by apply HC'|]. split; [done|]. intros y Hy. apply Hcl'; [by apply Hsub|done|]. by intros ->.
  Qed.

  (** [S] comes first in [Z]. *)
  Definition initial (X Z : nset) : Prop := X ⊆ Z ∧ ∀ s y, s ∈ X → y ∈ Z → y ∉ X → (s, y) ∈ A.
  Lemma initial_nested X T Z : initial X Z → initial T Z → size X ≤ size T → X ⊆ T.
  Proof using Hr.
    intros [HX1 HX2] [HT1 HT2] Hs x Hx. destruct (decide (x ∈ T)) as [|Hn]; [done|]. exfalso.
    assert (T ⊂ X) as Hsub.
    { split; [|intros H; by apply Hn, H]. intros t Ht. destruct (decide (t ∈ X)) as [|Htn]; [done|].
      assert ((x, t) ∈ A) as H1 by (apply HX2; [done|by apply HT1|done]). assert ((t, x) ∈ A) as H2 by (apply HT2; [done|by apply HX1|done]).
      apply Hr in H1, H2. lia. }
    apply subset_size in Hsub. lia.
  Qed.
  Lemma initial_through X T Z Z' : initial X Z → initial T Z → initial T Z' → X ⊆ T → initial X Z'.
  Proof using Type.
    clear r Hr Hmoral Hov.
    intros [HX1 HX2] [HT1 HT2] [HT1' HT2'] Hsub. split; [set_solver|]. intros s y Hs Hy Hn. destruct (decide (y ∈ T)) as [H|H].
    - apply HX2; [done|by apply HT1|done].
    - apply HT2'; [by apply Hsub|done|done].
  Qed.
  (** If the common nodes come first in neither clique, a third one has more nodes in common with both. *)
  Lemma third X Y : maximal_clique N A X → maximal_clique N A Y → X ∩ Y ≠ ∅ → ¬ initial (X ∩ Y) X → ¬ initial (X ∩ Y) Y →
    ∃ Z, maximal_clique N A Z ∧ X ∩ Y ⊂ Z ∩ X ∧ X ∩ Y ⊂ Z ∩ Y.
  Proof using Hr Hmoral Hov.
    intros (_ & HXN & HXc & _) (_ & HYN & HYc & _) Hne HnX HnY.
    destruct (list_argmax r (elements (X ∩ Y))) as (m & Hm%elem_of_elements & Hmax).
    { intros H. apply Hne. apply elements_empty_inv in H. by apply leibniz_equiv. }
    assert (∀ Z, clique A Z → X ∩ Y ⊆ Z → ¬ initial (X ∩ Y) Z → ∃ c, c ∈ Z ∧ c ∉ X ∩ Y ∧ (c, m) ∈ A) as Hc.
    { intros Z HZ Hsub Hn. destruct (decide (Exists (λ c, c ∉ X ∩ Y ∧ (c, m) ∈ A) (elements Z))) as [He|He].
      - apply Exists_exists in He as (c & Hc%elem_of_elements & ? & ?). by exists c.
      - exfalso. apply Hn. split; [done|]. intros s y Hs Hy Hny. assert (s ≠ y) as Hsy by (by intros ->).
        destruct (HZ s y) as [?|Hys]; [by apply Hsub|done|done|done|]. exfalso. apply He, Exists_exists. exists y. split; [by apply elem_of_elements|]. split; [done|].
        destruct (HZ m y) as [Hmy|?]; [by apply Hsub|done|by intros ->| |done]. exfalso. apply Hr in Hmy, Hys. specialize (Hmax s). rewrite elem_of_elements in Hmax.
        specialize (Hmax Hs). lia. }
    destruct (Hc X) as (c & HcX & HcS & Hcm); [done|set_solver|done|]. destruct (Hc Y) as (c' & HcY & HcS' & Hcm'); [done|set_solver|done|].
    assert (∀ s, s ∈ X ∩ Y → s ≠ m → (s, m) ∈ A) as Hsm.
    { intros s Hs Hsne. destruct (HXc s m) as [?|H]; [set_solver|set_solver|done|done|]. apply Hr in H. specialize (Hmax s). rewrite elem_of_elements in Hmax. specialize (Hmax Hs). lia. }
    assert (∀ x, x ∈ {[c; c']} ∪ X ∩ Y → x = m ∨ (x, m) ∈ A) as Hin.
    { intros x. rewrite !elem_of_union, !elem_of_singleton. intros [[->| ->]|Hx]; [by right|by right|]. destruct (decide (x = m)); [by left|right]. by apply Hsm. }
    destruct (extend ({[c; c']} ∪ X ∩ Y)) as (Z & HZ & HZm).
    - set_solver.
    - set_solver.
    - intros x y Hx%Hin Hy%Hin Hxy. destruct Hx as [->|Hx], Hy as [->|Hy]; [done|by right|by left|]. by apply (Hmoral x y m).
    - exists Z. split; [done|]. split; (split; [set_solver|]).
      + intros H. apply HcS. apply H. set_solver.
      + intros H. apply HcS'. apply H. set_solver.
  Qed.
End graph.
