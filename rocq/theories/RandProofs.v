(** Coins, permutations and the graphs made from them. *)
From Verif Require Import Py Spec DagModel MagMatModel RandModel TopoProofs StateProofs ReachProofs OrderProofs QueryProofs.
#[local] Open Scope nat_scope.

Lemma elem_of_upto n v : v ∈ upto n ↔ v < n.
Proof. unfold upto. rewrite elem_of_list_to_set, elem_of_seq. lia. Qed.

Lemma elem_of_select {A} (l : list A) (bs : list bool) x : x ∈ select l bs ↔ ∃ k, l !! k = Some x ∧ bs !! k = Some true.
Proof.
  unfold select. rewrite elem_of_list_fmap. split.
  - intros ([y b] & -> & [Hb Hin]%elem_of_list_filter). cbn in *. subst b. apply elem_of_list_lookup in Hin as [k Hk].
    apply lookup_zip_with_Some in Hk as (y' & b' & [= <- <-] & ? & ?). by exists k.
  - intros (k & H1 & H2). exists (x, true). split; [done|]. apply elem_of_list_filter. split; [done|]. apply elem_of_list_lookup.
    exists k. apply lookup_zip_with_Some. by exists x, true.
Qed.
Lemma select_in {A} (l : list A) bs x : x ∈ select l bs → x ∈ l.
Proof. intros (k & H & _)%elem_of_select. by eapply elem_of_list_lookup_2. Qed.
Lemma NoDup_select {A} (l : list A) bs : NoDup l → NoDup (select l bs).
Proof.
  intros Hl. revert bs. induction Hl as [|x l Hx Hl IH]; intros bs; unfold select; cbn [zip zip_with]; [constructor|].
  destruct bs as [|b bs]; [constructor|]. destruct b.
  - rewrite filter_cons_True by done. cbn [fmap list_fmap]. apply NoDup_cons. split; [|apply IH]. intros H. apply Hx. by eapply select_in.
  - rewrite filter_cons_False by done. apply IH.
Qed.
Lemma length_select {A} (l : list A) bs : length bs = length l → length (select l bs) = length (filter (λ b, b = true) bs).
Proof.
  revert bs. induction l as [|x l IH]; intros [|b bs] Hlen; try done. injection Hlen as Hlen. unfold select. cbn [zip zip_with].
  specialize (IH bs Hlen). unfold select in IH. destruct b.
  - rewrite !filter_cons_True by done. cbn [fmap list_fmap length]. by rewrite IH.
  - rewrite !filter_cons_False by done. done.
Qed.

Lemma elem_of_seq_pairs a n i j : (i, j) ∈ combinations2 (seq a n) ↔ a ≤ i < j ∧ j < a + n.
Proof.
  revert a. induction n as [|n IH]; intros a; cbn [seq combinations2]; [rewrite elem_of_nil; lia|].
  rewrite elem_of_app, IH, elem_of_list_fmap. setoid_rewrite elem_of_seq. split.
  - intros [(y & [= -> ->] & Hy)|?]; lia.
  - intros H. destruct (decide (i = a)) as [->|]; [left; exists j; split; [done|lia]|right; lia].
Qed.
Lemma NoDup_pairs {A} (l : list A) : NoDup l → NoDup (combinations2 l).
Proof.
  intros Hl. induction Hl as [|x l Hx Hl IH]; cbn [combinations2]; [constructor|]. apply NoDup_app. split; [|split; [|done]].
  - apply NoDup_fmap_2; [|done]. by intros ?? [= ->].
  - intros e (y & -> & _)%elem_of_list_fmap H. apply combinations2_ne in H as (_ & ? & _); done.
Qed.
Lemma length_pairs {A} (l : list A) : length (combinations2 l) * 2 = length l * (length l - 1).
Proof. induction l as [|x l IH]; cbn [combinations2]; [done|]. rewrite app_length, map_length. cbn [length]. rewrite Nat.mul_add_distr_r, IH. destruct (length l) as [|k]; [done|]. replace (S k - 1) with k by lia. replace (S (S k) - 1) with (S k) by lia. lia. Qed.
Lemma length_pairs_seq n : length (combinations2 (seq 0 n)) = n * (n - 1) / 2.
Proof. pose proof (length_pairs (seq 0 n)) as H. rewrite seq_length in H. apply Nat.div_unique_exact; lia. Qed.

Lemma increasing_acyclic (E : arcset) : (∀ x y, (x, y) ∈ E → x < y) → acyclic E.
Proof.
  intros H. assert (∀ x y, tc (edge E) x y → x < y) as Htc.
  { intros x y Hxy. induction Hxy as [x y Hxy|x y z Hxy _ IH]; apply H in Hxy; lia. }
  intros x Hx%Htc. lia.
Qed.

Lemma enum_map_lookup (p : list node) i : enum_map p !! i = p !! i.
Proof.
  unfold enum_map. assert (∀ a, (list_to_map (zip (seq a (length p)) p) : gmap nat nat) !! i = if decide (a ≤ i) then p !! (i - a) else None) as H.
  { induction p as [|x p IH]; intros a; cbn [length seq zip zip_with list_to_map foldr].
    { rewrite lookup_empty. by case_decide. }
    cbn. destruct (decide (i = a)) as [->|Hne].
    - rewrite lookup_insert, decide_True by done. by rewrite Nat.sub_diag.
    - rewrite lookup_insert_ne by done. rewrite IH. destruct (decide (S a ≤ i)), (decide (a ≤ i)); try lia; [|done].
      by replace (i - a) with (S (i - S a)) by lia. }
  rewrite (H 0). rewrite decide_True by lia. by rewrite Nat.sub_0_r.
Qed.

Section shuffle.
  Context (o : oracle) (m : nat) (d : dag) (Hwf : wf d) (Hac : acyclic (d_arcs d)) (HN : ∀ v, v ∈ d_nodes d → v < m).
  Lemma shuffled_spec perm : (∀ p, perm = Some p → p ≡ₚ seq 0 m) →
    let q := default (seq 0 m) perm in
    NoDup q ∧ (∀ v, v ∈ q ↔ v < m) ∧ length q = m ∧
    ∃ d', shuffled o perm d = Ok d' ∧ wf d' ∧ acyclic (d_arcs d') ∧
      (∀ b, b ∈ d_nodes d' ↔ ∃ a, a ∈ d_nodes d ∧ q !! a = Some b) ∧
      (∀ b1 b2, (b1, b2) ∈ d_arcs d' ↔ ∃ a1 a2, (a1, a2) ∈ d_arcs d ∧ q !! a1 = Some b1 ∧ q !! a2 = Some b2).
  Proof using Hwf Hac HN.
    intros Hp q. assert (q ≡ₚ seq 0 m) as Hq by (unfold q; destruct perm as [p|]; cbn; [by apply Hp|done]).
    assert (NoDup q) as Hnd by (rewrite Hq; apply NoDup_seq). split; [done|].
    split; [intros v; rewrite Hq, elem_of_seq; lia|]. split; [rewrite Hq; apply seq_length|].
    unfold shuffled. destruct perm as [p|]; cbn in q.
    - destruct (rename_nodes_spec d o Hwf Hac (enum_map p)) as (d' & -> & H1 & H2 & H3 & H4).
      + intros x Hx. rewrite enum_map_lookup. apply lookup_lt_is_Some. unfold q in Hq. rewrite Hq, seq_length. by apply HN.
      + intros x y Hx Hy. rewrite !enum_map_lookup. intros He. apply HN in Hx.
        assert (is_Some (p !! x)) as [z Hz] by (apply lookup_lt_is_Some; unfold q in Hq; by rewrite Hq, seq_length).
        apply (NoDup_lookup p x y z); [done|done|]. by rewrite <-He.
      + exists d'. split_and!; [done..| |].
        * intros b. rewrite H3. by setoid_rewrite enum_map_lookup.
        * intros b1 b2. rewrite H4. by setoid_rewrite enum_map_lookup.
    - assert (∀ a b, a < m → q !! a = Some b ↔ a = b) as Hs. { intros a b Ha. unfold q. rewrite lookup_seq_lt by done. cbn. naive_solver. }
      exists d. split_and!; [done..| |].
      + intros b. split; [intros Hb; exists b; split; [done|]; apply Hs; auto|]. intros (a & Ha & Hab). apply Hs in Hab as ->; auto.
      + intros b1 b2. split.
        * intros Hb. pose proof (wf_over d Hwf _ _ Hb) as [? ?]. exists b1, b2. split; [done|]. split; apply Hs; auto.
        * intros (a1 & a2 & Ha & H1 & H2). pose proof (wf_over d Hwf _ _ Ha) as [? ?]. apply Hs in H1 as ->; [|auto]. apply Hs in H2 as ->; auto.
  Qed.
End shuffle.

(** The renamed arcs are as many as the original ones. *)
Lemma renamed_size (q : list node) (sel : list arc) (E' : arcset) :
  NoDup q → NoDup sel → (∀ a b, (a, b) ∈ sel → a < length q ∧ b < length q) →
  (∀ b1 b2, (b1, b2) ∈ E' ↔ ∃ a1 a2, (a1, a2) ∈ sel ∧ q !! a1 = Some b1 ∧ q !! a2 = Some b2) →
  size E' = length sel.
Proof.
  intros Hq Hsel Hin HE. set (f := λ a : arc, (default 0 (q !! a.1), default 0 (q !! a.2))).
  assert (∀ a, a < length q → q !! a = Some (default 0 (q !! a))) as Hd.
  { intros a Ha. apply lookup_lt_is_Some in Ha as [x Hx]. by rewrite Hx. }
  assert (E' = list_to_set (f <$> sel)) as ->.
  { apply set_eq. intros [b1 b2]. rewrite elem_of_list_to_set, elem_of_list_fmap, HE. split.
    - intros (a1 & a2 & Ha & H1 & H2). exists (a1, a2). split; [|done]. unfold f. cbn. by rewrite H1, H2.
    - intros ([a1 a2] & E & Ha). destruct (Hin _ _ Ha) as [H1 H2]. injection E as -> ->. exists a1, a2. auto. }
  rewrite size_list_to_set; [by rewrite fmap_length|]. apply NoDup_fmap_2_strong; [|done].
  intros [a b] [a' b'] Ha Hb [= H1 H2]. apply Hin in Ha as [A1 A2], Hb as [B1 B2].
  apply Hd in A1, A2, B1, B2. rewrite H1 in A1. rewrite H2 in A2. f_equal; [exact (NoDup_lookup q _ _ _ Hq A1 B1)|exact (NoDup_lookup q _ _ _ Hq A2 B2)].
Qed.
