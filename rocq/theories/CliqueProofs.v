(** Chordal graphs, maximal cliques and perfect orders. *)
From Verif Require Import Py Spec SpecDct SpecClique EquivProofs MeekProofs.

Lemma joined_sym E x y : joined E x y → joined E y x.
Proof. unfold joined. tauto. Qed.
Global Instance joined_decision E x y : Decision (joined E x y).
Proof. unfold joined. apply _. Defined.

(** ** Chordality *)
Lemma max_index (f : node → nat) (c : list node) : c ≠ [] →
  ∃ k x, c !! k = Some x ∧ ∀ j y, c !! j = Some y → f y ≤ f x.
Proof.
  induction c as [|a c IH]; [done|]. intros _. destruct c as [|b c].
  { exists 0, a. split; [done|]. intros [|j] y; cbn; [by intros [= ->]|done]. }
  destruct IH as (k & x & Hk & Hx); [done|]. destruct (Nat.le_gt_cases (f x) (f a)) as [H|H].
  - exists 0, a. split; [done|]. intros [|j] y Hj; cbn in Hj; [injection Hj as ->; lia|]. specialize (Hx j y Hj). lia.
  - exists (S k), x. split; [done|]. intros [|j] y Hj; cbn in Hj; [injection Hj as ->; lia|]. by apply (Hx j).
Qed.

Lemma cycle_step n k : 4 ≤ n → k < n →
  ∃ p s, S p mod n = k ∧ S k mod n = s ∧ p < n ∧ s < n ∧ p ≠ k ∧ s ≠ k ∧ p ≠ s ∧
    ((S p < s ∧ (0 < p ∨ S s < n)) ∨ (S s < p ∧ (0 < s ∨ S p < n))).
Proof.
  intros Hn Hk. destruct (decide (k = 0)) as [->|Hk0].
  - exists (n - 1), 1. split_and!; try lia.
    + replace (S (n - 1)) with n by lia. apply Nat.mod_same. lia.
    + apply Nat.mod_small. lia.
  - destruct (decide (k = n - 1)) as [->|Hkn].
    + exists (n - 2), 0. split_and!; try lia.
      * rewrite Nat.mod_small by lia. lia.
      * replace (S (n - 1)) with n by lia. apply Nat.mod_same. lia.
    + exists (k - 1), (S k). split_and!; try lia.
      * rewrite Nat.mod_small by lia. lia.
      * apply Nat.mod_small. lia.
Qed.

Lemma cycle_next (c : list node) i x : c !! i = Some x → ∃ y, c !! (S i mod length c) = Some y.
Proof.
  intros H. apply lookup_lt_is_Some_2. apply Nat.mod_upper_bound. apply lookup_lt_Some in H. lia.
Qed.

Lemma order_chordal E l : NoDup l → (∀ x y, joined E x y → x ∈ l) → good (joined E) l → chordal E.
Proof.
  intros Hnd Hl Hg c [Hc Hcyc] Hlen.
  assert (∀ x, x ∈ l → l !! pos_of l x = Some x) as Hpos by apply pos_lookup.
  assert (∀ i x, c !! i = Some x → x ∈ l) as Hin.
  { intros i x Hi. destruct (cycle_next c i x Hi) as [y Hy]. by apply (Hl x y), (Hcyc i). }
  destruct (max_index (pos_of l) c) as (k & x & Hk & Hx); [by intros ->; cbn in Hlen; lia|].
  pose proof (lookup_lt_Some _ _ _ Hk) as Hkn.
  destruct (cycle_step (length c) k Hlen Hkn) as (p & s & Hp & Hs & Hpn & Hsn & Hpk & Hsk & Hps & Hcase).
  destruct (lookup_lt_is_Some_2 c p Hpn) as [a Ha]. destruct (lookup_lt_is_Some_2 c s Hsn) as [b Hb].
  assert (joined E a x) as Hax. { apply (Hcyc p); [done|]. by rewrite Hp. }
  assert (joined E b x) as Hbx. { apply joined_sym. apply (Hcyc k); [done|]. by rewrite Hs. }
  assert (∀ i j u v, c !! i = Some u → c !! j = Some v → i ≠ j → u ≠ v) as Hne.
  { intros i j u v Hi Hj Hij ->. apply Hij. by eapply NoDup_lookup. }
  assert (∀ i u, c !! i = Some u → i ≠ k → u ∈ take (pos_of l x) l) as Htake.
  { intros i u Hi Hik. pose proof (Hx i u Hi) as Hle. pose proof (Hne i k u x Hi Hk Hik) as Hux.
    pose proof (Hpos u (Hin i u Hi)) as H1. pose proof (Hpos x (Hin k x Hk)) as H2.
    assert (pos_of l u ≠ pos_of l x) by (intros Heq; rewrite Heq in H1; congruence).
    apply elem_of_list_lookup. exists (pos_of l u). rewrite lookup_take by lia. done. }
  assert (joined E a b) as Hab.
  { apply (Hg (take (pos_of l x) l) x (drop (S (pos_of l x)) l)).
    - rewrite take_drop_middle; [done|]. apply Hpos. by apply (Hin k).
    - split; [by apply (Htake p)|done].
    - split; [by apply (Htake s)|done].
    - by apply (Hne p s). }
  destruct Hcase as [[H1 H2]|[H1 H2]].
  - by exists p, s, a, b.
  - exists s, p, b, a. split_and!; [done..|]. by apply joined_sym.
Qed.

Lemma chordal_induced E E' (X : nset) :
  chordal E → (∀ x y, joined E' x y ↔ joined E x y ∧ x ∈ X ∧ y ∈ X) → chordal E'.
Proof.
  intros HE H c [Hc Hcyc] Hlen.
  destruct (HE c) as (i & j & x & y & Hi & Hj & H1 & H2 & H3); [|done|].
  { split; [done|]. intros i x y Hi Hj. by apply H, (Hcyc i). }
  exists i, j, x, y. split_and!; [done..|]. apply H. split; [done|].
  assert (∀ i x, c !! i = Some x → x ∈ X) as HX.
  { intros i' x' Hi'. destruct (cycle_next c i' x' Hi') as [y' Hy']. by apply (H x' y'), (Hcyc i'). }
  split; by eapply HX.
Qed.

(** ** Maximal cliques *)
Lemma size_two (C : nset) x : 2 ≤ size C → ∃ y, y ∈ C ∧ y ≠ x.
Proof.
  intros H. destruct (set_choose_or_empty (C ∖ {[x]})) as [[y Hy]|He].
  - exists y. clear -Hy. set_solver.
  - assert (C ⊆ {[x]}) as Hs by (clear -He; intros z Hz; destruct (decide (z = x)) as [->|]; set_solver).
    apply subseteq_size in Hs. rewrite size_singleton in Hs. lia.
Qed.
Lemma two_size (C : nset) x y : x ∈ C → y ∈ C → x ≠ y → 2 ≤ size C.
Proof.
  intros Hx Hy Hne. assert ({[x; y]} ⊆ C) as Hs by (clear -Hx Hy; set_solver). apply subseteq_size in Hs.
  rewrite size_union in Hs by (clear -Hne; set_solver). rewrite !size_singleton in Hs. lia.
Qed.
Lemma elem_of_nodes_of E x : x ∈ nodes_of E ↔ ∃ y, joined E x y.
Proof.
  unfold nodes_of, joined. rewrite elem_of_union, !elem_of_map. split.
  - intros [([a b] & -> & H)|([a b] & -> & H)]; cbn; [exists b|exists a]; tauto.
  - intros (y & [H|H]); [left; by exists (x, y)|right; by exists (y, x)].
Qed.
Lemma clique_nodes E C : clique E C → 2 ≤ size C → C ⊆ nodes_of E.
Proof.
  intros HC Hs x Hx. destruct (size_two C x Hs) as (y & Hy & Hne). apply elem_of_nodes_of. exists y. by apply HC.
Qed.
Lemma pair_clique E x y : joined E x y → clique E {[x; y]}.
Proof.
  intros H a b Ha Hb Hne. apply elem_of_union in Ha, Hb. rewrite !elem_of_singleton in Ha, Hb.
  destruct Ha as [->| ->], Hb as [->| ->]; [done|done|by apply joined_sym|done].
Qed.

Lemma maximal_on_nodes (N : nset) E C : nodes_of E ⊆ N → no_loops E →
  maximal_clique (nodes_of E) E C ↔ maximal_clique N E C ∧ 2 ≤ size C.
Proof.
  intros HN HL. split.
  - intros (Hne & Hsub & Hc & Hmax). apply set_choose_L in Hne as [x Hx].
    assert (2 ≤ size C) as Hs.
    { pose proof (Hsub x Hx) as Hxn. apply elem_of_nodes_of in Hxn as [y Hxy].
      assert (x ≠ y) as Hxny by (intros ->; destruct Hxy; by apply (HL y)).
      destruct (decide (2 ≤ size C)) as [|Hlt]; [done|]. exfalso.
      assert (∀ z, z ∈ C → z = x) as Hone.
      { intros z Hz. destruct (decide (z = x)) as [|Hzx]; [done|]. destruct Hlt. by apply (two_size C z x). }
      assert (y ∈ C) as Hy; [|apply Hxny; symmetry; by apply Hone].
      apply (Hmax {[x; y]}).
      - intros z Hz. apply elem_of_union in Hz. rewrite !elem_of_singleton in Hz. apply elem_of_nodes_of.
        destruct Hz as [->| ->]; [by exists y|]. exists x. by apply joined_sym.
      - by apply pair_clique.
      - intros z Hz. rewrite (Hone z Hz). clear. set_solver.
      - clear. set_solver. }
    split; [|done]. split_and!; [clear -Hx; set_solver|by etrans|done|].
    intros C' HC' Hcl HCC'. apply Hmax; [|done|done]. apply clique_nodes; [done|]. apply subseteq_size in HCC'. lia.
  - intros [(Hne & Hsub & Hc & Hmax) Hs]. split_and!; [done|by apply clique_nodes|done|].
    intros C' HC' Hcl HCC'. apply Hmax; [by etrans|done|done].
Qed.

Lemma clique_extend (N : nset) E C : C ⊆ N → C ≠ ∅ → clique E C → ∃ C', maximal_clique N E C' ∧ C ⊆ C'.
Proof.
  remember (size N - size C) as k eqn:Hk. revert C Hk. induction (lt_wf k) as [k _ IH]. intros C -> HCN Hne Hc.
  destruct (decide (set_Exists (λ v, set_Forall (λ x, joined E v x) C) (N ∖ C))) as [(v & Hv & Hj)|Hno].
  - apply elem_of_difference in Hv as [HvN HvC].
    assert (size ({[v]} ∪ C) = S (size C)) as Hs by (rewrite size_union, size_singleton by (clear -HvC; set_solver); done).
    assert ({[v]} ∪ C ⊆ N) as Hsub by (clear -HCN HvN; set_solver).
    pose proof (subseteq_size _ _ Hsub) as Hle.
    destruct (IH (size N - size ({[v]} ∪ C))) with (C := {[v]} ∪ C) as (C' & HC' & Hin); [lia|done|done|clear; set_solver| |].
    + intros a b Ha Hb Hab. apply elem_of_union in Ha, Hb. rewrite !elem_of_singleton in Ha, Hb.
      destruct Ha as [->|Ha], Hb as [->|Hb]; [done|by apply Hj|apply joined_sym; by apply Hj|by apply Hc].
    + exists C'. split; [done|]. clear -Hin. set_solver.
  - exists C. split; [|done]. split_and!; [done..|]. intros C' HC' Hcl HCC' v Hv.
    destruct (decide (v ∈ C)) as [|HvC]; [done|]. destruct Hno. exists v. split; [clear -Hv HvC HC'; set_solver|].
    intros x Hx. apply Hcl; [done|by apply HCC'|]. by intros ->.
Qed.
