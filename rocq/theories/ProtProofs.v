(** Protected arcs: the least set of arcs containing the known ones and closed
    under the orientation rules, and its invariance under equivalence. *)
From Verif Require Import Py Spec SpecMec.

Section prot.
  Context (E K0 : arcset).
  Inductive prot : node → node → Prop :=
    | prot_known i j : (i, j) ∈ K0 → prot i j
    | prot_a k i j : (i, j) ∈ E → prot k i → ¬ adjacent E k j → prot i j
    | prot_b i k j : (i, j) ∈ E → prot i k → prot k j → prot i j
    | prot_d i j k1 k2 : (i, j) ∈ E → prot k1 j → prot k2 j → k1 ≠ k2 → ¬ adjacent E k1 k2 →
        adjacent E i k1 → adjacent E i k2 → ¬ ((k1, i) ∈ E ∧ (k2, i) ∈ E) → prot i j.
End prot.

Lemma adjacent_sym E x y : adjacent E x y ↔ adjacent E y x.
Proof. unfold adjacent. tauto. Qed.
Lemma acyclic_irr E x : acyclic E → (x, x) ∉ E.
Proof. intros H Hx. apply (H x). by apply tc_once. Qed.
Lemma acyclic_asym E x y : acyclic E → (x, y) ∈ E → (y, x) ∉ E.
Proof. intros H H1 H2. apply (H x). eapply tc_l; [exact H1|by apply tc_once]. Qed.
Lemma acyclic_3 E x y z : acyclic E → (x, y) ∈ E → (y, z) ∈ E → (z, x) ∉ E.
Proof. intros H H1 H2 H3. apply (H x). eapply tc_l; [exact H1|]. eapply tc_l; [exact H2|by apply tc_once]. Qed.

(** The known arcs contain every arc of a v-structure. *)
Definition vs_known (E K0 : arcset) : Prop := ∀ x z y, vstruct E x z y → (x, z) ∈ K0.

Lemma prot_sub E K0 i j : K0 ⊆ E → prot E K0 i j → (i, j) ∈ E.
Proof. intros HK. induction 1; auto. Qed.

(** One application of a rule whose premises hold in [E], read in [E]: the
    conclusion is an arc of [E] as soon as it is adjacent and undirected. *)
Lemma rule_a_arc E k i j : acyclic E → (k, i) ∈ E → adjacent E i j → k ≠ j → ¬ adjacent E k j →
  ¬ vstruct E k i j → (i, j) ∈ E.
Proof. intros Hac Hki [?|Hji] Hne Hn Hv; [done|]. destruct Hv. done. Qed.
Lemma rule_b_arc E i k j : acyclic E → (i, k) ∈ E → (k, j) ∈ E → adjacent E i j → (i, j) ∈ E.
Proof. intros Hac H1 H2 [?|H]; [done|]. exfalso. by eapply acyclic_3. Qed.
Lemma rule_d_arc E i j k1 k2 : acyclic E → (k1, j) ∈ E → (k2, j) ∈ E → k1 ≠ k2 → ¬ adjacent E k1 k2 →
  adjacent E i k1 → adjacent E i k2 → adjacent E i j → ¬ vstruct E k1 i k2 → (i, j) ∈ E.
Proof.
  intros Hac H1 H2 Hne Hn Ha1 Ha2 [?|Hji] Hv; [done|]. exfalso. apply Hv. split; [|split; [|done]].
  - destruct Ha1 as [Hik|?]; [|done]. exfalso. by apply (acyclic_3 E i k1 j).
  - destruct Ha2 as [Hik|?]; [|done]. exfalso. by apply (acyclic_3 E i k2 j).
Qed.

(** Soundness: if the known arcs are known in an equivalent graph, the protected
    arcs are protected there. *)
Lemma prot_equiv E E' K0 K0' i j :
  acyclic E → acyclic E' → equivalent E E' → K0 ⊆ E → K0 ⊆ K0' → K0' ⊆ E' →
  prot E K0 i j → prot E' K0' i j.
Proof.
  intros Hac Hac' [Hs Hv] HK HKK HK' Hp.
  induction Hp as [i j H|k i j Hij Hki IH Hn|i k j Hij Hik IH1 Hkj IH2|i j k1 k2 Hij H1 IH1 H2 IH2 Hne Hn Ha1 Ha2 Hnv].
  - apply prot_known. by apply HKK.
  - pose proof (prot_sub _ _ _ _ HK' IH) as Hki'. pose proof (prot_sub _ _ _ _ HK Hki) as Hki0.
    assert (k ≠ j) as Hkj by (intros ->; by apply (acyclic_asym E j i)).
    apply (prot_a _ _ k); [|done|by rewrite <-(Hs k j)].
    apply (rule_a_arc E' k); [done|done|apply Hs; by left|done|by rewrite <-(Hs k j)|].
    rewrite <-(Hv k i j). intros (_ & Hji & _). by apply (acyclic_asym E i j).
  - apply (prot_b _ _ i k j); [|done|done].
    apply (rule_b_arc E' i k); [done|by apply (prot_sub _ _ _ _ HK')|by apply (prot_sub _ _ _ _ HK')|apply Hs; by left].
  - assert (¬ vstruct E' k1 i k2) as Hv'.
    { rewrite <-(Hv k1 i k2). intros (? & ? & _). by apply Hnv. }
    apply (prot_d _ _ i j k1 k2); [|done|done|done|by rewrite <-(Hs k1 k2)|by apply Hs|by apply Hs|].
    + apply (rule_d_arc E' i j k1 k2); [done|by apply (prot_sub _ _ _ _ HK')|by apply (prot_sub _ _ _ _ HK')|done| | | | |done].
      * by rewrite <-(Hs k1 k2).
      * by apply Hs.
      * by apply Hs.
      * apply Hs. by left.
    + intros [??]. apply Hv'. split; [done|]. split; [done|]. split; [done|]. by rewrite <-(Hs k1 k2).
Qed.
