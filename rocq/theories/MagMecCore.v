(** A shortest m-connecting walk of one graph is m-connecting in the other. *)
From Verif Require Import Py Spec SpecDsep SpecMixed SpecMagMec TopoProofs StateProofs ReachProofs MWalkProofs InduceProofs MagMecProofs.

Definition col (G : mixed) (v : nat → node) (k : nat) : Prop := mcollider G (v (pred k)) (v k) (v (S k)).

(** The positions strictly between [j] and [t] are colliders in [C] and parents of [y]; position [j] is not adjacent to [y]. *)
Definition dl (G : mixed) (C : nset) (v : nat → node) (j t : nat) (y : node) : Prop :=
  S j < t ∧ ¬ madj G (v j) y ∧ ∀ k, j < k → k < t → col G v k ∧ (v k, y) ∈ mx_dir G ∧ v k ∈ C.
Definition dr (G : mixed) (C : nset) (v : nat → node) (t m : nat) (y : node) : Prop :=
  S t < m ∧ ¬ madj G (v m) y ∧ ∀ k, t < k → k < m → col G v k ∧ (v k, y) ∈ mx_dir G ∧ v k ∈ C.

Lemma rv_at n v k : rv n v k = v (n - k).
Proof. done. Qed.
Lemma rv_rv n v k : k ≤ n → rv n (rv n v) k = v k.
Proof. unfold rv. intros. f_equal. lia. Qed.
Lemma col_rv G n v k : 0 < k → k < n → col G (rv n v) k ↔ col G v (n - k).
Proof.
  intros H1 H2. unfold col, rv. rewrite mcollider_sym. replace (n - S k) with (pred (n - k)) by lia. by replace (n - pred k) with (S (n - k)) by lia.
Qed.
Lemma dl_rv G C n v j t y : t < n → dl G C (rv n v) j (n - t) y → dr G C v t (n - j) y.
Proof.
  intros Ht (H1 & H2 & H3). split; [lia|]. split; [exact H2|]. intros k Hk1 Hk2. destruct (H3 (n - k)) as (E1 & E2 & E3); [lia..|].
  unfold rv in E2, E3. replace (n - (n - k)) with k in E2, E3 by lia. split; [|done].
  rewrite col_rv in E1 by lia. by replace (n - (n - k)) with k in E1 by lia.
Qed.
Lemma dr_rv G C n v m t y : m ≤ n → dr G C v t m y → dl G C (rv n v) (n - m) (n - t) y.
Proof.
  intros Hm (H1 & H2 & H3). split; [lia|]. split.
  - unfold rv. by replace (n - (n - m)) with m by lia.
  - intros k Hk1 Hk2. destruct (H3 (n - k)) as (E1 & E2 & E3); [lia..|]. split; [|done]. rewrite col_rv by lia. done.
Qed.

(** ** A walk of least length *)
Section shortest.
  Context (G : mixed) (Hsi : simple G) (Hse : separate G) (Han : ancestral G) (C : nset).
  Notation D := (mx_dir G).

  Definition shortest (n : nat) (v : nat → node) : Prop :=
    fwalk G C n v ∧ ∀ m u, m < n → u 0 = v 0 → u m = v n → ¬ fwalk G C m u.
  Lemma shortest_rv n v : shortest n v → shortest n (rv n v).
  Proof using.
    intros [Hw Hm]. split; [by apply fwalk_rv|]. intros m u Hmn H0 Hmm Hu. apply (Hm m (rv m u)); [done| | |by apply fwalk_rv].
    - unfold rv in *. replace (m - 0) with m by lia. rewrite Hmm. f_equal. lia.
    - unfold rv in *. replace (m - m) with 0 by lia. rewrite H0. f_equal. lia.
  Qed.
  Lemma shortest_inj n v i j : shortest n v → i ≤ n → j ≤ n → v i = v j → i = j.
  Proof using Hsi Hse.
    intros [Hw Hm] Hi Hj E. destruct (decide (i < j)) as [Hlt|].
    { destruct (fwalk_shorten G C n v i j) as (m & u & H1 & H2 & H3 & H4); [done..|]. by destruct (Hm m u). }
    destruct (decide (j < i)) as [Hlt|]; [|lia].
    destruct (fwalk_shorten G C n v j i) as (m & u & H1 & H2 & H3 & H4); [done..|]. by destruct (Hm m u).
  Qed.

  (** Go left from [t] along parents of [y]. *)
  Lemma left_ext n v t y : fwalk G C n v → 2 ≤ t → t ≤ n → col G v (pred t) → v (pred t) ∈ C → (v (pred t), y) ∈ D →
    (∃ j, dl G C v j t y) ∨
    ∃ s, S s < t ∧ into G (v s) y ∧ ∀ k, s = S k → mactive_at G C (v k) (v s) y.
  Proof using Hsi Hse Han.
    intros [Hw1 Hw2] Ht Htn Hc HC Hd.
    assert (∀ s, S s < t → (∀ k, s < k → k < t → col G v k ∧ (v k, y) ∈ D ∧ v k ∈ C) →
      (∃ j, dl G C v j t y) ∨ ∃ s, S s < t ∧ into G (v s) y ∧ ∀ k, s = S k → mactive_at G C (v k) (v s) y) as Hgo.
    { induction s as [|s IH]; intros Hs Hq.
      - destruct (decide (madj G (v 0) y)) as [Ha|Ha]; [|left; exists 0; by split_and!].
        right. exists 0. split; [done|]. split; [|done]. destruct (Hq 1) as ([Hi _] & Hy & _); [lia..|]. by apply (into_up G Hsi Hse Han _ (v 1)).
      - destruct (Hq (S (S s))) as ([Hi _] & Hy & HyC); [lia..|]. cbn [pred] in Hi.
        destruct (decide (madj G (v (S s)) y)) as [Ha|Ha]; [|left; exists (S s); by split_and!].
        pose proof (into_up G Hsi Hse Han _ _ _ Hi Hy Ha) as Hin.
        destruct (status G Hsi Hse Han C (v s) (v (S s)) (v (S (S s))) y) as [Hok|(B1 & B2 & B3)]; [apply Hw2; lia|apply Hw1; lia|done| | |].
        + intros Hd' _ _. exists (v (S (S s))). split; [done|]. by apply rtc_once.
        + right. exists (S s). split; [lia|]. split; [done|]. by intros k [= <-].
        + apply IH; [lia|]. intros k Hk1 Hk2. destruct (decide (k = S s)) as [->|]; [done|]. apply Hq; lia. }
    apply (Hgo (t - 2)); [lia|]. intros k Hk1 Hk2. by replace k with (pred t) by lia.
  Qed.

  Lemma madj_dec x y : Decision (madj G x y).
  Proof. unfold madj. apply _. Defined.

  (** Shielded triples have discriminating paths on the walk. *)
  Lemma shielded_bad n v t : shortest n v → 0 < t → t < n → madj G (v (pred t)) (v (S t)) →
    col G v (pred t) → v (pred t) ∈ C → 2 ≤ t → (v (pred t), v (S t)) ∈ D → ∃ j, dl G C v j t (v (S t)).
  Proof using Hsi Hse Han.
    intros [Hw Hm] Ht0 Htn Ha Hc HC Ht2 Hd.
    destruct (left_ext n v t (v (S t)) Hw) as [|(s & Hs & Hin & Hok)]; [lia|lia|done..|].
    exfalso. assert (into G (v t) (v (S t))) as Hb.
    { apply (into_up G Hsi Hse Han _ (v (pred t))); [|done|apply Hw; lia]. destruct Hc as [_ Hc]. by replace (S (pred t)) with t in Hc by lia. }
    apply (Hm (n + S s - S t) (cutv s (S t) v)); [lia|by rewrite cutv_le by lia| |].
    - destruct (decide (n = S t)) as [->|].
      + rewrite cutv_gt by lia. f_equal. lia.
      + rewrite cutv_gt by lia. f_equal. lia.
    - apply fwalk_cut; [done|lia|lia|by apply into_adj|done|]. intros Hlt. apply (status_into G C (v t)); [done|].
      apply (proj2 Hw). done.
  Qed.
  Lemma shielded n v t : shortest n v → 0 < t → t < n → madj G (v (pred t)) (v (S t)) →
    (∃ j, dl G C v j t (v (S t))) ∨ ∃ m, m ≤ n ∧ dr G C v t m (v (pred t)).
  Proof using Hsi Hse Han.
    intros Hs Ht0 Htn Ha. pose proof Hs as [[Hw1 Hw2] Hm]. destruct t as [|t]; [lia|]. cbn [pred] in *.
    assert (madj G (v t) (v (S t)) ∧ madj G (v (S t)) (v (S (S t)))) as [A1 A2] by (split; apply Hw1; lia).
    assert (mactive_at G C (v t) (v (S t)) (v (S (S t)))) as Hact by (apply Hw2; lia).
    (* the left end *)
    assert ((∀ k, t = S k → mactive_at G C (v k) (v t) (v (S (S t)))) ∨
            (col G v t ∧ v t ∈ C ∧ 1 ≤ t ∧ (v t, v (S (S t))) ∈ D)) as [L|(L1 & L2 & L3 & L4)].
    { destruct t as [|t]; [by left|].
      destruct (status G Hsi Hse Han C (v t) (v (S t)) (v (S (S t))) (v (S (S (S t))))) as [Hok|(B1 & B2 & B3)]; [apply Hw2; lia|done|done| | |].
      - intros Hd _ Hi. destruct (decide (into G (v (S (S (S t)))) (v (S (S t))))) as [Hj|Hj].
        + destruct Hact as [Hact _]. eapply opened_up; [by apply rtc_once|]. apply Hact. split; [by left|done].
        + exfalso. apply (into_not_anc G Hsi Han _ _ Hi). eapply rtc_l; [exact Hd|]. apply rtc_once.
          apply (tail_of G Hse (v (S t))); [by left|done|done].
      - left. by intros k [= <-].
      - right. split_and!; [done|done|lia|done]. }
    2: { left. apply (shielded_bad n v (S t)); cbn [pred]; done || lia. }
    (* the right end *)
    assert ((S (S t) < n → mactive_at G C (v t) (v (S (S t))) (v (S (S (S t))))) ∨
            (S (S t) < n ∧ col G v (S (S t)) ∧ v (S (S t)) ∈ C ∧ (v (S (S t)), v t) ∈ D)) as [R|(R1 & R2 & R3 & R4)].
    { destruct (decide (S (S t) < n)) as [Hlt|]; [|by left].
      destruct (status G Hsi Hse Han C (v (S (S (S t)))) (v (S (S t))) (v (S t)) (v t)) as [Hok|(B1 & B2 & B3)].
      - apply mactive_at_sym. by apply Hw2.
      - by apply madj_sym.
      - by apply madj_sym.
      - intros Hd _ Hi. destruct (decide (into G (v t) (v (S t)))) as [Hj|Hj].
        + destruct Hact as [Hact _]. eapply opened_up; [by apply rtc_once|]. apply Hact. split; [done|by left].
        + exfalso. apply (into_not_anc G Hsi Han _ _ Hi). eapply rtc_l; [exact Hd|]. apply rtc_once.
          apply (tail_of G Hse (v (S (S t)))); [by left|by apply madj_sym|done].
      - left. intros _. by apply mactive_at_sym.
      - right. split_and!; [done| |done|done]. by apply mcollider_sym. }
    - exfalso. apply (Hm (n + S t - S (S t)) (cutv t (S (S t)) v)); [lia|by rewrite cutv_le by lia| |].
      + rewrite cutv_gt by lia. f_equal. lia.
      + apply fwalk_cut; [done|lia|lia|done|done|done].
    - right. destruct (shielded_bad n (rv n v) (n - S t)) as (j & Hj).
      + by apply shortest_rv.
      + lia.
      + lia.
      + unfold rv. replace (n - pred (n - S t)) with (S (S t)) by lia. replace (n - S (n - S t)) with t by lia. by apply madj_sym.
      + rewrite col_rv by lia. by replace (n - pred (n - S t)) with (S (S t)) by lia.
      + unfold rv. by replace (n - pred (n - S t)) with (S (S t)) by lia.
      + lia.
      + unfold rv. replace (n - pred (n - S t)) with (S (S t)) by lia. by replace (n - S (n - S t)) with t by lia.
      + exists (n - j). split; [lia|]. apply dl_rv; [lia|]. unfold rv in Hj at 2. by replace (n - S (n - S t)) with t in Hj by lia.
  Qed.

  (** A left path at [t] and a right path at [k] do not cross. *)
  Lemma no_cross n v j k t m : (∀ x y, x ≠ y → binduced G x y → madj G x y) → shortest n v → m ≤ n →
    j < k → k < t → t < m → t < n → dl G C v j t (v (S t)) → dr G C v k m (v (pred k)) → False.
  Proof using Hsi Hse Han.
    intros Hmax Hs Hmn Hjk Hkt Htm Htn (L1 & L2 & L3) (R1 & R2 & R3).
    assert (∀ u, k ≤ u → u < t → spouse G (v u) (v (S u))) as Hsp.
    { intros u Hu1 Hu2. destruct (L3 u) as ([_ H1] & _); [lia..|]. destruct (R3 (S u)) as ([H2 _] & _); [lia..|].
      by apply (into_both G Hsi). }
    assert (∀ u, k < u → u ≤ t → (v u, v (pred k)) ∈ D) as HR by (intros u ??; apply R3; lia).
    assert (∀ u, k ≤ u → u < t → (v u, v (S t)) ∈ D) as HL by (intros u ??; apply L3; lia).
    assert (pred k ≠ S t) as Hne by lia.
    assert (madj G (v (pred k)) (v (S t))) as Hadj.
    { apply Hmax.
      - intros E. apply Hne. apply (shortest_inj n v); [done|lia|lia|done].
      - exists (v k), (v t). split_and!.
        + destruct (L3 k) as ([H1 _] & _); [lia..|]. destruct H1 as [H1|H1]; [|done]. exfalso.
          apply (proj2 Han (v (S k)) (v k)); [apply spouse_sym, Hsp; lia|]. eapply rtc_l; [apply HR; lia|]. by apply rtc_once.
        + destruct (R3 t) as ([_ H1] & _); [lia..|]. destruct H1 as [H1|H1]; [|done]. exfalso.
          apply (proj2 Han (v (pred t)) (v t)); [replace t with (S (pred t)) at 2 by lia; apply Hsp; lia|].
          eapply rtc_l; [apply HL; lia|]. by apply rtc_once.
        + apply tc_once, HL; lia.
        + apply tc_once, HR; lia.
        + assert (∀ d, k + S d ≤ t → tc (λ u w, spouse G u w ∧ (tc (edge D) w (v (pred k)) ∨ tc (edge D) w (v (S t)))) (v k) (v (k + S d))) as Hgo.
          { induction d as [|d IH]; intros Hd.
            - apply tc_once. replace (k + 1) with (S k) by lia. split; [apply Hsp; lia|]. left. apply tc_once, HR; lia.
            - eapply tc_r; [apply IH; lia|]. replace (k + S (S d)) with (S (k + S d)) by lia. split; [apply Hsp; lia|].
              left. apply tc_once, HR; lia. }
          replace (v t) with (v (k + S (t - S k))) by (f_equal; lia). apply Hgo. lia. }
    destruct (decide (pred k = j)) as [<-|Hj]; [done|].
    destruct (decide (S t = m)) as [<-|Hm]; [by apply R2, madj_sym|].
    destruct (L3 (pred k)) as (_ & E1 & _); [lia..|]. destruct (R3 (S t)) as (_ & E2 & _); [lia..|].
    by destruct (simple_dir _ Hsi _ _ E1).
  Qed.
End shortest.
