(** Markov equivalence from adjacencies, unshielded colliders and discriminating paths. *)
From Verif Require Import Py Spec SpecDsep SpecMixed SpecMagMec TopoProofs StateProofs ReachProofs MWalkProofs InduceProofs.

(** ** Walks as functions on the positions [0, ..., n] *)
Definition fwalk (G : mixed) (C : nset) (n : nat) (v : nat → node) : Prop :=
  (∀ i, i < n → madj G (v i) (v (S i))) ∧ (∀ i, S i < n → mactive_at G C (v i) (v (S i)) (v (S (S i)))).

Lemma fwalk_list G C n v : fwalk G C n v → mwalk G C (v 0) (v n) (v <$> seq 0 (S n)).
Proof.
  revert v. induction n as [|n IH]; intros v [H1 H2].
  { split_and!; done. }
  destruct (IH (λ i, v (S i))) as (E1 & E2 & E3 & E4).
  { split; [intros i Hi; apply H1; lia|intros i Hi; apply (H2 (S i)); lia]. }
  assert (v <$> seq 0 (S (S n)) = v 0 :: ((λ i, v (S i)) <$> seq 0 (S n))) as ->.
  { cbn [seq fmap list_fmap]. f_equal. f_equal. rewrite <-(fmap_S_seq 1 n). by rewrite <-list_fmap_compose. }
  split; [done|]. split.
  { rewrite <-E2. cbn [seq fmap list_fmap]. by rewrite last_cons_cons. }
  cbn [seq fmap list_fmap] in *. split.
  - rewrite madjs_cons. split; [apply H1; lia|done].
  - destruct n as [|n]; [done|]. cbn [seq fmap list_fmap] in *. rewrite macts_cons. split; [apply (H2 0); lia|done].
Qed.
Lemma list_fwalk G C x y l : mwalk G C x y l →
  ∃ v, v 0 = x ∧ v (pred (length l)) = y ∧ fwalk G C (pred (length l)) v ∧ ∀ i, i < length l → l !! i = Some (v i).
Proof.
  intros (H1 & H2 & H3 & H4). exists (λ i, default 0 (l !! i)).
  assert (∀ i, i < length l → l !! i = Some (default 0 (l !! i))) as Hl.
  { intros i Hi. apply lookup_lt_is_Some_2 in Hi as [z ->]. done. }
  split; [by rewrite head_lookup in H1; rewrite H1|]. split; [by rewrite last_lookup in H2; rewrite H2|]. split; [|done]. split.
  - intros i Hi. apply madjs_mtrail in H3. apply (H3 (take i l) _ _ (drop (S (S i)) l)).
    rewrite <-(drop_S l _ (S i)) by (apply Hl; lia). rewrite <-drop_S by (apply Hl; lia). by rewrite take_drop.
  - intros i Hi. apply macts_mactive in H4. apply (H4 (take i l) _ _ _ (drop (S (S (S i))) l)).
    rewrite <-(drop_S l _ (S (S i))) by (apply Hl; lia). rewrite <-(drop_S l _ (S i)) by (apply Hl; lia).
    rewrite <-drop_S by (apply Hl; lia). by rewrite take_drop.
Qed.

(** The walk that goes from position [i] directly to position [j]. *)
Definition cutv (i j : nat) (v : nat → node) : nat → node := λ k, if decide (k ≤ i) then v k else v (k + j - S i).
(** ... and through [d]. *)
Definition viav (i j : nat) (d : node) (v : nat → node) : nat → node :=
  λ k, if decide (k ≤ i) then v k else if decide (k = S i) then d else v (k + j - S (S i)).

Lemma cutv_le i j v k : k ≤ i → cutv i j v k = v k.
Proof. unfold cutv. intros. case_decide; [done|lia]. Qed.
Lemma cutv_gt i j v k : i < k → cutv i j v k = v (k + j - S i).
Proof. unfold cutv. intros. case_decide; [lia|done]. Qed.
Lemma viav_le i j d v k : k ≤ i → viav i j d v k = v k.
Proof. unfold viav. intros. case_decide; [done|lia]. Qed.
Lemma viav_at i j d v k : k = S i → viav i j d v k = d.
Proof. unfold viav. intros ->. case_decide; [lia|]. by case_decide. Qed.
Lemma viav_gt i j d v k : S i < k → viav i j d v k = v (k + j - S (S i)).
Proof. unfold viav. intros. case_decide; [lia|]. case_decide; [lia|done]. Qed.

Lemma fwalk_cut G C n v i j : fwalk G C n v → i < j → j ≤ n → madj G (v i) (v j) →
  (∀ k, i = S k → mactive_at G C (v k) (v i) (v j)) → (j < n → mactive_at G C (v i) (v j) (v (S j))) →
  fwalk G C (n + S i - j) (cutv i j v).
Proof.
  intros [H1 H2] Hij Hjn Ha Hi Hj. split.
  - intros k Hk. destruct (decide (k < i)).
    { rewrite !cutv_le by lia. apply H1. lia. }
    destruct (decide (k = i)) as [->|].
    { rewrite cutv_le, cutv_gt by lia. by replace (S i + j - S i) with j by lia. }
    rewrite !cutv_gt by lia. replace (S k + j - S i) with (S (k + j - S i)) by lia. apply H1. lia.
  - intros k Hk. destruct (decide (S k < i)).
    { rewrite !cutv_le by lia. apply H2. lia. }
    destruct (decide (i = S k)) as [->|].
    { rewrite (cutv_le _ _ _ k), (cutv_le _ _ _ (S k)), cutv_gt by lia. replace (S (S k) + j - S (S k)) with j by lia. by apply Hi. }
    destruct (decide (i = k)) as [->|].
    { rewrite (cutv_le _ _ _ k), (cutv_gt _ _ _ (S k)), cutv_gt by lia. replace (S k + j - S k) with j by lia.
      replace (S (S k) + j - S k) with (S j) by lia. apply Hj. lia. }
    rewrite !cutv_gt by lia. replace (S k + j - S i) with (S (k + j - S i)) by lia.
    replace (S (S k) + j - S i) with (S (S (k + j - S i))) by lia. apply H2. lia.
Qed.
Lemma fwalk_via G C n v i j d : fwalk G C n v → S i < j → j ≤ n → madj G (v i) d → madj G d (v j) → mactive_at G C (v i) d (v j) →
  (∀ k, i = S k → mactive_at G C (v k) (v i) d) → (j < n → mactive_at G C d (v j) (v (S j))) →
  fwalk G C (n + S (S i) - j) (viav i j d v).
Proof.
  intros [H1 H2] Hij Hjn Ha Ha' Hd Hi Hj. split.
  - intros k Hk. destruct (decide (k < i)).
    { rewrite !viav_le by lia. apply H1. lia. }
    destruct (decide (k = i)) as [->|].
    { rewrite viav_le, viav_at by lia. done. }
    destruct (decide (k = S i)) as [->|].
    { rewrite viav_at, viav_gt by lia. by replace (S (S i) + j - S (S i)) with j by lia. }
    rewrite !viav_gt by lia. replace (S k + j - S (S i)) with (S (k + j - S (S i))) by lia. apply H1. lia.
  - intros k Hk. destruct (decide (S k < i)).
    { rewrite !viav_le by lia. apply H2. lia. }
    destruct (decide (i = S k)) as [->|].
    { rewrite (viav_le _ _ _ _ k), (viav_le _ _ _ _ (S k)), viav_at by lia. by apply Hi. }
    destruct (decide (i = k)) as [->|].
    { rewrite (viav_le _ _ _ _ k), (viav_at _ _ _ _ (S k)), viav_gt by lia. by replace (S (S k) + j - S (S k)) with j by lia. }
    destruct (decide (k = S i)) as [->|].
    { rewrite (viav_at _ _ _ _ (S i)), !viav_gt by lia. replace (S (S i) + j - S (S i)) with j by lia.
      replace (S (S (S i)) + j - S (S i)) with (S j) by lia. apply Hj. lia. }
    rewrite !viav_gt by lia. replace (S k + j - S (S i)) with (S (k + j - S (S i))) by lia.
    replace (S (S k) + j - S (S i)) with (S (S (k + j - S (S i)))) by lia. apply H2. lia.
Qed.

(** The reverse walk. *)
Definition rv (n : nat) (v : nat → node) : nat → node := λ k, v (n - k).
Lemma fwalk_rv G C n v : fwalk G C n v → fwalk G C n (rv n v).
Proof.
  intros [H1 H2]. split; unfold rv; intros i Hi.
  - apply madj_sym. replace (n - i) with (S (n - S i)) by lia. apply H1. lia.
  - apply mactive_at_sym. replace (n - S i) with (S (n - S (S i))) by lia. replace (n - i) with (S (S (n - S (S i)))) by lia. apply H2. lia.
Qed.

(** Repeated nodes can be cut out. *)
Lemma fwalk_shorten G C n v i j : simple G → separate G → fwalk G C n v → i < j → j ≤ n → v i = v j →
  ∃ m u, m < n ∧ u 0 = v 0 ∧ u m = v n ∧ fwalk G C m u.
Proof.
  intros Hsi Hse Hw Hij Hjn E. apply fwalk_list in Hw as (H1 & H2 & H3 & H4).
  remember (v <$> seq 0 (S n)) as l eqn:El.
  assert (∃ l1 l2 l3, l = l1 ++ v i :: l2 ++ v i :: l3) as (l1 & l2 & l3 & El').
  { exists (v <$> seq 0 i), (v <$> seq (S i) (j - S i)), (v <$> seq (S j) (n - j)). subst l.
    replace (S n) with (i + S ((j - S i) + S (n - j))) by lia. rewrite seq_app, fmap_app. f_equal. cbn [seq fmap list_fmap]. f_equal.
    rewrite seq_app, fmap_app. f_equal. cbn [seq fmap list_fmap]. rewrite E. f_equal; [f_equal; lia|]. f_equal. f_equal. lia. }
  assert (length l = S n) as Hlen by (subst l; by rewrite fmap_length, seq_length).
  rewrite El' in H1, H2, H3, H4, Hlen. destruct (msplice G C Hsi Hse l1 (v i) l2 l3 H3 H4) as [H5 H6].
  assert (mwalk G C (v 0) (v n) (l1 ++ v i :: l3)) as Hw.
  { split; [|split; [|done]].
    - destruct l1; cbn in *; done.
    - rewrite <-H2. change (l1 ++ v i :: l2 ++ v i :: l3) with (l1 ++ (v i :: l2) ++ v i :: l3).
      rewrite app_assoc. rewrite !(last_app _ (v i :: l3)), !last_cons. by destruct (last l3). }
  apply list_fwalk in Hw as (u & Hu1 & Hu2 & Hu3 & _). eexists _, u. split; [|done].
  rewrite app_length in *. cbn [length] in *. rewrite app_length in Hlen. cbn [length] in Hlen. lia.
Qed.

(** ** Marks in ancestral graphs *)
Section marks.
  Context (G : mixed) (Hsi : simple G) (Hse : separate G) (Han : ancestral G).
  Notation D := (mx_dir G).

  Lemma tail_of a b c : into G a b → madj G b c → ¬ into G c b → (b, c) ∈ D.
  Proof using Hse.
    intros Ha [H|[H|[H|H]]] Hn; [done| | |].
    - exfalso. apply Hn. by left.
    - exfalso. apply Hn. right. by apply spouse_sym.
    - exfalso. by apply (Hse _ _ _ Ha H).
  Qed.
  Lemma dir_not_into a b : (a, b) ∈ D → ¬ into G b a.
  Proof using Hsi. intros H [Hd|Hs]; apply (simple_dir _ Hsi) in H as (H1 & H2 & _); [done|]. by apply H2, spouse_sym. Qed.
  Lemma rtc_not_into a b : a ≠ b → rtc (edge D) a b → ¬ into G b a.
  Proof using Han.
    intros Hne Hr [Hd|Hs].
    - apply (proj1 Han a). apply rtc_tc in Hr as [->|Hr]; [done|]. eapply tc_r; [exact Hr|exact Hd].
    - by apply (proj2 Han a b (spouse_sym _ _ _ Hs)).
  Qed.
  Lemma into_adj a b : into G a b → madj G a b.
  Proof using. intros [H|H]; unfold madj; tauto. Qed.
  Lemma dir_adj a b : (a, b) ∈ D → madj G a b.
  Proof using. unfold madj. tauto. Qed.
  Lemma adj_ne a b : madj G a b → a ≠ b.
  Proof using Hsi. intros H ->. by apply (simple_irr _ Hsi) in H. Qed.
  Lemma into_not_anc a b : into G a b → rtc (edge D) b a → False.
  Proof using Hsi Han.
    intros Hi Hr. apply (rtc_not_into b a); [|done|done]. intros ->. by apply (adj_ne a a); [apply into_adj|].
  Qed.
  (** [a *-> b -> c]: an edge between [a] and [c] is into [c]. *)
  Lemma into_up a b c : into G a b → (b, c) ∈ D → madj G a c → into G a c.
  Proof using Hsi Hse Han.
    intros Hi Hbc [H|[H|[H|H]]].
    - by left.
    - exfalso. apply (into_not_anc a b Hi). eapply rtc_l; [exact Hbc|]. by apply rtc_once.
    - by right.
    - exfalso. apply (Hse b c a); [by left|]. by apply neighbor_sym.
  Qed.
  Lemma dir_up a b c : (a, b) ∈ D → (b, c) ∈ D → madj G a c → (a, c) ∈ D.
  Proof using Hsi Hse Han.
    intros Hab Hbc Ha. destruct (into_up a b c (or_introl Hab) Hbc Ha) as [|Hs]; [done|]. exfalso.
    apply (proj2 Han a c Hs). eapply rtc_l; [exact Hab|]. by apply rtc_once.
  Qed.

  (** The other edge at [b] goes to [y] instead of [c]. *)
  Lemma status C a b c y : mactive_at G C a b c → madj G b c → madj G b y →
    ((b, c) ∈ D → into G a b → into G y b → opened D C b) →
    mactive_at G C a b y ∨ (mcollider G a b c ∧ b ∈ C ∧ (b, y) ∈ D).
  Proof using Hsi Hse Han.
    intros [H1 H2] Hbc Hby Hop. destruct (decide (into G a b)) as [Ha|Ha].
    2: { left. split; [by intros [? _]|]. intros _. apply H2. by intros [? _]. }
    destruct (decide (into G y b)) as [Hy|Hy].
    - left. split; [|by intros Hn; destruct Hn]. intros _.
      destruct (decide (into G c b)) as [Hc|Hc]; [by apply H1|]. apply Hop; [|done|done]. by apply (tail_of a).
    - destruct (decide (b ∈ C)) as [Hb|Hb].
      + right. split_and!; [|done|by apply (tail_of a)].
        destruct (decide (into G c b)) as [Hc|Hc]; [done|]. exfalso. apply H2; [|done]. by intros [_ ?].
      + left. split; [by intros [_ ?]|done].
  Qed.
  Lemma status_into C a a' b c : (into G a b ↔ into G a' b) → mactive_at G C a b c → mactive_at G C a' b c.
  Proof using. unfold mactive_at, mcollider. intros ->. done. Qed.
End marks.
