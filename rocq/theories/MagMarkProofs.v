(** Changing one mark of an edge without changing the m-separation statements. *)
From Verif Require Import Py Spec SpecDsep SpecMixed SpecMagMec TopoProofs StateProofs ReachProofs MWalkProofs InduceProofs MagMecProofs MagMecCore MagMecMain.

(** ** Walks on which exactly the colliders are in [C] *)
Definition swalk (G : mixed) (C : nset) (n : nat) (v : nat → node) : Prop :=
  (∀ i, i < n → madj G (v i) (v (S i))) ∧ (∀ i, S i < n → mcollider G (v i) (v (S i)) (v (S (S i))) ↔ v (S i) ∈ C).
Lemma swalk_fwalk G C n v : swalk G C n v → fwalk G C n v.
Proof.
  intros [H1 H2]. split; [done|]. intros i Hi. destruct (H2 i Hi) as [H3 H4]. split; [intros Hc; by apply opened_in, H3|by intros Hn Hc; apply Hn, H4].
Qed.

Definition spass (C : nset) (v : node) (m k : bool) : Prop := if m || k then v ∉ C else v ∈ C.
Definition sstep (G : mixed) (C : nset) (s t : node * bool) : Prop := ∃ k, medge G s.1 t.1 k t.2 ∧ spass C s.1 s.2 k.

Section strict.
  Context (G : mixed) (Hsi : simple G) (Hse : separate G) (C : nset).

  Lemma excursion v m : v ∉ C → opened (mx_dir G) C v → rtc (sstep G C) (v, m) (v, true).
  Proof using.
    intros HvC (z & Hz & Hr). revert m HvC. induction Hr as [v|v d z Hvd Hr IH]; intros m HvC; [done|].
    apply (rtc_l _ _ (d, false)); [exists true; split; [exact Hvd|]; unfold spass; cbn; by rewrite orb_true_r|].
    destruct (decide (d ∈ C)) as [HdC|HdC].
    - apply rtc_once. exists false. split; [exact Hvd|done].
    - eapply rtc_r; [by apply IH|]. exists false. split; [exact Hvd|done].
  Qed.
  Lemma strict_reach s t : rtc (mstep G C) s t → rtc (sstep G C) s t.
  Proof using.
    intros Hr. induction Hr as [|[v m] [w m'] t (k & He & Hp) _ IH]; [apply rtc_refl|]. cbn [fst snd] in *.
    assert (m = false → k = false → v ∉ C → opened (mx_dir G) C v → rtc (sstep G C) (v, m) (w, m')) as Hexc.
    { intros -> -> HvC Ho. eapply rtc_r; [by apply excursion|]. exists false. split; [done|done]. }
    unfold pass in Hp. destruct (decide (m || k = true)) as [Hmk|Hmk].
    - eapply rtc_l; [|exact IH]. exists k. split; [done|]. unfold spass. cbn [fst snd]. rewrite Hmk in *. done.
    - apply not_true_is_false in Hmk. rewrite Hmk in Hp. apply orb_false_iff in Hmk as [-> ->].
      destruct (decide (v ∈ C)) as [HvC|HvC].
      + eapply rtc_l; [|exact IH]. exists false. split; [done|done].
      + etrans; [by apply Hexc|exact IH].
  Qed.
  Lemma strict_walk a s : rtc (sstep G C) (a, true) s →
    ∃ n v, v 0 = a ∧ v n = s.1 ∧ swalk G C n v ∧ (n = 0 → s.2 = true) ∧ ∀ k, n = S k → into G (v k) (v n) ↔ s.2 = false.
  Proof using Hsi.
    revert s. apply (rtc_ind_r (λ s, ∃ n v, v 0 = a ∧ v n = s.1 ∧ swalk G C n v ∧ (n = 0 → s.2 = true) ∧ ∀ k, n = S k → into G (v k) (v n) ↔ s.2 = false)).
    - exists 0, (λ _, a). split_and!; [done|done| |done|lia]. split; intros; lia.
    - intros [u m] [w m'] Hr (k & He & Hp) (n & v & H0 & Hn & [W1 W2] & Hz & Hk). cbn [fst snd] in *.
      exists (S n), (λ i, if decide (i ≤ n) then v i else w).
      assert (∀ i, i ≤ n → (if decide (i ≤ n) then v i else w) = v i) as E1 by (intros; by rewrite decide_True).
      assert ((if decide (S n ≤ n) then v (S n) else w) = w) as E2 by (rewrite decide_False by lia; done).
      split_and!; [by rewrite E1 by lia|done| |done|].
      + split.
        * intros i Hi. rewrite (E1 i) by lia. destruct (decide (i = n)) as [->|].
          -- rewrite E2, Hn. apply madj_medge. by eexists _, _.
          -- rewrite E1 by lia. apply W1. lia.
        * intros i Hi. rewrite (E1 i), (E1 (S i)) by lia. destruct (decide (S i = n)) as [<-|].
          -- rewrite E2. pose proof (Hk i eq_refl) as Hin. rewrite Hn in *.
             assert (into G w u ↔ k = false) as Hwu by (eapply into_medge; [done|]; by apply medge_sym).
             unfold mcollider. rewrite Hin, Hwu. unfold spass in Hp. destruct m, k; cbn in Hp; naive_solver.
          -- rewrite E1 by lia. apply W2. lia.
      + intros j [= <-]. rewrite (E1 n), E2, Hn by lia. by eapply into_medge.
  Qed.
  Lemma mwalk_swalk a b l : a ∉ C → mwalk G C a b l → ∃ n v, v 0 = a ∧ v n = b ∧ swalk G C n v.
  Proof using Hsi.
    intros HaC Hl%mwalk_sym. destruct (reverse l) as [|y l']; [by destruct Hl|].
    assert (y = b) as -> by (destruct Hl; naive_solver).
    apply mwalk_ball in Hl as (m & Hr & _); [|done|done]. apply strict_reach, strict_walk in Hr as (n & v & H0 & Hn & Hw & _).
    by exists n, v.
  Qed.
End strict.

(** ** The generic shortcuts *)
Lemma swalk_cut G C n v i j : swalk G C n v → i < j → j ≤ n → madj G (v i) (v j) →
  (∀ k, i = S k → mcollider G (v k) (v i) (v j) ↔ v i ∈ C) → (j < n → mcollider G (v i) (v j) (v (S j)) ↔ v j ∈ C) →
  swalk G C (n + S i - j) (cutv i j v).
Proof.
  intros [H1 H2] Hij Hjn Ha Hi Hj. split.
  - intros k Hk. destruct (decide (k < i)).
    { rewrite !cutv_le by lia. apply H1. lia. }
    destruct (decide (k = i)) as [->|].
    { rewrite cutv_le, cutv_gt by lia. by replace (S i + j - S i) with j by lia. }
    rewrite !cutv_gt by lia. replace (S k + j - S i) with (S (k + j - S i)) by lia. apply H1. lia.
  - intros k Hk. destruct (decide (S k < i)).
    { rewrite !cutv_le by lia. apply H2. lia. }
    destruct (decide (i = S k)) as [->|].
    { rewrite (cutv_le _ _ _ k), (cutv_le _ _ _ (S k)), cutv_gt by lia. replace (S (S k) + j - S (S k)) with j by lia. by apply Hi. }
    destruct (decide (i = k)) as [->|].
    { rewrite (cutv_le _ _ _ k), (cutv_gt _ _ _ (S k)), cutv_gt by lia. replace (S k + j - S k) with j by lia.
      replace (S (S k) + j - S k) with (S j) by lia. apply Hj. lia. }
    rewrite !cutv_gt by lia. replace (S k + j - S i) with (S (k + j - S i)) by lia.
    replace (S (S k) + j - S i) with (S (S (k + j - S i))) by lia. apply H2. lia.
Qed.
Lemma swalk_rv G C n v : swalk G C n v → swalk G C n (rv n v).
Proof.
  intros [H1 H2]. split; unfold rv; intros i Hi.
  - apply madj_sym. replace (n - i) with (S (n - S i)) by lia. apply H1. lia.
  - rewrite mcollider_sym. replace (n - S i) with (S (n - S (S i))) by lia. replace (n - i) with (S (S (n - S (S i)))) by lia. apply H2. lia.
Qed.

(** What is needed at [a] and [b]; the mark at [a] of the edge between [a] and [b] is free. *)
Record shadowed (G : mixed) (a b : node) : Prop := Shadowed {
  sh_into : into G a b;
  sh_par : ∀ c, (c, a) ∈ mx_dir G → (c, b) ∈ mx_dir G;
  sh_spo : ∀ d, d ≠ b → spouse G d a → (d, b) ∈ mx_dir G ∨ spouse G d b;
  sh_disc : ∀ l p, discriminating G l → l ≠ p ++ [a; b]
}.

Section short.
  Context (G : mixed) (Hsi : simple G) (Hse : separate G) (Han : ancestral G) (C : nset) (a b : node) (Hsd : shadowed G a b).
  Notation D := (mx_dir G).

  Definition sshortest (n : nat) (v : nat → node) : Prop :=
    swalk G C n v ∧ ∀ m u, m < n → u 0 = v 0 → u m = v n → ¬ swalk G C m u.
  Lemma sshortest_rv n v : sshortest n v → sshortest n (rv n v).
  Proof using.
    intros [Hw Hm]. split; [by apply swalk_rv|]. intros m u Hmn H0 Hmm Hu. apply (Hm m (rv m u)); [done| | |by apply swalk_rv].
    - unfold rv in *. replace (m - 0) with m by lia. rewrite Hmm. f_equal. lia.
    - unfold rv in *. replace (m - m) with 0 by lia. rewrite H0. f_equal. lia.
  Qed.
  (** A shorter walk from position [i] to position [j]. *)
  Lemma no_cut n v i j : sshortest n v → S i < j → j ≤ n → madj G (v i) (v j) →
    (∀ k, i = S k → mcollider G (v k) (v i) (v j) ↔ v i ∈ C) → (j < n → mcollider G (v i) (v j) (v (S j)) ↔ v j ∈ C) → False.
  Proof using.
    intros [Hw Hm] Hij Hjn Ha Hi Hj. apply (Hm (n + S i - j) (cutv i j v)); [lia|by rewrite cutv_le by lia| |].
    - rewrite cutv_gt by lia. f_equal. lia.
    - apply swalk_cut; [done|lia|done|done|done|done].
  Qed.
  Lemma col_inj n v i k : sshortest n v → 0 < i → i < k → k < n → col G v i → col G v k → v i = v k → False.
  Proof using.
    intros Hs Hi Hik Hkn Hci Hck E. destruct i as [|i]; [lia|]. pose proof Hs as [[W1 W2] _].
    apply (no_cut n v i k Hs); [lia|lia|rewrite <-E; apply W1; lia| |].
    - intros k' ->. rewrite <-E. apply W2. lia.
    - intros _. split; [|].
      + intros _. rewrite <-E. apply W2; [lia|done].
      + intros _. split; [|apply Hck]. rewrite <-E. apply Hci.
  Qed.

  Lemma no_turn n v t : sshortest n v → 0 < t → t < n → v t = a → v (pred t) = b → v (S t) = b → False.
  Proof using Hsd.
    intros Hs Ht0 Htn Et Ep Es. destruct t as [|t]; [lia|]. cbn [pred] in *. pose proof Hs as [[W1 W2] Hm]. pose proof (sh_into _ _ _ Hsd) as Hab.
    destruct t as [|t].
    { (* the walk starts at [b] *)
      apply (Hm (n - 2) (λ k, v (k + 2))); [lia|by rewrite Ep|f_equal; lia|]. split; intros i Hi.
      - apply W1. lia.
      - apply (W2 (i + 2)). lia. }
    destruct (decide (S (S (S t)) = n)) as [En|En].
    { (* it ends at [b] *)
      apply (Hm (n - 2) v); [lia|done| |].
      - replace (n - 2) with (S t) by lia. rewrite Ep, <-Es. f_equal. lia.
      - split; intros i Hi; [apply W1; lia|apply W2; lia]. }
    apply (no_cut n v t (S (S (S t))) Hs); [lia|lia|rewrite Es, <-Ep; apply W1; lia| |].
    - intros k ->. rewrite Es, <-Ep. apply W2. lia.
    - intros _. pose proof (W2 t ltac:(lia)) as E1. pose proof (W2 (S (S t)) ltac:(lia)) as E2.
      rewrite Ep, Et in E1. rewrite Et, Es in E2. rewrite Es. unfold mcollider in *. tauto.
  Qed.

  Lemma no_bad_left n v t : sshortest n v → 0 < t → t < n → v t = a → v (S t) = b → ¬ into G (v (pred t)) a.
  Proof using Hsi Hse Han Hsd.
    intros Hs Ht0 Htn Et Es Hin. pose proof Hs as [[W1 W2] _]. pose proof (sh_into _ _ _ Hsd) as Hab.
    assert (v (pred t) ≠ b) as Hnb by (intros E; by apply (no_turn n v t)).
    (* at [b] nothing changes *)
    assert (∀ s, into G (v s) b → S t < n → mcollider G (v s) (v (S t)) (v (S (S t))) ↔ v (S t) ∈ C) as Hb.
    { intros s Hsb Hlt. pose proof (W2 t Hlt) as E. rewrite Et, Es in E. rewrite Es. unfold mcollider in *. tauto. }
    assert ((v (pred t), b) ∈ D ∨ spouse G (v (pred t)) b) as Hpb.
    { destruct Hin as [Hd|Hd]; [left; by apply (sh_par _ _ _ Hsd)|by apply (sh_spo _ _ _ Hsd)]. }
    assert (into G (v (pred t)) b) as Hpb' by (destruct Hpb; [by left|by right]).
    (* along the colliders before [a] that are parents of [b] *)
    assert (∀ s, s < t → into G (v s) b → (∀ k, s < k → k < t → col G v k ∧ (v k, b) ∈ D) → False) as Hgo.
    { induction s as [|s IH]; intros Hst Hib Hq.
      { apply (no_cut n v 0 (S t) Hs); [lia|lia|rewrite Es; by apply into_adj|done|by apply Hb]. }
      destruct (decide (mcollider G (v s) (v (S s)) b ↔ v (S s) ∈ C)) as [Hok|Hbad].
      { apply (no_cut n v (S s) (S t) Hs); [lia|lia|rewrite Es; by apply into_adj| |by apply Hb]. intros k [= <-]. by rewrite Es. }
      pose proof (W2 s ltac:(lia)) as E0.
      assert ((v (S s), b) ∈ D ∧ col G v (S s)) as [HD Hcol].
      { destruct (decide ((v (S s), b) ∈ D)) as [HD|HD].
        - split; [done|]. apply (dir_not_into G Hsi) in HD as Hn. unfold col. cbn [pred]. apply E0. destruct (decide (v (S s) ∈ C)); [done|]. unfold mcollider in *. tauto.
        - exfalso. destruct Hib as [?|Hsp]; [done|]. assert (into G b (v (S s))) as Hbs by (right; by apply spouse_sym).
          assert (¬ into G (v (S (S s))) (v (S s))) as Hnt by (destruct (decide (v (S s) ∈ C)); unfold mcollider in *; tauto).
          destruct (decide (S (S s) = t)) as [E|E].
          + rewrite E, Et in Hnt. replace (pred t) with (S s) in Hin by lia. destruct Hin as [Hd|Hd%spouse_sym]; [by apply HD, (sh_par _ _ _ Hsd)|].
            apply Hnt. by right.
          + destruct (Hq (S (S s))) as ([Hi _] & Hy); [lia..|]. cbn [pred] in Hi.
            destruct Hi as [Hd|Hd%spouse_sym]; [|apply Hnt; by right].
            apply HD. apply (dir_up G Hsi Hse Han _ (v (S (S s)))); [done|done|]. apply into_adj. by right. }
      assert (∀ k, s < k → k < t → col G v k ∧ (v k, b) ∈ D) as Hq'.
      { intros k H1 H2. destruct (decide (k = S s)) as [->|]; [done|]. apply Hq; lia. }
      destruct (madj_dec G (v s) b) as [Ha|Ha].
      { apply IH; [lia| |done]. apply (into_up G Hsi Hse Han _ (v (S s))); [|done|done]. apply Hcol. }
      assert (∀ k, s < k → k < t → v k ∈ C) as HqC.
      { intros k H1 H2. destruct (Hq' k H1 H2) as [Hc _]. destruct k as [|k]; [lia|]. by apply (W2 k); [lia|]. }
      assert (∀ k, s < k → k < t → v k ≠ a) as Hka.
      { intros k H1 H2 E. destruct (Hq' k H1 H2) as [_ Hd]. rewrite E in Hd. pose proof (HqC k H1 H2) as HC. rewrite E in HC.
        destruct t as [|t]; [lia|]. apply (W2 t) in Htn as Hn. rewrite Et, Es in Hn. apply Hn in HC as [_ HC].
        by apply (dir_not_into G Hsi) in Hd. }
      apply (sh_disc _ _ _ Hsd (seg v s t b) (v <$> seq s (t - s))).
      - apply seg_disc; [done|lia| |done|rewrite Et; by apply into_adj|done].
        assert (∀ i j, s ≤ i → i < j → j ≤ t → v i ≠ v j) as Hne.
        { intros i j H1 H2 H3 E. destruct (decide (i = s)) as [->|].
          - apply Ha. rewrite E. destruct (decide (j = t)) as [->|]; [rewrite Et; by apply into_adj|].
            left. apply Hq'; lia.
          - destruct (decide (j = t)) as [->|]; [apply (Hka i); [lia|lia|by rewrite E]|].
            apply (col_inj n v i j Hs); [lia|lia|lia|apply Hq'; lia|apply Hq'; lia|done]. }
        intros i j H1 H2 H3 H4 E. destruct (lt_eq_lt_dec i j) as [[?|?]|?]; [|done|]; exfalso; [apply (Hne i j)|apply (Hne j i)]; (done || lia).
      - unfold seg. replace (S t - s) with (t - s + 1) by lia. rewrite seq_app, fmap_app, <-(assoc_L app). cbn.
        replace (s + (t - s)) with t by lia. by rewrite Et. }
    apply (Hgo (pred t)); [lia|done|]. intros k H1 H2. lia.
  Qed.
End short.

(** ** Changing the mark *)
Record mark_rel (G H : mixed) (a b : node) : Prop := MarkRel {
  mr_adj : ∀ x y, madj G x y ↔ madj H x y;
  mr_into : ∀ x y, (x, y) ≠ (b, a) → into G x y ↔ into H x y;
  mr_dir : ∀ x y, (x, y) ≠ (a, b) → (x, y) ∈ mx_dir G ↔ (x, y) ∈ mx_dir H;
  mr_spo : ∀ x y, (x, y) ≠ (a, b) → (x, y) ≠ (b, a) → spouse G x y ↔ spouse H x y
}.
Lemma mark_rel_sym G H a b : mark_rel G H a b → mark_rel H G a b.
Proof. intros [H1 H2 H3 H4]. split; intros; symmetry; auto. Qed.

Lemma inner_in (p p' : list node) a b u w c r : p ++ [a; b] = p' ++ u :: w :: c :: r → r ≠ [] → w ∈ p.
Proof.
  intros E Hr. destruct r as [|z r] using rev_ind; [done|]. clear IHr Hr.
  assert (p ++ [a] = p' ++ u :: w :: c :: r) as E'.
  { change [a; b] with ([a] ++ [b]) in E. change (u :: w :: c :: r ++ [z]) with ((u :: w :: c :: r) ++ [z]) in E. rewrite !(assoc_L app) in E.
    by apply app_inj_tail in E as [? _]. }
  destruct r as [|y r] using rev_ind; [|clear IHr].
  - change [u; w; c] with ([u; w] ++ [c]) in E'. rewrite (assoc_L app) in E'. apply app_inj_tail in E' as [-> _]. set_solver.
  - change (u :: w :: c :: r ++ [y]) with ((u :: w :: c :: r) ++ [y]) in E'. rewrite (assoc_L app) in E'. apply app_inj_tail in E' as [-> _]. set_solver.
Qed.
Lemma disc_mark G H a b l p : mark_rel G H a b → l = p ++ [a; b] → discriminating H l → discriminating G l.
Proof.
  intros [M1 M2 M3 M4] E (Hnd & Htr & x & q & m & b' & y & El & Hna & Hq).
  assert (b' = a ∧ y = b) as [-> ->].
  { rewrite El in E. change (x :: q :: m ++ [b'; y]) with ((x :: q :: m) ++ [b'] ++ [y]) in E. change [a; b] with ([a] ++ [b]) in E.
    rewrite !(assoc_L app) in E. apply app_inj_tail in E as [E ->]. by apply app_inj_tail in E as [_ ->]. }
  split; [done|]. split.
  { intros p' u w r' El'. apply M1. by eapply Htr. }
  exists x, q, m, a, b. split; [done|]. split; [by rewrite M1|]. intros p' u w c r' E' Hr. destruct (Hq p' u w c r' E' Hr) as [[Hc1 Hc2] Hd].
  assert (w ≠ a ∧ w ≠ b) as [Hwa Hwb].
  { rewrite E in E'. pose proof (inner_in _ _ _ _ _ _ _ _ E' Hr) as Hw. rewrite E in Hnd. apply NoDup_app in Hnd as (_ & Hnd & _).
    split; intros ->; by apply (Hnd _ Hw); clear; set_solver. }
  split; [split; apply M2; [naive_solver|done|naive_solver|done]|]. apply M3; [naive_solver|done].
Qed.
Lemma shadowed_mark G H a b : simple G → simple H → mark_rel G H a b → shadowed G a b → shadowed H a b.
Proof.
  intros Hsi HsiH [M1 M2 M3 M4] [S1 S2 S3 S4].
  assert (a ≠ b) as Hne by (intros ->; apply (simple_irr _ Hsi b); by apply into_adj).
  assert (into H a b) as Hin by (apply M2; [naive_solver|done]).
  split.
  - done.
  - intros c Hc. assert (c ≠ a) by (intros ->; apply (simple_irr _ HsiH a); by left). apply M3; [naive_solver|]. apply S2, M3; [naive_solver|done].
  - intros d Hd Hs. assert (d ≠ a) by (intros ->; apply (simple_irr _ HsiH a), into_adj; by right).
    apply M4 in Hs; [|naive_solver..]. destruct (S3 d Hd Hs) as [?|?]; [left; apply M3; [naive_solver|done]|right; apply M4; [naive_solver..|done]].
  - intros l p Hl E. apply (S4 l p); [|done]. apply (disc_mark G H a b l p); [by split|done|done].
Qed.

Section change.
  Context (G H : mixed) (a b : node) (HsiG : simple G) (HseG : separate G) (HanG : ancestral G).
  Context (HsiH : simple H) (HseH : separate H) (Hmr : mark_rel G H a b) (Hsd : shadowed G a b) (C : nset).

  Lemma short_swalk n v : sshortest G C n v → swalk H C n v.
  Proof using HsiG HseG HanG Hmr Hsd.
    intros Hs. pose proof Hs as [[W1 W2] _]. split.
    - intros i Hi. apply (mr_adj _ _ _ _ Hmr). by apply W1.
    - intros i Hi. rewrite <-W2 by done.
      destruct (decide (v (S i) = a)) as [Ea|Ea].
      2: { unfold mcollider. rewrite !(mr_into _ _ _ _ Hmr) by naive_solver. done. }
      rewrite Ea. destruct (decide (v i = b)) as [Eb|Eb].
      + (* [b, a, x] *)
        assert (v (S (S i)) ≠ b) as Hnb by (intros E; by apply (no_turn G C a b Hsd n v (S i) Hs); [lia|..]).
        assert (¬ into G (v (S (S i))) a) as Hn.
        { pose proof (no_bad_left G HsiG HseG HanG C a b Hsd n (rv n v) (n - S i) (sshortest_rv G C n v Hs)) as Hb. unfold rv in Hb.
          replace (n - pred (n - S i)) with (S (S i)) in Hb by lia. replace (n - (n - S i)) with (S i) in Hb by lia.
          replace (n - S (n - S i)) with i in Hb by lia. apply Hb; (done || lia). }
        unfold mcollider. rewrite <-(mr_into _ _ _ _ Hmr (v (S (S i))) a) by naive_solver. tauto.
      + destruct (decide (v (S (S i)) = b)) as [Eb'|Eb'].
        * pose proof (no_bad_left G HsiG HseG HanG C a b Hsd n v (S i) Hs) as Hb. cbn [pred] in Hb.
          unfold mcollider. rewrite <-(mr_into _ _ _ _ Hmr (v i) a) by naive_solver. split; intros [Hi1 _]; (exfalso; apply Hb; (done || lia)).
        * unfold mcollider. rewrite !(mr_into _ _ _ _ Hmr) by naive_solver. done.
  Qed.
  Lemma mark_sep1 x y : x ∉ C → msepd H {[x]} {[y]} C → msepd G {[x]} {[y]} C.
  Proof using All.
    intros HxC Hs. apply msepd_walk; [done|done|]. intros x' y' l ->%elem_of_singleton ->%elem_of_singleton Hl.
    apply (mwalk_swalk G HsiG) in Hl as (n & v & H0 & Hn & Hw); [|done].
    assert (∀ n v, v 0 = x → v n = y → ¬ swalk G C n v) as Hno; [|by apply (Hno n v)]. clear n v H0 Hn Hw.
    induction n as [n IH] using lt_wf_ind. intros v H0 Hn Hw.
    assert (swalk H C n v) as Hw' by (apply short_swalk; split; [done|]; intros m u Hm E0 En; apply IH; [done|congruence|congruence]).
    apply swalk_fwalk, fwalk_list in Hw'. rewrite H0, Hn in Hw'. rewrite msepd_walk in Hs by done. by apply (Hs x y _) in Hw'; [|by apply elem_of_singleton..].
  Qed.
End change.

Lemma mark_sep G H a b N : simple G → separate G → ancestral G → simple H → separate H → ancestral H → mark_rel G H a b → shadowed G a b →
  same_mseps N G H.
Proof.
  intros HsiG HseG HanG HsiH HseH HanH Hmr Hsd A B C _ _ _ (_ & HAC & _).
  assert (∀ G', simple G' → separate G' → msepd G' A B C ↔ ∀ x y, x ∈ A → y ∈ B → msepd G' {[x]} {[y]} C) as Hone.
  { clear. intros G' Hsi Hse. split.
    - intros H x y Hx Hy a b l ->%elem_of_singleton ->%elem_of_singleton. by apply H.
    - intros H x y l Hx Hy. apply (H x y Hx Hy); by apply elem_of_singleton. }
  rewrite !Hone by done. split; intros Hs x y Hx Hy; (assert (x ∉ C) as HxC by (clear -Hx HAC; set_solver)).
  - apply (mark_sep1 H G a b); [done..|by apply mark_rel_sym|by apply (shadowed_mark G H)|done|by apply Hs].
  - apply (mark_sep1 G H a b); [done..|by apply Hs].
Qed.
