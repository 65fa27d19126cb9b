(** Two graphs with the same adjacencies, unshielded colliders and discriminated colliders
    have the same m-separation statements. *)
From Verif Require Import Py Spec SpecDsep SpecMixed SpecMagMec TopoProofs StateProofs ReachProofs MWalkProofs InduceProofs MagMecProofs MagMecCore.

(** The list [v j, ..., v t, y]. *)
Definition seg (v : nat → node) (j t : nat) (y : node) : list node := (v <$> seq j (S t - j)) ++ [y].
Lemma seg_lookup v j t y i : j ≤ t → i ≤ t - j → seg v j t y !! i = Some (v (j + i)).
Proof.
  intros H1 H2. unfold seg. rewrite lookup_app_l by (rewrite fmap_length, seq_length; lia).
  rewrite list_lookup_fmap, lookup_seq_lt by lia. done.
Qed.
Lemma seg_last v j t y : j ≤ t → seg v j t y !! (S t - j) = Some y.
Proof. intros H. unfold seg. rewrite lookup_app_r by (rewrite fmap_length, seq_length; lia). rewrite fmap_length, seq_length, Nat.sub_diag. done. Qed.
Lemma seg_length v j t y : j ≤ t → length (seg v j t y) = S (S t - j).
Proof. intros H. unfold seg. rewrite app_length, fmap_length, seq_length. cbn. lia. Qed.
Lemma split_lookup {A} (l p : list A) a q i : l = p ++ a :: q → i = length p → l !! i = Some a.
Proof. intros -> ->. apply list_lookup_middle. done. Qed.

Section disc.
  Context (G : mixed) (Hsi : simple G) (Hse : separate G).
  (** A segment of a walk as a discriminating path. *)
  Lemma seg_disc v j t y : S j < t → (∀ a b, j ≤ a → a ≤ t → j ≤ b → b ≤ t → v a = v b → a = b) →
    ¬ madj G (v j) y → madj G (v t) y → (∀ k, j < k → k < t → col G v k ∧ (v k, y) ∈ mx_dir G) →
    discriminating G (seg v j t y).
  Proof using Hsi.
    intros Hjt Hinj Hna Hty Hq.
    assert (∀ k, j ≤ k → k < t → madj G (v k) (v (S k))) as Hadj.
    { intros k H1 H2. destruct (decide (k = j)) as [->|].
      - destruct (Hq (S j)) as ([H _] & _); [lia..|]. cbn [pred] in H. by apply into_adj.
      - destruct (Hq k) as ([_ H] & _); [lia..|]. by apply madj_sym, into_adj. }
    assert (∀ k, j ≤ k → k ≤ t → v k ≠ y) as Hny.
    { intros k H1 H2 <-. destruct (decide (k = t)) as [->|]; [by apply (simple_irr _ Hsi (v t))|].
      destruct (decide (k = j)) as [->|].
      - destruct (Hq (S j)) as ([H _] & H'); [lia..|]. cbn [pred] in H. by apply (dir_not_into G Hsi _ _ H').
      - destruct (Hq k) as [_ H]; [lia..|]. apply (simple_irr _ Hsi (v k)). by left. }
    split; [|split].
    - unfold seg. apply NoDup_app. split_and!.
      + apply NoDup_fmap_2_strong; [|apply NoDup_seq]. intros a b Ha%elem_of_seq Hb%elem_of_seq. apply Hinj; lia.
      + intros z (k & -> & Hk%elem_of_seq)%elem_of_list_fmap Hz%elem_of_list_singleton. apply (Hny k); [lia..|done].
      + apply NoDup_singleton.
    - intros p a b q E. pose proof (split_lookup _ _ _ _ _ E eq_refl) as E1.
      rewrite (cons_middle a), app_assoc in E. pose proof (split_lookup _ _ _ _ _ E eq_refl) as E2.
      assert (length (seg v j t y) = length (p ++ [a]) + S (length q)) as EL by (rewrite E, app_length; done).
      rewrite seg_length, app_length in EL by lia. cbn [length] in EL. rewrite app_length in E2. cbn [length] in E2.
      rewrite seg_lookup in E1 by lia. injection E1 as <-.
      destruct (decide (length p + 1 = S t - j)) as [El|El].
      + rewrite El, seg_last in E2 by lia. injection E2 as <-. by replace (j + length p) with t by lia.
      + rewrite seg_lookup in E2 by lia. injection E2 as <-. replace (j + (length p + 1)) with (S (j + length p)) by lia. apply Hadj; lia.
    - exists (v j), (v (S j)), (v <$> seq (S (S j)) (t - S (S j))), (v t), y. split; [|split; [done|]].
      + unfold seg. replace (S t - j) with (S (S (t - S (S j) + 1))) by lia. cbn [seq fmap list_fmap app]. f_equal. f_equal.
        rewrite seq_app, fmap_app, <-app_assoc. f_equal. cbn [seq fmap list_fmap app]. do 2 f_equal. lia.
      + intros p a b c q E Hq'. destruct q as [|q0 q]; [done|].
        pose proof (split_lookup _ _ _ _ _ E eq_refl) as E1.
        assert (length (seg v j t y) = length (p ++ a :: b :: c :: q0 :: q)) as EL by (by rewrite E).
        rewrite seg_length, app_length in EL by lia. cbn [length] in EL.
        rewrite (cons_middle a), app_assoc in E. pose proof (split_lookup _ _ _ _ _ E eq_refl) as E2.
        rewrite (cons_middle b), app_assoc in E. pose proof (split_lookup _ _ _ _ _ E eq_refl) as E3.
        rewrite !app_length in E2. rewrite !app_length in E3. cbn [length] in E2, E3.
        rewrite seg_lookup in E1, E2, E3 by lia. injection E1 as <-. injection E2 as <-. injection E3 as <-.
        destruct (Hq (j + (length p + 1))) as [H1 H2]; [lia..|]. split; [|done].
        unfold col in H1. replace (pred (j + (length p + 1))) with (j + length p) in H1 by lia.
        by replace (S (j + (length p + 1))) with (j + (length p + 1 + 1)) in H1 by lia.
  Qed.
  Lemma seg_collider v j t y : j < t → discr_collider G (seg v j t y) ↔ mcollider G (v (pred t)) (v t) y.
  Proof using.
    intros Hjt.
    assert (seg v j t y = (v <$> seq j (pred t - j)) ++ [v (pred t); v t; y]) as E.
    { unfold seg. replace (S t - j) with ((pred t - j) + 2) by lia. rewrite seq_app, fmap_app, <-app_assoc. f_equal. cbn [seq fmap list_fmap app]. f_equal; [f_equal; lia|]. f_equal. f_equal. lia. }
    split.
    - intros (p & a & b & z & E' & H). rewrite E in E'. apply app_inj_2 in E' as [_ E']; [|done]. by injection E' as -> -> ->.
    - intros H. by eexists _, _, _, _.
  Qed.
End disc.

(** What the criterion compares. *)
Record agree (G H : mixed) : Prop := Agree {
  ag_adj : ∀ x y, madj G x y ↔ madj H x y;
  ag_vs : ∀ x z y, mvstruct G x z y ↔ mvstruct H x z y;
  ag_disc : ∀ l, discriminating G l → discriminating H l → discr_collider G l ↔ discr_collider H l
}.
Lemma agree_sym G H : agree G H → agree H G.
Proof. intros [H1 H2 H3]. split; intros; symmetry; auto. Qed.

Fixpoint hsum (n : nat) (h : nat → nat) : nat := match n with 0 => 0 | S n => h n + hsum n h end.
Lemma hsum_lt n h h' i : i < n → h' i < h i → (∀ k, k ≠ i → h' k = h k) → hsum n h' < hsum n h.
Proof.
  intros Hi Hlt Heq.
  assert (∀ n, n ≤ i → hsum n h' = hsum n h) as Hle.
  { clear Hi. induction n0 as [|m IH]; intros Hm; [done|]. cbn. rewrite (Heq m) by lia. rewrite IH; lia. }
  induction n as [|n IH]; [lia|]. cbn. destruct (decide (i = n)) as [->|].
  - rewrite (Hle n) by done. lia.
  - rewrite (Heq n) by done. specialize (IH ltac:(lia)). lia.
Qed.

Section two.
  Context (G H : mixed) (HsiG : simple G) (HseG : separate G) (HanG : ancestral G)
    (HsiH : simple H) (HseH : separate H) (HanH : ancestral H) (Hag : agree G H)
    (Hmax : ∀ x y, x ≠ y → binduced G x y → madj G x y) (C : nset).
  Notation D := (mx_dir G).

  Definition same_at (v : nat → node) (k : nat) : Prop := col G v k ↔ col H v k.

  Lemma unshielded a b c : a ≠ c → ¬ madj G a c → mcollider G a b c ↔ mcollider H a b c.
  Proof using Hag.
    intros Hne Hna. pose proof (ag_vs _ _ Hag a b c) as E. unfold mvstruct in E.
    assert (¬ madj H a c) by (by rewrite <-(ag_adj _ _ Hag)). tauto.
  Qed.

  (** A discriminating segment of [G] whose colliders are colliders of [H] is one of [H]. *)
  Lemma transfer v j t y : dl G C v j t y → (∀ a b, j ≤ a → a ≤ t → j ≤ b → b ≤ t → v a = v b → a = b) →
    madj G (v t) y → (∀ k, j < k → k < t → same_at v k) →
    mcollider G (v (pred t)) (v t) y ↔ mcollider H (v (pred t)) (v t) y.
  Proof using HsiG HseG HsiH HseH Hag.
    intros (Hjt & Hna & Hq) Hinj Hty Hs.
    assert (∀ k, j < k → k < t → (v k, y) ∈ mx_dir H) as Hpar.
    { assert (∀ d, S (j + d) < t → ∀ k, j < k → k ≤ S (j + d) → (v k, y) ∈ mx_dir H) as Hgo.
      { induction d as [|d IH]; intros Hd k Hk1 Hk2.
        - assert (k = S j) as -> by lia. destruct (Hq (S j)) as (Hc & Hy & _); [lia..|].
          pose proof (proj1 (Hs (S j) ltac:(lia) ltac:(lia)) Hc) as [Hi _]. cbn [pred] in Hi.
          apply (tail_of H HseH (v j)); [done|apply (ag_adj _ _ Hag), dir_adj, Hy|].
          intros Hyi. destruct Hc as [Hc _]. cbn [pred] in Hc.
          assert (v j ≠ y) as Hne by (intros E; rewrite E in Hc; by apply (dir_not_into G HsiG _ _ Hy)).
          destruct (proj2 (unshielded (v j) (v (S j)) y Hne Hna)) as [_ Hbad]; [done|]. by apply (dir_not_into G HsiG _ _ Hy).
        - destruct (decide (k ≤ S (j + d))) as [Hle|Hgt]; [apply IH; lia|].
          assert (k = S (S (j + d))) as -> by lia. clear Hgt Hk2. set (k := S (S (j + d))) in *.
          destruct (Hq k) as (Hc & Hy & _); [lia..|].
          pose proof (proj1 (Hs k ltac:(lia) ltac:(lia)) Hc) as [Hi _].
          apply (tail_of H HseH (v (pred k))); [done|apply (ag_adj _ _ Hag), dir_adj, Hy|]. intros Hyi.
          assert (discr_collider G (seg v j k y)) as Hbad.
          { apply (ag_disc _ _ Hag).
            - apply seg_disc; [done|lia|intros; apply Hinj; lia|done|by apply dir_adj|]. intros u Hu1 Hu2. destruct (Hq u) as (? & ? & _); [lia..|done].
            - apply seg_disc; [done|lia|intros; apply Hinj; lia|by rewrite <-(ag_adj _ _ Hag)|by apply (ag_adj _ _ Hag), dir_adj|].
              intros u Hu1 Hu2. split; [apply Hs; [lia..|apply Hq; lia]|apply IH; lia].
            - apply seg_collider; [lia|]. done. }
          apply seg_collider in Hbad as [_ Hbad]; [|lia]. by apply (dir_not_into G HsiG _ _ Hy). }
      intros k Hk1 Hk2. apply (Hgo (k - S j)); lia. }
    rewrite <-!(seg_collider _ v j t y) by lia. apply (ag_disc _ _ Hag).
    - apply seg_disc; [done..|]. intros u Hu1 Hu2. by destruct (Hq u) as (? & ? & _).
    - apply seg_disc; [done|done|done|by rewrite <-(ag_adj _ _ Hag)|by apply (ag_adj _ _ Hag)|]. intros u Hu1 Hu2. split; [|by apply Hpar].
      apply Hs; [done..|]. by apply Hq.
  Qed.

  (** ** Along a shortest walk the colliders are the same. *)
  Section walk.
    Context (n : nat) (v : nat → node) (Hsh : shortest G C n v).

    Lemma inj_at a b : a ≤ n → b ≤ n → v a = v b → a = b.
    Proof using HsiG HseG Hsh. by apply (shortest_inj G HsiG HseG C). Qed.
    Lemma transfer_l j t y : dl G C v j t y → t ≤ n → madj G (v t) y → (∀ k, j < k → k < t → same_at v k) →
      mcollider G (v (pred t)) (v t) y ↔ mcollider H (v (pred t)) (v t) y.
    Proof using HsiG HseG HsiH HseH Hag Hsh.
      intros Hd Ht. apply (transfer v j t y Hd). intros a b ????. apply inj_at; lia.
    Qed.
    Lemma transfer_r t m y : dr G C v t m y → 0 < t → m ≤ n → madj G (v t) y → (∀ k, t < k → k < m → same_at v k) →
      mcollider G (v (S t)) (v t) y ↔ mcollider H (v (S t)) (v t) y.
    Proof using HsiG HseG HsiH HseH Hag Hsh.
      intros Hd Ht Hm Hty Hs. pose proof Hd as (Htm & _). pose proof (dr_rv G C n v m t y Hm Hd) as Hl.
      apply (transfer (rv n v) (n - m) (n - t) y) in Hl.
      - unfold rv in Hl. replace (n - pred (n - t)) with (S t) in Hl by lia. by replace (n - (n - t)) with t in Hl by lia.
      - intros a b ???? E. unfold rv in E. apply inj_at in E; lia.
      - unfold rv. by replace (n - (n - t)) with t by lia.
      - intros k Hk1 Hk2. unfold same_at. rewrite !col_rv by lia. apply Hs; lia.
    Qed.

    Lemma same_unshielded t : 0 < t → t < n → ¬ madj G (v (pred t)) (v (S t)) → same_at v t.
    Proof using HsiG HseG Hag Hsh. intros H1 H2 Hna. apply unshielded; [|done]. intros E%inj_at; lia. Qed.
    Lemma adj_at k : k < n → madj G (v k) (v (S k)).
    Proof using Hsh. apply Hsh. Qed.

    Lemma same_L t j : t < n → dl G C v j t (v (S t)) → same_at v t.
    Proof using All.
      revert j. induction (lt_wf t) as [t _ IH]. intros j Ht Hd. pose proof Hd as (Hjt & _).
      assert (∀ d k, t - k ≤ d → j < k → k < t → same_at v k) as Hin.
      { induction d as [|d IHd]; intros k Hkd Hk1 Hk2; [lia|].
        destruct (madj_dec G (v (pred k)) (v (S k))) as [Ha|Ha]; [|apply same_unshielded; [lia|lia|done]].
        destruct (shielded G HsiG HseG HanG C n v k) as [(j' & Hj')|(m & Hm & Hr)]; [done|lia|lia|done| |].
        - apply (IH k Hk2 j'); [lia|done].
        - assert (m ≤ t) as Hmt.
          { destruct (decide (m ≤ t)) as [|Hgt]; [done|]. exfalso. apply (no_cross G HsiG HseG HanG C n v j k t m); try done; lia. }
          unfold same_at, col. rewrite !(mcollider_sym _ (v (pred k))). apply (transfer_r k m); [done|lia|lia| |].
          + apply madj_sym. replace k with (S (pred k)) at 2 by lia. apply adj_at. lia.
          + intros u Hu1 Hu2. apply IHd; lia. }
      apply (transfer_l j t); [done|lia|by apply adj_at|]. intros k Hk1 Hk2. by apply (Hin (t - k)).
    Qed.
    Lemma same_all t : 0 < t → t < n → same_at v t.
    Proof using All.
      remember (n - t) as d eqn:Ed. revert t Ed. induction (lt_wf d) as [d _ IH]. intros t -> Ht0 Ht.
      destruct (madj_dec G (v (pred t)) (v (S t))) as [Ha|Ha]; [|by apply same_unshielded].
      destruct (shielded G HsiG HseG HanG C n v t) as [(j & Hj)|(m & Hm & Hr)]; [done..| |].
      - by apply (same_L t j).
      - unfold same_at, col. rewrite !(mcollider_sym _ (v (pred t))). apply (transfer_r t m); [done|lia|lia| |].
        + apply madj_sym. replace t with (S (pred t)) at 2 by lia. apply adj_at. lia.
        + intros u Hu1 Hu2. apply (IH (n - u)); lia.
    Qed.

    (** ** The child of a collider on the way to [C] *)
    Lemma left_end i y : 0 < i → i < n → col G v i → (v i, y) ∈ D → opened D C (v i) → madj G (v (pred i)) y →
      (∃ j, dl G C v j i y) ∨ ∃ s, s < i ∧ into G (v s) y ∧ ∀ k, s = S k → mactive_at G C (v k) (v s) y.
    Proof using HsiG HseG HanG Hsh.
      intros Hi0 Hin Hc Hy Ho Ha. destruct i as [|i]; [lia|]. cbn [pred] in *. pose proof Hsh as [[Hw1 Hw2] _].
      assert (into G (v i) y) as Hiy by (apply (into_up G HsiG HseG HanG _ (v (S i))); [apply Hc|done|done]).
      destruct i as [|i]; [right; exists 0; split; [lia|done]|].
      destruct (status G HsiG HseG HanG C (v i) (v (S i)) (v (S (S i))) y) as [Hok|(B1 & B2 & B3)]; [apply Hw2; lia|apply Hw1; lia|done| | |].
      - intros Hd _ _. eapply opened_up; [by apply rtc_once|done].
      - right. exists (S i). split; [lia|]. split; [done|]. by intros k [= <-].
      - destruct (left_ext G HsiG HseG HanG C n v (S (S i)) y) as [Hd|(s & E1 & E2 & E3)]; [done|lia|lia|done|done|done|by left|].
        right. exists s. split; [lia|done].
    Qed.
  End walk.

  Lemma right_end n v i y : shortest G C n v → 0 < i → i < n → col G v i → (v i, y) ∈ D → opened D C (v i) → madj G (v (S i)) y →
    (∃ m, m ≤ n ∧ dr G C v i m y) ∨ ∃ s, i < s ∧ s ≤ n ∧ into G (v s) y ∧ (s < n → mactive_at G C y (v s) (v (S s))).
  Proof using HsiG HseG HanG.
    intros Hsh Hi0 Hin Hc Hy Ho Ha.
    destruct (left_end n (rv n v) (shortest_rv G C n v Hsh) (n - i) y) as [(j & Hj)|(s & E1 & E2 & E3)]; [lia|lia| | | | | |].
    - rewrite col_rv by lia. by replace (n - (n - i)) with i by lia.
    - unfold rv. by replace (n - (n - i)) with i by lia.
    - unfold rv. by replace (n - (n - i)) with i by lia.
    - unfold rv. by replace (n - pred (n - i)) with (S i) by lia.
    - left. exists (n - j). split; [lia|]. apply dl_rv; [lia|done].
    - right. exists (n - s). split; [lia|]. split; [lia|]. split; [done|]. intros Hs. apply mactive_at_sym.
      specialize (E3 (pred s) ltac:(lia)). unfold rv in E3. by replace (n - pred s) with (S (n - s)) in E3 by lia.
  Qed.

  (** Following a shortest directed path to [C]. *)
  Lemma descend_H m a b z : (a, b) ∈ D → (a, b) ∈ mx_dir H → nsteps (edge D) m b z → z ∈ C →
    (∀ m' z', m' < S m → z' ∈ C → ¬ nsteps (edge D) m' a z') → opened (mx_dir H) C b.
  Proof using HsiG HseG HanG HsiH HseH Hag.
    revert a b. induction m as [|m IH]; intros a b Hab Hab' Hn Hz Hmin.
    - inversion Hn. subst. exists z. split; [done|apply rtc_refl].
    - inversion Hn as [|? ? e ? Hbe Hn']. subst.
      assert (¬ madj G a e) as Hna.
      { intros Ha. apply (Hmin (S m) z); [lia|done|]. econstructor; [|exact Hn']. by apply (dir_up G HsiG HseG HanG a b e). }
      assert (a ≠ e) as Hne.
      { intros ->. by destruct (simple_dir _ HsiG _ _ Hab). }
      assert ((b, e) ∈ mx_dir H) as Hbe'.
      { apply (tail_of H HseH a); [by left|apply (ag_adj _ _ Hag), dir_adj, Hbe|]. intros Hi.
        destruct (proj2 (unshielded a b e Hne Hna)) as [_ Hbad]; [split; [by left|done]|]. by apply (dir_not_into G HsiG _ _ Hbe). }
      eapply opened_up; [by apply rtc_once|]. apply (IH b e); [done..|].
      intros m' z' Hm' Hz' Hn''. apply (Hmin (S m') z'); [lia|done|]. econstructor; [exact Hab|exact Hn''].
  Qed.

  (** [h k] bounds the distance of the collider at position [k] to [C]. *)
  Definition heights (n : nat) (v : nat → node) (h : nat → nat) : Prop :=
    ∀ k, 0 < k → k < n → col G v k → ∃ z, z ∈ C ∧ nsteps (edge D) (h k) (v k) z.

  Lemma collider_child n v h i y :
    shortest G C n v → heights n v h →
    (∀ u h', u 0 = v 0 → u n = v n → fwalk G C n u → heights n u h' → ¬ hsum n h' < hsum n h) →
    0 < i → i < n → col G v i → (v i, y) ∈ D → h i ≠ 0 → (∃ z, z ∈ C ∧ nsteps (edge D) (pred (h i)) y z) →
    (v i, y) ∈ mx_dir H.
  Proof using All.
    intros Hsh Hh Hmin Hi0 Hin Hc Hy Hhi Hz.
    assert (opened D C y) as Hoy.
    { destruct Hz as (z & Hz & Hn). exists z. split; [done|]. by eapply rtc_nsteps_2. }
    assert (opened D C (v i)) as Hoi by (eapply opened_up; [by apply rtc_once|done]).
    pose proof (proj1 (same_all n v Hsh i Hi0 Hin) Hc) as [HiL HiR].
    assert (madj H (v i) y) as HaH by (apply (ag_adj _ _ Hag), dir_adj, Hy).
    assert (∀ a, into G a (v i) → into H a (v i) → (mcollider G a (v i) y ↔ mcollider H a (v i) y) → (v i, y) ∈ mx_dir H) as Hfin.
    { intros a Ha Ha' E. apply (tail_of H HseH a); [done|done|]. intros Hyi. destruct (proj2 E) as [_ Hbad]; [done|]. by apply (dir_not_into G HsiG _ _ Hy). }
    assert (∀ a, into G a (v i) → a ≠ y) as Hne by (intros a Ha ->; by apply (dir_not_into G HsiG _ _ Hy)).
    destruct (madj_dec G (v (pred i)) y) as [HaL|HaL].
    2: { apply (Hfin (v (pred i))); [apply Hc|done|]. apply unshielded; [apply Hne, Hc|done]. }
    destruct (madj_dec G (v (S i)) y) as [HaR|HaR].
    2: { apply (Hfin (v (S i))); [apply Hc|done|]. apply unshielded; [apply Hne, Hc|done]. }
    destruct (left_end n v Hsh i y) as [(j & Hj)|(s & S1 & S2 & S3)]; [done..| |].
    { apply (Hfin (v (pred i))); [apply Hc|done|]. apply (transfer_l n v Hsh j i y); [done|lia|by apply dir_adj|].
      intros k Hk1 Hk2. apply (same_all n v Hsh); lia. }
    destruct (right_end n v i y) as [(m & Hm & Hd)|(r & R0 & R1 & R2 & R3)]; [done..| |].
    { apply (Hfin (v (S i))); [apply Hc|done|]. apply (transfer_r n v Hsh i m y); [done|lia|lia|by apply dir_adj|].
      intros k Hk1 Hk2. apply (same_all n v Hsh); lia. }
    exfalso.
    assert (fwalk G C (n + S (S s) - r) (viav s r y v)) as Hw.
    { apply fwalk_via; [apply Hsh|lia|lia|by apply into_adj|by apply madj_sym, into_adj| |done|done].
      split; [done|]. intros Hn. by destruct Hn. }
    assert (viav s r y v 0 = v 0) as E0 by by rewrite viav_le by lia.
    assert (viav s r y v (n + S (S s) - r) = v n) as En by (rewrite viav_gt by lia; f_equal; lia).
    destruct (decide (r = S (S s))) as [->|Hr].
    2: { apply (proj2 Hsh (n + S (S s) - r) (viav s r y v)); [lia|done|done|done]. }
    assert (i = S s) as -> by lia. replace (n + S (S s) - S (S s)) with n in * by lia.
    set (h' := λ k, if decide (k = S s) then pred (h k) else h k).
    apply (Hmin (viav s (S (S s)) y v) h'); [done|done|done| |].
    - assert (∀ k, k ≠ S s → viav s (S (S s)) y v k = v k) as Hv.
      { intros k Hk. destruct (decide (k ≤ s)); [by rewrite viav_le|]. rewrite viav_gt by lia. f_equal. lia. }
      intros k Hk0 Hkn Hck. unfold h'. destruct (decide (k = S s)) as [->|Hks].
      { rewrite viav_at by done. done. }
      rewrite Hv by done. apply Hh; [done|done|].
      unfold col in *. rewrite (Hv k) in Hck by done. destruct Hck as [C1 C2].
      assert (∀ b, into G y b → madj G (v (S s)) b → into G (v (S s)) b) as Hkeep.
      { intros b Hb Hsb. destruct (decide (into G (v (S s)) b)) as [|Hn]; [done|]. exfalso.
        assert ((b, v (S s)) ∈ D) as Hd by (apply (tail_of G HseG y); [done|by apply madj_sym|done]).
        apply (into_not_anc G HsiG HanG _ _ Hb). eapply rtc_l; [exact Hd|]. by apply rtc_once. }
      split.
      + destruct (decide (pred k = S s)) as [E|E]; [|by rewrite Hv in C1].
        rewrite E in *. rewrite viav_at in C1 by done. apply Hkeep; [done|]. replace k with (S (pred k)) by lia. rewrite E. apply (adj_at n v Hsh). lia.
      + destruct (decide (S k = S s)) as [E|E]; [|by rewrite Hv in C2].
        rewrite E in *. rewrite viav_at in C2 by done. apply Hkeep; [done|]. apply madj_sym. injection E as ->. apply (adj_at n v Hsh). lia.
    - apply (hsum_lt n h h' (S s)); [lia| |].
      + unfold h'. rewrite decide_True by done. lia.
      + intros k Hk. unfold h'. by rewrite decide_False.
  Qed.

  (** ** The shortest walk in [H] *)
  Lemma walk_H n v h : shortest G C n v → heights n v h →
    (∀ u h', u 0 = v 0 → u n = v n → fwalk G C n u → heights n u h' → ¬ hsum n h' < hsum n h) → fwalk H C n v.
  Proof using All.
    intros Hsh Hh Hmin. split.
    - intros i Hi. apply (ag_adj _ _ Hag). by apply (adj_at n v Hsh).
    - intros i Hi. pose proof (same_all n v Hsh (S i) ltac:(lia) Hi) as E. unfold same_at, col in E. cbn [pred] in E.
      destruct (proj2 (proj1 Hsh) i Hi) as [A1 A2]. split.
      + intros Hc. apply E in Hc. destruct (Hh (S i)) as (z & Hz & Hn); [lia|done|done|].
        destruct (h (S i)) as [|m] eqn:Eh.
        { inversion Hn. subst. by apply opened_in. }
        inversion Hn as [|? ? y ? Hy Hn']. subst.
        assert ((v (S i), y) ∈ mx_dir H) as Hy'.
        { apply (collider_child n v h (S i) y Hsh Hh Hmin); [lia|done|done|done|lia|]. exists z. rewrite Eh. done. }
        eapply opened_up; [by apply rtc_once|]. apply (descend_H m (v (S i)) y z); [done..|].
        intros m' z' Hm' Hz' Hn''.
        apply (Hmin v (λ k, if decide (k = S i) then m' else h k)); [done|done|apply Hsh| |].
        * intros k Hk0 Hkn Hck. case_decide; [subst; by exists z'|by apply Hh].
        * apply (hsum_lt n h _ (S i)); [lia|rewrite decide_True by done; lia|]. intros k Hk. by rewrite decide_False.
      + intros Hn. apply A2. by rewrite E.
  Qed.

  Lemma finite_choice (Q : nat → nat → Prop) n : (∀ k, k < n → ∃ m, Q k m) → ∃ h, ∀ k, k < n → Q k (h k).
  Proof using.
    induction n as [|n IH]; intros HQ; [by exists (λ _, 0); intros; lia|].
    destruct IH as (h & Hh); [intros; apply HQ; lia|]. destruct (HQ n) as (m & Hm); [lia|].
    exists (λ k, if decide (k = n) then m else h k). intros k Hk. case_decide; [by subst|]. apply Hh. lia.
  Qed.
  Lemma heights_exist n v : fwalk G C n v → ∃ h, heights n v h.
  Proof using.
    intros [_ Hw]. destruct (finite_choice (λ k m, 0 < k → col G v k → ∃ z, z ∈ C ∧ nsteps (edge D) m (v k) z) n) as (h & Hh).
    - intros k Hk. destruct k as [|k]; [exists 0; lia|].
      destruct (decide (into G (v k) (v (S k)) ∧ into G (v (S (S k))) (v (S k)))) as [Hc|Hc].
      + destruct (decide (S k < n)); [|lia]. destruct (Hw k) as [Ha _]; [done|]. destruct (Ha Hc) as (z & Hz & Hr).
        apply rtc_nsteps in Hr as (m & Hm). exists m. intros _ _. by exists z.
      + exists 0. intros _ Hc'. by destruct Hc.
    - exists h. intros k Hk1 Hk2. by apply Hh.
  Qed.

  Lemma no_walk x y : (∀ n v, v 0 = x → v n = y → ¬ fwalk H C n v) → ∀ n v, v 0 = x → v n = y → ¬ fwalk G C n v.
  Proof using All.
    intros HH n. induction (lt_wf n) as [n _ IH]. intros v Hx Hy Hw.
    assert (shortest G C n v) as Hsh.
    { split; [done|]. intros m u Hm Hu0 Hum. apply (IH m Hm u); congruence. }
    destruct (heights_exist n v Hw) as (h & Hh). remember (hsum n h) as s eqn:Es. revert v h Hx Hy Hw Hsh Hh Es.
    induction (lt_wf s) as [s _ IHs]. intros v h Hx Hy Hw Hsh Hh ->.
    apply (HH n v Hx Hy). apply (walk_H n v h Hsh Hh). intros u h' Hu0 Hun Hu Hh' Hlt.
    apply (IHs _ Hlt u h'); [congruence|congruence|done| |done|done].
    split; [done|]. intros m w Hm Hw0 Hwm. apply (IH m Hm w); congruence.
  Qed.
  Lemma msepd_agree A B : msepd H A B C → msepd G A B C.
  Proof using All.
    intros Hs. apply msepd_walk; [done..|]. intros a b l Ha Hb Hl. apply list_fwalk in Hl as (v & H1 & H2 & H3 & _).
    revert H3. apply (no_walk a b); [|done|done]. intros n u H4 H5 Hu%fwalk_list. rewrite H4, H5 in Hu.
    rewrite msepd_walk in Hs by done. by apply (Hs a b _ Ha Hb Hu).
  Qed.
End two.
