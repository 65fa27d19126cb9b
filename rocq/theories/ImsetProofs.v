(** [DAG.resolved_sinks] and [DAG.get_standard_imset]. *)
From Verif Require Import Py Spec SpecDsep SpecMec SpecEnum DagModel EnumModel TopoProofs StateProofs QueryProofs MarkovProofs ProtProofs EquivProofs.

(** ** Resolved sinks *)
Section resolved.
  Context (d1 d2 : dag) (H1 : wf d1) (H2 : wf d2).

  Lemma is_resolved_sink_true n R : is_resolved_sink d1 d2 n R = true ↔
    (∀ c, (n, c) ∈ d_arcs d1 → c ∈ R) ∧ (∀ c, (n, c) ∈ d_arcs d2 → c ∈ R) ∧ (∀ p, (p, n) ∈ d_arcs d1 ↔ (p, n) ∈ d_arcs d2).
  Proof.
    unfold is_resolved_sink. rewrite !andb_true_iff, !bool_decide_eq_true.
    assert (∀ d, wf d → children d n ∖ R = ∅ ↔ ∀ c, (n, c) ∈ d_arcs d → c ∈ R) as Hc.
    { intros d Hwf. setoid_rewrite <-(wf_chi d Hwf). split.
      - intros He c Hc. destruct (decide (c ∈ R)); [done|]. exfalso. assert (c ∈ children d n ∖ R) as Hx by set_solver. rewrite He in Hx. set_solver.
      - intros H. apply set_eq. intros c. set_solver. }
    assert (parents d1 n = parents d2 n ↔ ∀ p, (p, n) ∈ d_arcs d1 ↔ (p, n) ∈ d_arcs d2) as ->.
    { setoid_rewrite <-(wf_par d1 H1). setoid_rewrite <-(wf_par d2 H2). split; [by intros ->|]. intros H. by apply set_eq. }
    rewrite (Hc d1), (Hc d2) by done. tauto.
  Qed.

  Lemma resolved_loop_spec fuel R : size (d_nodes d1 ∖ R) < fuel → common_sinks (d_nodes d1) (d_arcs d1) (d_arcs d2) R →
    ∃ R', resolved_loop d1 d2 fuel R = Ok R' ∧ common_sinks (d_nodes d1) (d_arcs d1) (d_arcs d2) R' ∧
      ∀ n, n ∈ d_nodes d1 → n ∉ R' → is_resolved_sink d1 d2 n R' = false.
  Proof.
    revert R. induction fuel as [|fuel IH]; intros R Hsz HR; [lia|]. cbn [resolved_loop].
    set (new := filter _ _). destruct (decide (new = ∅)) as [Hn|Hn].
    - exists R. split; [done|]. split; [done|]. intros n Hin Hnot. destruct (is_resolved_sink d1 d2 n R) eqn:Hs; [|done]. exfalso.
      assert (n ∈ new) as Hx; [|rewrite Hn in Hx; set_solver]. apply elem_of_filter. split; [done|]. set_solver.
    - assert (∀ n, n ∈ new ↔ n ∈ d_nodes d1 ∧ n ∉ R ∧ is_resolved_sink d1 d2 n R = true) as Hnew.
      { intros n. unfold new. rewrite elem_of_filter, elem_of_difference. tauto. }
      apply IH.
      + assert (size (d_nodes d1 ∖ (R ∪ new)) < size (d_nodes d1 ∖ R)) as Hlt; [|lia].
        apply subset_size. split; [set_solver|]. intros Hsub. apply set_choose_L in Hn as [n Hx]. apply Hnew in Hx as Hx'.
        assert (n ∈ d_nodes d1 ∖ (R ∪ new)) as Hy; [|set_solver]. apply Hsub. set_solver.
      + destruct HR as [HR1 HR2]. split.
        * intros n. rewrite elem_of_union, Hnew. naive_solver.
        * intros n. rewrite elem_of_union, Hnew. intros [Hin|(_ & _ & Hs)].
          -- destruct (HR2 n Hin) as (? & ? & ?). split_and!; [set_solver|set_solver|done].
          -- apply is_resolved_sink_true in Hs as (? & ? & ?). split_and!; [set_solver|set_solver|done].
  Qed.

  Lemma resolved_sinks_spec : acyclic (d_arcs d1) →
    ∃ R, resolved_sinks d1 d2 = Ok R ∧ common_sinks (d_nodes d1) (d_arcs d1) (d_arcs d2) R ∧
      ∀ X, common_sinks (d_nodes d1) (d_arcs d1) (d_arcs d2) X → X ⊆ R.
  Proof.
    intros Hac. destruct (resolved_loop_spec (S (size (d_nodes d1))) ∅) as (R & HR & Hc & Hmax).
    { assert (d_nodes d1 ∖ ∅ = d_nodes d1) as -> by set_solver. lia. }
    { split; set_solver. }
    exists R. split; [done|]. split; [done|]. intros X [HX1 HX2].
    destruct (acyclic_pos _ Hac) as [pos Hpos].
    destruct (decide (X ∖ R = ∅)) as [He|Hne]; [set_solver|]. exfalso.
    assert (∃ n, n ∈ X ∖ R ∧ ∀ m, m ∈ X ∖ R → pos m ≤ pos n) as (n & Hn & Hlast).
    { clear -Hne. revert Hne. induction (X ∖ R) as [|a Y Ha IH] using set_ind_L; [done|]. intros _.
      destruct (decide (Y = ∅)) as [->|HY]; [exists a; set_solver|]. destruct (IH HY) as (n & Hn & Hm).
      destruct (decide (pos a ≤ pos n)).
      - exists n. split; [set_solver|]. intros m. rewrite elem_of_union, elem_of_singleton. intros [->|?]; [done|auto].
      - exists a. split; [set_solver|]. intros m. rewrite elem_of_union, elem_of_singleton. intros [->|Hm']; [done|]. apply Hm in Hm'. lia. }
    apply elem_of_difference in Hn as [HnX HnR]. destruct (HX2 n HnX) as (C1 & C2 & C3).
    assert (∀ c, (n, c) ∈ d_arcs d1 → c ∈ R) as D1.
    { intros c Hnc. destruct (decide (c ∈ R)); [done|]. pose proof (Hpos _ _ Hnc). pose proof (C1 c Hnc).
      assert (pos c ≤ pos n); [|lia]. apply Hlast. set_solver. }
    assert (is_resolved_sink d1 d2 n R = true) as Ht.
    { apply is_resolved_sink_true. split_and!; [done| |done]. intros c Hnc. apply D1. destruct (HX2 c (C2 c Hnc)) as (_ & _ & Hp). by apply Hp. }
    rewrite Hmax in Ht; [done|set_solver|done].
  Qed.
End resolved.

(** ** Standard imsets *)
Lemma elem_of_pa_set E n x : x ∈ pa_set E n ↔ (x, n) ∈ E.
Proof.
  unfold pa_set. rewrite elem_of_map. split.
  - intros ([a b] & -> & H). apply elem_of_filter in H as [H1 H2]. cbn in *. by subst.
  - intros H. exists (x, n). split; [done|]. by apply elem_of_filter.
Qed.
Lemma parents_pa_set d n : wf d → parents d n = pa_set (d_arcs d) n.
Proof. intros Hwf. apply set_eq. intros x. by rewrite (wf_par d Hwf), elem_of_pa_set. Qed.

Definition ind (P : Prop) {H : Decision P} : Z := if decide P then 1%Z else 0%Z.
Definition contrib (E : arcset) (S : nset) (n : node) : Z := (ind (pa_set E n ∪ {[n]} = S) - ind (pa_set E n = S))%Z.
Definition zsum {A} (f : A → Z) (l : list A) : Z := foldr (λ a z, (f a + z)%Z) 0%Z l.

Lemma zsum_cons {A} (f : A → Z) a l : zsum f (a :: l) = (f a + zsum f l)%Z.
Proof. done. Qed.
Lemma zsum_perm {A} (f : A → Z) l l' : l ≡ₚ l' → zsum f l = zsum f l'.
Proof. unfold zsum. induction 1; cbn; lia. Qed.
Lemma zsum_ext {A} (f f' : A → Z) l : (∀ a, a ∈ l → f a = f' a) → zsum f l = zsum f' l.
Proof.
  unfold zsum. induction l as [|a l IH]; intros H; cbn; [done|]. rewrite (H a) by left. f_equal. apply IH. intros b Hb. apply H. by right.
Qed.
Lemma zsum_ind (P : node → Prop) `{∀ a, Decision (P a)} (N : nset) :
  zsum (λ a, ind (P a)) (elements N) = Z.of_nat (size (filter P N)).
Proof.
  induction N as [|a N Ha IH] using set_ind_L.
  - assert (filter P (∅ : nset) = ∅) as -> by (apply set_eq; intros x; rewrite elem_of_filter; set_solver). reflexivity.
  - rewrite (zsum_perm _ _ _ (elements_union_singleton N a Ha)). unfold zsum in *. cbn [foldr]. rewrite IH. unfold ind. case_decide.
    + assert (filter P ({[a]} ∪ N) = {[a]} ∪ filter P N) as ->.
      { apply set_eq. intros x. rewrite elem_of_union, !elem_of_filter, elem_of_union, elem_of_singleton. naive_solver. }
      rewrite size_union by (intros x; rewrite elem_of_filter, elem_of_singleton; naive_solver). rewrite size_singleton. lia.
    + assert (filter P ({[a]} ∪ N) = filter P N) as ->; [|lia].
      apply set_eq. intros x. rewrite !elem_of_filter, elem_of_union, elem_of_singleton. naive_solver.
Qed.
Lemma zsum_sub {A} (f f' : A → Z) l : zsum (λ a, f a - f' a)%Z l = (zsum f l - zsum f' l)%Z.
Proof. unfold zsum. induction l as [|a l IH]; cbn; [done|]. rewrite IH. lia. Qed.

Lemma imset_value_sum N E S : imset_value N E S = zsum (contrib E S) (elements N).
Proof. unfold imset_value, contrib. rewrite zsum_sub. by rewrite !zsum_ind. Qed.

Lemma bump_lookup S S' k m : default 0%Z (bump S k m !! S') = (default 0 (m !! S') + (if decide (S = S') then k else 0))%Z.
Proof.
  unfold bump. case_decide as Hd; [subst; by rewrite lookup_insert|]. rewrite lookup_insert_ne by done. lia.
Qed.

Lemma imset_counts_lookup d o I S : wf d → default 0%Z (imset_counts d o I !! S) = imset_value (d_nodes d ∖ I) (d_arcs d) S.
Proof.
  intros Hwf. rewrite imset_value_sum, <-(zsum_perm _ _ _ (on_perm o [58] _)). unfold imset_counts.
  assert (∀ l m, default 0%Z (foldl (λ m n, bump (parents d n) (-1) (bump (parents d n ∪ {[n]}) 1 m)) m l !! S) =
    (default 0 (m !! S) + zsum (contrib (d_arcs d) S) l)%Z) as H.
  { induction l as [|n l IH]; intros m; cbn [foldl zsum foldr]; [lia|]. rewrite IH, !bump_lookup, (parents_pa_set d n Hwf).
    unfold zsum, contrib at 2, ind. repeat case_decide; lia. }
  rewrite H. cbn. done.
Qed.

Lemma on_inj o k X Y : on o k X = on o k Y → X = Y.
Proof. intros H. apply set_eq. intros x. by rewrite <-(elem_of_on o k X), <-(elem_of_on o k Y), H. Qed.

Lemma standard_imset_lookup d o I t k : wf d →
  standard_imset d o I !! t = Some k ↔
  k ≠ 0%Z ∧ ∃ S, t = on o [57] S ∧ imset_value (d_nodes d ∖ I) (d_arcs d) S = k.
Proof.
  intros Hwf. unfold standard_imset. set (l := filter _ (map_to_list _)).
  assert (∀ S v, (S, v) ∈ l ↔ v ≠ 0%Z ∧ imset_value (d_nodes d ∖ I) (d_arcs d) S = v) as Hl.
  { intros S v. unfold l. rewrite elem_of_list_filter, elem_of_map_to_list. cbn. rewrite <-(imset_counts_lookup d o I S Hwf).
    split; [by intros [? ->]|]. intros [Hv Hd]. split; [done|]. destruct (imset_counts d o I !! S); cbn in *; naive_solver. }
  assert (NoDup ((λ p : nset * Z, (on o [57] p.1, p.2)) <$> l).*1) as Hnd.
  { rewrite <-list_fmap_compose. assert (NoDup l.*1) as Hn.
    { unfold l. pose proof (NoDup_fst_map_to_list (imset_counts d o I)) as Hn. clear -Hn.
      induction (map_to_list (imset_counts d o I)) as [|[S v] l' IH]; [constructor|]. cbn in Hn. apply NoDup_cons in Hn as [H1 H2].
      rewrite filter_cons. case_decide; [|by apply IH]. cbn. apply NoDup_cons. split; [|by apply IH].
      intros Hin. apply H1. apply elem_of_list_fmap in Hin as ([S' v'] & -> & Hin). apply elem_of_list_filter in Hin as [_ Hin].
      apply elem_of_list_fmap. by exists (S', v'). }
    clear -Hn. induction l as [|[S v] l IH]; [constructor|]. cbn in *. apply NoDup_cons in Hn as [H1 H2]. apply NoDup_cons. split; [|by apply IH].
    intros Hin. apply H1. apply elem_of_list_fmap in Hin as ([S' v'] & Heq & Hin). cbn in Heq. apply on_inj in Heq as ->.
    apply elem_of_list_fmap. by exists (S', v'). }
  rewrite <-elem_of_list_to_map by done. rewrite elem_of_list_fmap. split.
  - intros ([S v] & [= -> ->] & Hin). apply Hl in Hin as [? ?]. split; [done|]. by exists S.
  - intros (Hk & S & -> & Hv). exists (S, k). split; [done|]. by apply Hl.
Qed.

Lemma imset_flip N E x y S : acyclic E → over N E → covered E x y → imset_value N (flip_arc E x y) S = imset_value N E S.
Proof.
  intros Hac Hov Hcov. assert (x ≠ y) as Hne by by eapply covered_ne. pose proof Hcov as [Hxy Hc].
  destruct (Hov _ _ Hxy) as [Hx Hy]. rewrite !imset_value_sum.
  assert (elements N ≡ₚ x :: y :: elements (N ∖ {[x; y]})) as Hp.
  { assert (N = {[x]} ∪ ({[y]} ∪ N ∖ {[x; y]})) as HN.
    { apply set_eq. intros z. destruct (decide (z = x)), (decide (z = y)); set_solver. }
    rewrite HN at 1. rewrite elements_union_singleton by set_solver. by rewrite elements_union_singleton by set_solver. }
  rewrite !(zsum_perm _ _ _ Hp), !zsum_cons. rewrite (zsum_ext (contrib (flip_arc E x y) S) (contrib E S)).
  2: { intros n Hn. apply elem_of_elements in Hn.
       assert (pa_set (flip_arc E x y) n = pa_set E n) as Heq.
       { apply set_eq. intros z. rewrite !elem_of_pa_set, elem_of_flip. set_solver. }
       unfold contrib. by rewrite Heq. }
  set (P := pa_set E x).
  assert (pa_set E y = P ∪ {[x]}) as H1.
  { apply set_eq. intros z. unfold P. rewrite elem_of_union, elem_of_singleton, !elem_of_pa_set, Hc. destruct (decide (z = x)) as [->|]; tauto. }
  assert (pa_set (flip_arc E x y) x = P ∪ {[y]}) as H2.
  { apply set_eq. intros z. unfold P. rewrite elem_of_union, elem_of_singleton, !elem_of_pa_set, elem_of_flip. naive_solver. }
  assert (pa_set (flip_arc E x y) y = P) as H3.
  { apply set_eq. intros z. unfold P. rewrite !elem_of_pa_set, elem_of_flip, Hc. naive_solver. }
  unfold contrib. rewrite H1, H2, H3. fold P. assert (P ∪ {[y]} ∪ {[x]} = P ∪ {[x]} ∪ {[y]}) as -> by (clear; set_solver). lia.
Qed.

Lemma over_flip N E x y : over N E → (x, y) ∈ E → over N (flip_arc E x y).
Proof. intros Ho Hxy u v. rewrite elem_of_flip. intros [[-> ->]|[H _]]; [|by apply Ho]. apply Ho in Hxy. tauto. Qed.

Lemma imset_equivalent N E E' S : acyclic E → acyclic E' → over N E → over N E' → equivalent E E' →
  imset_value N E S = imset_value N E' S.
Proof.
  intros Hac Hac' Ho Ho' Heq. revert Ho. apply (chickering (λ E, over N E → imset_value N E S = imset_value N E' S) E' Hac'); [done| |done|done].
  intros F x y HF Hc IH HoF. rewrite <-IH; [symmetry; by apply imset_flip|]. apply over_flip; [done|]. by destruct Hc.
Qed.
