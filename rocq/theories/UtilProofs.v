(** Subsets, combinations and cliques. *)
From Verif Require Import Py Spec DagModel UGraphModel PdagModel InterveneModel UtilModel QueryProofs UGraphProofs InterveneProofs.
#[local] Open Scope nat_scope.

Lemma sublist_filter (l s : list node) : NoDup l → s `sublist_of` l → s = filter (λ x, x ∈ s) l.
Proof.
  intros Hl Hs. induction Hs as [|x s l Hs IH|x s l Hs IH]; [done| |]; apply NoDup_cons in Hl as [Hx Hl].
  - rewrite filter_cons_True by left. f_equal. rewrite IH at 1 by done. clear IH.
    assert (∀ k : list node, x ∉ k → filter (λ y, y ∈ s) k = filter (λ y, y ∈ x :: s) k) as Hk; [|by apply Hk].
    intros k. induction k as [|y k IH]; intros Hxk; [done|]. apply not_elem_of_cons in Hxk as [Hy Hxk].
    destruct (decide (y ∈ s)).
    + rewrite !filter_cons_True by (try right; done). by rewrite IH.
    + rewrite !filter_cons_False; [by apply IH|by rewrite not_elem_of_cons|done].
  - rewrite filter_cons_False; [by apply IH|]. intros H. apply Hx. by eapply sublist_in.
Qed.
Lemma sublist_set_inj (l s t : list node) :
  NoDup l → s `sublist_of` l → t `sublist_of` l → list_to_set s =@{nset} list_to_set t → s = t.
Proof.
  intros Hl Hs Ht He. rewrite (sublist_filter l s Hl Hs), (sublist_filter l t Hl Ht).
  apply set_eq_subseteq in He. clear Hs Ht. induction l as [|x l IH]; [done|]. apply NoDup_cons in Hl as [_ Hl].
  rewrite !filter_cons. rewrite (IH Hl). destruct He as [H1 H2].
  destruct (decide (x ∈ s)) as [H|H], (decide (x ∈ t)) as [H'|H']; try done; exfalso; set_solver.
Qed.
Lemma size_sublist (l s : list node) : NoDup l → s `sublist_of` l → size (list_to_set s : nset) = length s.
Proof. intros Hl Hs. apply size_list_to_set. by eapply sublist_nodup. Qed.
(** The sublist that lists a subset. *)
Lemma subset_sublist (l : list node) (X : nset) :
  NoDup l → X ⊆ list_to_set l → ∃ s, s `sublist_of` l ∧ list_to_set s = X ∧ length s = size X.
Proof.
  intros Hl HX. set (s := filter (λ x, x ∈ X) l). assert (s `sublist_of` l) as Hs.
  { unfold s. clear. induction l as [|x l IH]; [done|]. rewrite filter_cons. case_decide; by constructor. }
  assert (list_to_set s = X) as HsX.
  { apply set_eq. intros x. unfold s. rewrite elem_of_list_to_set, elem_of_list_filter. set_solver. }
  exists s. split; [done|]. split; [done|]. rewrite <-HsX. by rewrite (size_sublist l).
Qed.
Lemma combinations_NoDup (l : list node) r : NoDup l → NoDup (combinations l r).
Proof.
  intros Hl. revert r. induction Hl as [|x l Hx Hl IH]; intros [|r]; cbn [combinations]; try apply NoDup_singleton; [constructor|].
  apply NoDup_app. split; [apply NoDup_fmap_2; [intros ?? [= ->]; done|done]|]. split; [|done].
  intros s (t & -> & _)%elem_of_list_fmap [H _]%combinations_sub. apply Hx. eapply sublist_in; [exact H|left].
Qed.
(** The subsets of one size. *)
Lemma comb_sets (l : list node) r : NoDup l →
  NoDup ((list_to_set : list node → nset) <$> combinations l r) ∧
  ∀ X : nset, X ∈ ((list_to_set : list node → nset) <$> combinations l r) ↔ X ⊆ list_to_set l ∧ size X = r.
Proof.
  intros Hl. split.
  - pose proof (combinations_NoDup l r Hl) as Hn.
    assert (∀ s, s ∈ combinations l r → s `sublist_of` l) as Hs by (intros s H; by apply combinations_sub in H as [? _]).
    revert Hn Hs. induction (combinations l r) as [|s k IH]; intros Hn Hs; [constructor|].
    apply NoDup_cons in Hn as [Hn1 Hn2]. rewrite fmap_cons. apply NoDup_cons. split; [|apply IH; [done|]; intros; apply Hs; by right].
    intros (t & He & Ht)%elem_of_list_fmap. apply Hn1. rewrite (sublist_set_inj l s t); [done|done| | |done]; apply Hs; [left|by right].
  - intros X. rewrite elem_of_list_fmap. split.
    + intros (s & -> & [Hs Hlen]%combinations_sub). split; [|by rewrite (size_sublist l)].
      intros x. rewrite !elem_of_list_to_set. by apply sublist_in.
    + intros [HX Hsz]. destruct (subset_sublist l X Hl HX) as (s & Hs & Hse & Hlen). exists s. split; [done|].
      apply combinations_sub. split; [done|lia].
Qed.

Lemma elem_of_py_range a b z : z ∈ py_range a b ↔ (a ≤ z < b)%Z.
Proof.
  unfold py_range. rewrite elem_of_list_fmap. setoid_rewrite elem_of_seq. split; [intros (k & -> & ?); lia|].
  intros H. exists (Z.to_nat (z - a)). lia.
Qed.
Lemma NoDup_py_range a b : NoDup (py_range a b).
Proof. apply NoDup_fmap_2; [intros ???; lia|apply NoDup_seq]. Qed.

Lemma powerset_loop (l : list node) (rs : list Z) acc :
  (∀ r, r ∈ rs → (0 ≤ r)%Z) →
  loopR (λ r acc, res_bind (py_combinations l r) (λ c, Ok (acc ++ c))) rs acc =
  Ok (acc ++ (rs ≫= λ r, combinations l (Z.to_nat r))).
Proof.
  revert acc. induction rs as [|r rs IH]; intros acc Hr; cbn [loopR].
  { cbn. by rewrite app_nil_r. }
  unfold py_combinations. rewrite decide_False by (specialize (Hr r (elem_of_list_here _ _)); lia). cbn [res_bind].
  rewrite IH by (intros; apply Hr; by right). by rewrite bind_cons, app_assoc.
Qed.
Lemma bind_sets (l : list node) (rs : list Z) :
  NoDup l → NoDup rs → (∀ r, r ∈ rs → (0 ≤ r)%Z) →
  let k := (list_to_set : list node → nset) <$> (rs ≫= λ r, combinations l (Z.to_nat r)) in
  NoDup k ∧ ∀ X : nset, X ∈ k ↔ X ⊆ list_to_set l ∧ Z.of_nat (size X) ∈ rs.
Proof.
  intros Hl. induction rs as [|r rs IH]; intros Hn Hr; cbn zeta.
  { split; [constructor|]. intros X. cbn. rewrite !elem_of_nil. tauto. }
  apply NoDup_cons in Hn as [Hn1 Hn2]. destruct IH as [IH1 IH2]; [done|intros; apply Hr; by right|].
  destruct (comb_sets l (Z.to_nat r) Hl) as [C1 C2]. assert (0 ≤ r)%Z as Hr0 by (apply Hr; left).
  rewrite bind_cons, fmap_app. split.
  - apply NoDup_app. split; [done|]. split; [|done]. intros X [_ H1]%C2 [_ H2]%IH2. apply Hn1. by replace r with (Z.of_nat (size X)) by lia.
  - intros X. rewrite elem_of_app, C2, IH2, elem_of_cons. split; [intros [[? ?]|[? ?]]|intros [? [?|?]]].
    + split; [done|]. left. lia.
    + tauto.
    + left. split; [done|]. lia.
    + tauto.
Qed.

(** ** [powerset_predicate] *)
Lemma pp_loop_spec (P : list node → bool) (l : list node) a n :
  NoDup l →
  let k := pp_loop P l (seq a n) in
  NoDup k ∧ ∀ X : nset, X ∈ k ↔ a ≤ size X < a + n ∧ (∃ s, s `sublist_of` l ∧ list_to_set s = X ∧ P s = true) ∧
    ∀ r, a ≤ r < size X → ∃ s, s `sublist_of` l ∧ length s = r ∧ P s = true.
Proof.
  intros Hl. revert a. induction n as [|n IH]; intros a; cbn zeta.
  { split; [constructor|]. intros X. cbn. rewrite elem_of_nil. split; [done|]. intros [? _]. lia. }
  cbn [seq pp_loop]. destruct (filter (λ s, P s = true) (combinations l a)) as [|y ys] eqn:Hf.
  - assert (∀ s, s `sublist_of` l → length s = a → P s ≠ true) as Hno.
    { intros s Hs Hlen HP. assert (s ∈ filter (λ s, P s = true) (combinations l a)) as H
        by (apply elem_of_list_filter; split; [done|]; by apply combinations_sub). rewrite Hf in H. by apply elem_of_nil in H. }
    split; [constructor|]. intros X. rewrite elem_of_nil. split; [done|]. intros (H1 & (s & Hs & Hse & HP) & H3).
    destruct (decide (size X = a)) as [He|He].
    + apply (Hno s); [done| |done]. rewrite <-(size_sublist l s Hl Hs). by rewrite Hse.
    + destruct (H3 a) as (t & Ht & Hta & HPt); [lia|]. by apply (Hno t).
  - rewrite <-Hf. destruct (IH (S a)) as [I1 I2]. destruct (comb_sets l a Hl) as [C1 C2].
    assert (∀ X : nset, X ∈ ((list_to_set : list node → nset) <$> filter (λ s, P s = true) (combinations l a)) ↔
      size X = a ∧ ∃ s, s `sublist_of` l ∧ list_to_set s = X ∧ P s = true) as HX.
    { intros X. rewrite elem_of_list_fmap. setoid_rewrite elem_of_list_filter. setoid_rewrite combinations_sub. split.
      - intros (s & -> & HP & Hs & Hlen). split; [by rewrite (size_sublist l)|]. by exists s.
      - intros (Hsz & s & Hs & Hse & HP). exists s. split; [done|]. split; [done|]. split; [done|]. rewrite <-Hsz, <-Hse. by rewrite (size_sublist l). }
    assert (∃ t, t `sublist_of` l ∧ length t = a ∧ P t = true) as Ha.
    { assert (y ∈ filter (λ s, P s = true) (combinations l a)) as Hy by (rewrite Hf; left).
      apply elem_of_list_filter in Hy as [HP [? ?]%combinations_sub]. by exists y. }
    split.
    + apply NoDup_app. split; [|split; [|done]].
      * assert (∀ k, NoDup ((list_to_set : list node → nset) <$> k) → NoDup ((list_to_set : list node → nset) <$> filter (λ s, P s = true) k)) as Hk.
        { intros k. induction k as [|s k IHk]; [done|]. rewrite fmap_cons. intros [H1 H2]%NoDup_cons. rewrite filter_cons. case_decide; [|by apply IHk].
          rewrite fmap_cons. apply NoDup_cons. split; [|by apply IHk]. intros (t & Ht & [_ Hin]%elem_of_list_filter)%elem_of_list_fmap.
          apply H1. apply elem_of_list_fmap. by exists t. }
        by apply Hk.
      * intros X [H1 _]%HX (H2 & _)%I2. lia.
    + intros X. rewrite elem_of_app, HX, I2. split.
      * intros [(H1 & H2)|(H1 & H2 & H3)]; (split; [lia|]); (split; [done|]); intros r Hr; [lia|].
        destruct (decide (r = a)) as [->|]; [done|]. apply H3. lia.
      * intros (H1 & H2 & H3). destruct (decide (size X = a)) as [He|He]; [by left|right].
        split; [lia|]. split; [done|]. intros r Hr. apply H3. lia.
Qed.
Lemma powerset_predicate_spec (P : list node → bool) (l : list node) :
  NoDup l →
  NoDup (powerset_predicate P l) ∧ ∀ X : nset, X ∈ powerset_predicate P l ↔
    (∃ s, s `sublist_of` l ∧ list_to_set s = X ∧ P s = true) ∧
    ∀ r, r < size X → ∃ s, s `sublist_of` l ∧ length s = r ∧ P s = true.
Proof.
  intros Hl. unfold powerset_predicate. destruct (pp_loop_spec P l 0 (length l + 1) Hl) as [H1 H2]. split; [done|].
  intros X. rewrite H2. split.
  - intros (_ & H3 & H4). split; [done|]. intros r Hr. apply H4. lia.
  - intros (H3 & H4). split; [|split; [done|]; intros; apply H4; lia].
    destruct H3 as (s & Hs & <- & _). rewrite (size_sublist l) by done. apply sublist_length in Hs. lia.
Qed.

(** ** Cliques *)
Lemma is_edge_clique_spec (g : pdag) (s : list node) : NoDup s →
  is_edge_clique g s = true ↔ ∀ x y, x ∈ s → y ∈ s → x ≠ y → upair x y ∈ p_edges g.
Proof.
  intros Hs. unfold is_edge_clique. rewrite forallb_forall. split.
  - intros H x y Hx Hy Hne. destruct (combinations2_total s x y Hs Hx Hy Hne) as [[Hin _]|[Hin _]];
      apply elem_of_list_In, H in Hin; cbn in Hin; unfold has_edge in Hin; apply bool_decide_eq_true in Hin; [done|].
    by rewrite upair_comm.
  - intros H [x y] Hin. apply elem_of_list_In, combinations2_ne in Hin as (Hne & Hx & Hy); [|done].
    unfold has_edge. apply bool_decide_eq_true. by apply H.
Qed.
Lemma sublist_combs2 {A} (s l : list A) a : s `sublist_of` l → a ∈ combinations2 s → a ∈ combinations2 l.
Proof.
  intros Hs. induction Hs as [|x s l Hs IH|x s l Hs IH]; cbn [combinations2]; [done| |].
  - rewrite !elem_of_app. intros [H|H]; [left|right; by apply IH]. apply elem_of_list_fmap in H as (y & -> & Hy).
    apply elem_of_list_fmap. exists y. split; [done|]. by eapply sublist_in.
  - intros H. apply elem_of_app. right. by apply IH.
Qed.
Lemma possible_parents_spec (g : pdag) (o : oracle) (v : node) :
  NoDup (possible_parents g o v) ∧ ∀ X : nset, X ∈ possible_parents g o v ↔
    X ⊆ p_unbrs g v ∧ ∀ x y, x ∈ X → y ∈ X → x ≠ y → upair x y ∈ p_edges g.
Proof.
  unfold possible_parents. set (l := on o [125] (p_unbrs g v)). assert (NoDup l) as Hl by apply NoDup_on.
  assert (∀ x, x ∈ l ↔ x ∈ p_unbrs g v) as Hin by (intros x; apply elem_of_on).
  destruct (powerset_predicate_spec (is_edge_clique g) l Hl) as [H1 H2]. split; [done|]. intros X. rewrite H2. split.
  - intros [(s & Hs & <- & HP) _]. split.
    + intros x. rewrite elem_of_list_to_set. intros Hx. apply Hin. by eapply sublist_in.
    + intros x y. rewrite !elem_of_list_to_set. apply is_edge_clique_spec; [by eapply sublist_nodup|done].
  - intros [HX Hcl]. destruct (subset_sublist l X Hl) as (s & Hs & Hse & Hlen).
    { intros x Hx. apply elem_of_list_to_set, Hin. by apply HX. }
    assert (is_edge_clique g s = true) as HP.
    { apply is_edge_clique_spec; [by eapply sublist_nodup|]. intros x y Hx Hy. apply Hcl; rewrite <-Hse; by apply elem_of_list_to_set. }
    split; [by exists s|]. intros r Hr. exists (take r s). split; [|split].
    + etrans; [|exact Hs]. apply sublist_take.
    + rewrite take_length. lia.
    + apply is_edge_clique_spec; [eapply sublist_nodup; [|by eapply sublist_nodup]; apply sublist_take|].
      intros x y Hx Hy. apply (proj1 (is_edge_clique_spec g s (sublist_nodup _ _ Hs Hl)) HP); eapply sublist_in; [|done| |done]; apply sublist_take.
Qed.
