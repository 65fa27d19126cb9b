(** The search of [get_all_mec]. *)
From Verif Require Import Py Spec SpecDsep SpecMixed SpecMagMec DagModel UGraphModel CompareModel AncestralModel MagModel MagMecModel AncestralState AncestralProofs AncestralCopy
  PropertiesAncestral TopoProofs StateProofs ReachProofs QueryProofs PdagProofs UGraphProofs CompareProofs ShdProofs MWalkProofs MsepProofs InduceProofs MagProofs MaxProofs
  MagMecProofs MagMecCore MagMecMain MagMecNec MagMarkProofs MagLegitProofs MagDiscProofs MagEquivProofs MagChangeProofs InterveneModel.

Notation mkey := (arcset * arcset)%type.
Definition kmix (k : mkey) : mixed := Mixed k.1 k.2 ∅.

(** One legitimate mark change, on the stored edges. *)
Definition kstep (k k' : mkey) : Prop :=
  ∃ a b, legit (kmix k) a b ∧
    (((a, b) ∈ k.1 ∧ k' = (k.1 ∖ {[(a, b)]}, k.2 ∪ {[upair a b]})) ∨
     (spouse (kmix k) a b ∧ k' = (k.1 ∪ {[(a, b)]}, k.2 ∖ {[upair a b]}))).

(** ** A bound on the number of keys *)
Fixpoint keys_over (es : list arc) : list mkey :=
  match es with
  | [] => [(∅, ∅)]
  | e :: es => k ← keys_over es; [({[e]} ∪ k.1, k.2); ({[(e.2, e.1)]} ∪ k.1, k.2); (k.1, {[e]} ∪ k.2)]
  end.
Lemma keys_over_length (es : list arc) : length (keys_over es) = 3 ^ length es.
Proof.
  induction es as [|e es IH]; [done|]. cbn [keys_over length]. rewrite Nat.pow_succ_r', <-IH. generalize (keys_over es) as l. clear. intros l.
  induction l as [|k l IH]; [done|]. cbn [mbind list_bind]. rewrite app_length, IH. cbn [length]. lia.
Qed.
Lemma keys_over_elem (es : list arc) (D B : arcset) : NoDup es → (∀ e, e ∈ es → e.1 < e.2) →
  (∀ x y, (x, y) ∈ D → upair x y ∈ es) → (∀ e, e ∈ B → e ∈ es) →
  (∀ x y, (x, y) ∈ D → (y, x) ∉ D ∧ upair x y ∉ B) →
  (∀ e, e ∈ es → e ∈ D ∨ (e.2, e.1) ∈ D ∨ e ∈ B) → (D, B) ∈ keys_over es.
Proof.
  revert D B. induction es as [|[x y] es IH]; intros D B Hnd Hlt HD HB Hs Hc.
  - cbn. apply elem_of_list_singleton. f_equal; apply set_eq; intros e; (split; [|by intros ?%not_elem_of_empty]); intros He; exfalso.
    + destruct e as [x y]. apply HD in He. by apply elem_of_nil in He.
    + apply HB in He. by apply elem_of_nil in He.
  - apply NoDup_cons in Hnd as [Hni Hnd]. pose proof (Hlt (x, y) ltac:(by left)) as Hxy. cbn in Hxy.
    assert (upair x y = (x, y)) as U1 by (unfold upair; rewrite Nat.min_l, Nat.max_r by lia; done).
    assert (upair y x = (x, y)) as U2 by (unfold upair; rewrite Nat.min_r, Nat.max_l by lia; done).
    assert (∀ u v : node, (u, v) ≠ (x, y) → (u, v) ≠ (y, x) → upair u v ≠ (x, y)) as HU.
    { intros u v N1 N2 E. rewrite <-U1 in E. apply upair_eq_or in E as [[-> ->]|[-> ->]]; done. }
    assert ((D ∖ {[(x, y); (y, x)]}, B ∖ {[(x, y)]}) ∈ keys_over es) as Hin.
    { apply IH; [done|intros e He; apply Hlt; by right| | | |].
      - intros u v [H1 H2]%elem_of_difference. rewrite not_elem_of_union, !not_elem_of_singleton in H2. destruct H2 as [N1 N2].
        apply HD, elem_of_cons in H1 as [E|?]; [by apply HU in E|done].
      - intros e [H1 H2]%elem_of_difference. rewrite not_elem_of_singleton in H2. apply HB, elem_of_cons in H1 as [?|?]; done.
      - intros u v [H1 H2]%elem_of_difference. apply Hs in H1 as [H1 H3]. rewrite !elem_of_difference. tauto.
      - intros e He. assert (e ≠ (x, y)) as N by (by intros ->). assert ((e.2, e.1) ≠ (x, y)) as N'.
        { intros E. pose proof (Hlt e ltac:(by right)). destruct e as [u v]. cbn in *. injection E as -> ->. lia. }
        assert (e ≠ (y, x)) as N2 by (destruct e; naive_solver). assert ((e.2, e.1) ≠ (y, x)) as N3 by (destruct e; naive_solver).
        rewrite !elem_of_difference, !not_elem_of_union, !not_elem_of_singleton. destruct (Hc e ltac:(by right)) as [?|[?|?]]; tauto. }
    cbn [keys_over]. apply elem_of_list_bind. eexists. split; [|exact Hin]. cbn [fst snd].
    rewrite !elem_of_cons. destruct (Hc (x, y) ltac:(by left)) as [H|[H|H]]; cbn in H.
    + left. pose proof (Hs _ _ H) as [H1 H2]. rewrite U1 in H2. f_equal; apply set_eq; intros e.
      * rewrite elem_of_union, elem_of_difference, not_elem_of_union, !elem_of_singleton.
        destruct (decide (e = (x, y))) as [->|]; [tauto|]. destruct (decide (e = (y, x))) as [->|]; tauto.
      * rewrite elem_of_difference, not_elem_of_singleton. split; [|tauto]. intros He. split; [done|]. by intros ->.
    + right. left. pose proof (Hs _ _ H) as [H1 H2]. rewrite U2 in H2. f_equal; apply set_eq; intros e.
      * rewrite elem_of_union, elem_of_difference, not_elem_of_union, !elem_of_singleton.
        destruct (decide (e = (x, y))) as [->|]; [|destruct (decide (e = (y, x))) as [->|]; tauto]. split; [done|]. intros [E|?]; [|tauto]. by injection E as -> _.
      * rewrite elem_of_difference, not_elem_of_singleton. split; [|tauto]. intros He. split; [done|]. by intros ->.
    + right. right. left. f_equal; apply set_eq; intros e.
      * rewrite elem_of_difference, not_elem_of_union, !not_elem_of_singleton. split; [|tauto]. intros He. split; [done|]. split; intros ->.
        -- apply Hs in He as [_ He]. by rewrite U1 in He.
        -- apply Hs in He as [_ He]. by rewrite U2 in He.
      * rewrite elem_of_union, elem_of_difference, !elem_of_singleton. destruct (decide (e = (x, y))) as [->|]; tauto.
Qed.

(** ** Pushing the neighbours *)
Lemma push_loop (f : arc → list ag → res (list ag)) (Q : arc → list ag → Prop) (es : list arc) :
  (∀ e q, e ∈ es → ∃ n, f e q = Ok (n ++ q) ∧ length n ≤ 1 ∧ Q e n) →
  ∀ q, ∃ n, loopR f es q = Ok (n ++ q) ∧ length n ≤ length es ∧ (∀ e, e ∈ es → ∃ m, Q e m ∧ m ⊆ n) ∧
    (∀ h, h ∈ n → ∃ e m, e ∈ es ∧ Q e m ∧ h ∈ m).
Proof.
  induction es as [|e es IH]; intros Hf q.
  - exists []. cbn. split_and!; [done|done| |]; by intros ? ?%elem_of_nil.
  - destruct (Hf e q ltac:(by left)) as (n1 & E1 & L1 & Q1). destruct (IH ltac:(intros; apply Hf; by right) (n1 ++ q)) as (n & E & L & HA & HB).
    exists (n ++ n1). cbn. rewrite E1. cbn. rewrite E, (assoc_L app). rewrite app_length. split_and!; [done|lia| |].
    + intros e' [->|He']%elem_of_cons; [exists n1; split; [done|]; intros z Hz; apply elem_of_app; by right|].
      destruct (HA e' He') as (m & Hm & Hs). exists m. split; [done|]. intros z Hz. apply elem_of_app. left. by apply Hs.
    + intros h [Hh|Hh]%elem_of_app; [destruct (HB h Hh) as (e' & m & ? & ? & ?); exists e', m; split_and!; [by right|done..]|].
      exists e, n1. split_and!; [by left|done..].
Qed.

Lemma kmix_key h : g_un h = ∅ → kmix (mec_key h) = gmix h.
Proof. intros E. unfold kmix, gmix, mec_key. by rewrite E. Qed.

Record good (N : nset) (S : arcset) (E : nat) (h : ag) : Prop := Good {
  gd_ok : gok h; gd_anc : ancestral (gmix h); gd_un : g_un h = ∅; gd_N : g_nodes h = N;
  gd_S : g_skeleton h = S; gd_E : size (g_dir h) + size (g_bi h) = E
}.

Lemma madj_skel g h : gok g → gok h → (∀ x y, madj (gmix g) x y ↔ madj (gmix h) x y) → g_skeleton g = g_skeleton h.
Proof. intros Hg Hh H. by apply g_skeleton_eq. Qed.

Lemma size_add (X : arcset) e : e ∉ X → size (X ∪ {[e]}) = S (size X).
Proof. intros H. rewrite size_union, size_singleton by (clear -H; set_solver). lia. Qed.
Lemma size_del (X : arcset) e : e ∈ X → S (size (X ∖ {[e]})) = size X.
Proof.
  intros H. assert (X = X ∖ {[e]} ∪ {[e]}) as E.
  { apply set_eq. intros x. rewrite elem_of_union, elem_of_difference, elem_of_singleton. split; [|intros [[? _]| ->]; done].
    intros Hx. destruct (decide (x = e)); tauto. }
  rewrite E at 2. rewrite size_add; [done|]. rewrite elem_of_difference, elem_of_singleton. tauto.
Qed.

Lemma good_dir N S E g h a b : good N S E g → (a, b) ∈ g_dir g → legit (gmix g) a b →
  keyed h (g_nodes g) (g_dir g ∖ {[(a, b)]}) (g_bi g ∪ {[upair a b]}) → swap (gmix g) (gmix h) a b → good N S E h.
Proof.
  intros [G1 G2 G3 G4 G5 G6] Hab Hl (Hh & HN & HD & HB & HU) Hsw. split; [done| |done|by rewrite HN| |].
  - eapply swap_anc_B; [exact Hsw|done|apply Hl].
  - rewrite <-G5. symmetry. apply madj_skel; [done|done|]. apply (swap_rel _ _ _ _ Hsw). by apply gmix_simple.
  - rewrite HD, HB, size_add by (by apply (gok_dir1 _ G1 a b Hab)). rewrite <-G6, <-(size_del (g_dir g) (a, b) Hab). lia.
Qed.
Lemma good_bi N S E g h a b : good N S E g → spouse (gmix g) a b → legit (gmix g) a b →
  keyed h (g_nodes g) (g_dir g ∪ {[(a, b)]}) (g_bi g ∖ {[upair a b]}) → swap (gmix h) (gmix g) a b → good N S E h.
Proof.
  intros [G1 G2 G3 G4 G5 G6] Hab Hl (Hh & HN & HD & HB & HU) Hsw. split; [done| |done|by rewrite HN| |].
  - eapply swap_anc_D; [exact Hsw|done|apply Hl].
  - rewrite <-G5. apply madj_skel; [done|done|]. apply (swap_rel _ _ _ _ Hsw). by apply gmix_simple.
  - rewrite HD, HB. pose proof Hab as Hup. apply spouse_upair in Hup; [|done].
    rewrite size_add; [|intros H; by apply (gok_dir1 _ G1 a b) in H as (_ & _ & H & _)]. rewrite <-G6, <-(size_del (g_bi g) _ Hup). lia.
Qed.

Lemma mec_push_spec N S E g o flip V X Y q : good N S E g →
  (∀ a b, (a, b) ∈ X ↔ (a, b) ∈ g_dir g ∧ legit (gmix g) a b) → (∀ a b, (a, b) ∈ Y ↔ spouse (gmix g) a b ∧ legit (gmix g) a b) →
  ∃ n, mec_push o flip g V (X, Y) q = Ok (n ++ q) ∧ length n ≤ 2 * E ∧
    (∀ h, h ∈ n → good N S E h ∧ kstep (mec_key g) (mec_key h) ∧ mec_key h ∉ V) ∧
    (∀ k, kstep (mec_key g) k → k ∈ V ∨ k ∈ mec_key <$> n).
Proof.
  intros HG HX HY. pose proof HG as [G1 G2 G3 G4 G5 G6].
  set (Q1 := λ (e : arc) (n : list ag), let k := (g_dir g ∖ {[e]}, g_bi g ∪ {[upair e.1 e.2]}) in
    (k ∈ V ∨ k ∈ mec_key <$> n) ∧ ∀ h, h ∈ n → good N S E h ∧ mec_key h = k ∧ k ∉ V).
  set (Q2 := λ (e : arc) (n : list ag), let k := (g_dir g ∪ {[e]}, g_bi g ∖ {[upair e.1 e.2]}) in
    (k ∈ V ∨ k ∈ mec_key <$> n) ∧ ∀ h, h ∈ n → good N S E h ∧ mec_key h = k ∧ k ∉ V).
  unfold mec_push. cbn [fst snd].
  destruct (push_loop (λ e queue,
       if decide ((g_dir g ∖ {[e]}, g_bi g ∪ {[upair e.1 e.2]}) ∈ V) then Ok queue
       else res_bind (changed o flip g (dir_to_bi e.1 e.2)) (λ h, Ok (h :: queue))) Q1 (oa o [158] X)) with (q := q) as (n1 & E1 & L1 & A1 & B1).
  { intros [a b] q' He. cbn [fst snd]. apply elem_of_oa, HX in He as [Hab Hl]. case_decide as Hv.
    - exists []. split_and!; [done|cbn; lia|]. split; [by left|]. by intros ? ?%elem_of_nil.
    - destruct (changed_dir g o flip a b) as (h & -> & Hk & Hsw); [done..|]. cbn [res_bind]. exists [h].
      assert (mec_key h = (g_dir g ∖ {[(a, b)]}, g_bi g ∪ {[upair a b]})) as Ek by (destruct Hk as (_ & _ & HD & HB & _); unfold mec_key; by rewrite HD, HB).
      split_and!; [done|cbn; lia|]. split; [right; cbn; apply elem_of_list_singleton; done|]. intros ? ->%elem_of_list_singleton.
      split_and!; [|done|done]. by apply (good_dir N S E g h a b). }
  rewrite E1. cbn [res_bind].
  destruct (push_loop (λ e queue,
       if decide ((g_dir g ∪ {[e]}, g_bi g ∖ {[upair e.1 e.2]}) ∈ V) then Ok queue
       else res_bind (changed o flip g (bi_to_dir o e.1 e.2)) (λ h, Ok (h :: queue))) Q2 (oa o [159] Y)) with (q := n1 ++ q) as (n2 & E2 & L2 & A2 & B2).
  { intros [a b] q' He. cbn [fst snd]. apply elem_of_oa, HY in He as [Hab Hl]. case_decide as Hv.
    - exists []. split_and!; [done|cbn; lia|]. split; [by left|]. by intros ? ?%elem_of_nil.
    - destruct (changed_bi g o flip a b) as (h & -> & Hk & Hsw); [done..|]. cbn [res_bind]. exists [h].
      assert (mec_key h = (g_dir g ∪ {[(a, b)]}, g_bi g ∖ {[upair a b]})) as Ek by (destruct Hk as (_ & _ & HD & HB & _); unfold mec_key; by rewrite HD, HB).
      split_and!; [done|cbn; lia|]. split; [right; cbn; apply elem_of_list_singleton; done|]. intros ? ->%elem_of_list_singleton.
      split_and!; [|done|done]. by apply (good_bi N S E g h a b). }
  rewrite E2. exists (n2 ++ n1). rewrite <-(assoc_L app). split; [done|]. split_and!.
  - rewrite app_length. assert (length (oa o [158] X) ≤ size (g_dir g)) as S1.
    { assert (list_to_set (oa o [158] X) =@{arcset} X) as EX by (apply set_eq; intros e; by rewrite elem_of_list_to_set, elem_of_oa).
      rewrite <-(size_list_to_set (C := arcset)) by apply NoDup_oa. rewrite EX. apply subseteq_size. intros [a b] He. by apply HX in He as [? _]. }
    assert (length (oa o [159] Y) ≤ size (g_bi g) + size (g_bi g)) as S2.
    { assert (list_to_set (oa o [159] Y) =@{arcset} Y) as EY by (apply set_eq; intros e; by rewrite elem_of_list_to_set, elem_of_oa).
      rewrite <-(size_list_to_set (C := arcset)) by apply NoDup_oa. rewrite EY.
      trans (size (g_bi g ∪ rev_arcs (g_bi g))).
      - apply subseteq_size. intros [a b] He. apply HY in He as [[He|He] _]; apply elem_of_union; [by left|right; by apply elem_of_rev_arcs].
      - rewrite size_union_alt. trans (size (g_bi g) + size (rev_arcs (g_bi g))); [|by rewrite size_rev_arcs]. apply Nat.add_le_mono_l, subseteq_size. clear. set_solver. }
    lia.
  - intros h [Hh|Hh]%elem_of_app.
    + destruct (B2 h Hh) as ([a b] & m & He & [_ HQ] & Hm). destruct (HQ h Hm) as (Hgd & -> & Hv). split_and!; [done| |done].
      apply elem_of_oa, HY in He as [Hab Hl]. exists a, b. rewrite kmix_key by done. split; [done|]. by right.
    + destruct (B1 h Hh) as ([a b] & m & He & [_ HQ] & Hm). destruct (HQ h Hm) as (Hgd & -> & Hv). split_and!; [done| |done].
      apply elem_of_oa, HX in He as [Hab Hl]. exists a, b. rewrite kmix_key by done. split; [done|]. by left.
  - intros k (a & b & Hl & Hc). rewrite kmix_key in Hl, Hc by done. destruct Hc as [[Hab ->]|[Hab ->]].
    + destruct (A1 (a, b)) as (m & [[?|Hm] _] & Hs); [apply elem_of_oa, HX; done|by left|]. right.
      apply elem_of_list_fmap in Hm as (h & Eh & Hh). apply elem_of_list_fmap. exists h. split; [done|]. apply elem_of_app. right. by apply Hs.
    + destruct (A2 (a, b)) as (m & [[?|Hm] _] & Hs); [apply elem_of_oa, HY; done|by left|]. right.
      apply elem_of_list_fmap in Hm as (h & Eh & Hh). apply elem_of_list_fmap. exists h. split; [done|]. apply elem_of_app. left. by apply Hs.
Qed.

Lemma skel_lt g e : gok g → e ∈ g_skeleton g → e.1 < e.2.
Proof.
  intros Hg He. pose proof He as ([a b] & _ & ->)%elem_of_as_edges. cbn [fst snd] in *. apply g_skeleton_spec in He; [|done].
  assert (a ≠ b) by (intros ->; by apply (simple_irr _ (gmix_simple g Hg) b)). cbn. lia.
Qed.
Lemma key_bound N S E h : good N S E h → mec_key h ∈ keys_over (elements S).
Proof.
  intros [G1 G2 G3 G4 G5 G6]. subst S. unfold mec_key. apply keys_over_elem.
  - apply NoDup_elements.
  - intros e He%elem_of_elements. by apply (skel_lt h).
  - intros x y Hxy. apply elem_of_elements, g_skeleton_spec; [done|]. by left.
  - intros [x y] Hxy. apply elem_of_elements. pose proof (gok_bilt _ G1 _ _ Hxy). assert ((x, y) = upair x y) as -> by (unfold upair; by rewrite Nat.min_l, Nat.max_r by lia).
    apply g_skeleton_spec; [done|]. right; right; left. by left.
  - intros x y H. pose proof (gok_dir1 _ G1 _ _ H) as (_ & ? & ? & _). done.
  - intros [x y] He%elem_of_elements. pose proof (skel_lt h _ G1 He) as Hlt. cbn in *.
    assert ((x, y) = upair x y) as E' by (unfold upair; by rewrite Nat.min_l, Nat.max_r by lia). rewrite E' in He.
    apply g_skeleton_spec in He; [|done]. destruct He as [?|[?|[H|H]]]; [tauto|tauto| |].
    + apply spouse_upair in H; [|done]. rewrite <-E' in H. tauto.
    + apply neighbor_upair in H; [|done]. rewrite G3 in H. by apply not_elem_of_empty in H.
Qed.

(** ** The loop *)
Section loop.
  Context (N : nset) (S : arcset) (E : nat) (o : oracle) (flip : arc → bool) (k0 : mkey).
  Notation T := (list_to_set (keys_over (elements S)) : gset mkey).

  Definition fresh_ok (V : gset mkey) (q : list ag) : Prop :=
    ∀ p h r k, q = p ++ h :: r → mec_key h ∈ V → kstep (mec_key h) k → k ∈ V ∨ k ∈ mec_key <$> p.

  Lemma mec_loop_spec fuel V q ms :
    (∀ h, h ∈ q → good N S E h ∧ rtc kstep k0 (mec_key h)) → (∀ h, h ∈ ms → good N S E h ∧ rtc kstep k0 (mec_key h)) →
    (∀ k, k ∈ V → k ∈ mec_key <$> ms) →
    (∀ k k', k ∈ V → kstep k k' → k' ∈ V ∨ k' ∈ mec_key <$> q) → (k0 ∈ V ∨ k0 ∈ mec_key <$> q) → fresh_ok V q →
    size (T ∖ V) * Datatypes.S (2 * E) + length q ≤ fuel →
    ∃ ms', mec_loop o flip fuel V q ms = Ok (ms ++ ms') ∧ (∀ h, h ∈ ms ++ ms' → good N S E h ∧ rtc kstep k0 (mec_key h)) ∧
      (∀ k, rtc kstep k0 k → k ∈ mec_key <$> (ms ++ ms')) ∧ (∀ h r, q = h :: r → ∃ t, ms' = h :: t).
  Proof.
    revert V q ms. induction fuel as [|fuel IH]; intros V q ms Hq Hms HV Hcl H0 Hfr Hsz; destruct q as [|g q].
    1: { exists []. rewrite app_nil_r. split_and!; [done|done| |done]. intros k Hk. apply HV. revert k Hk. apply (rtc_ind_r (λ k, k ∈ V)).
      - destruct H0 as [?|?%elem_of_nil]; done.
      - intros k k' _ Hs Hk. destruct (Hcl k k' Hk Hs) as [?|?%elem_of_nil]; done. }
    2: { exists []. rewrite app_nil_r. split_and!; [done|done| |done]. intros k Hk. apply HV. revert k Hk. apply (rtc_ind_r (λ k, k ∈ V)).
      - destruct H0 as [?|?%elem_of_nil]; done.
      - intros k k' _ Hs Hk. destruct (Hcl k k' Hk Hs) as [?|?%elem_of_nil]; done. }
    1: { exfalso. cbn in Hsz. lia. }
    destruct (Hq g ltac:(by left)) as [Hg Hr]. cbn [mec_loop].
    destruct (lmc_spec g (at_call o [160; Datatypes.S fuel]) flip (gd_ok _ _ _ _ Hg) (gd_anc _ _ _ _ Hg) (gd_un _ _ _ _ Hg)) as (X & Y & -> & HX & HY).
    cbn [res_bind].
    destruct (mec_push_spec N S E g (at_call o [160; Datatypes.S fuel]) flip ({[mec_key g]} ∪ V) X Y q Hg HX HY) as (n & -> & Ln & Hn & Hsucc).
    cbn [res_bind].
    destruct (IH ({[mec_key g]} ∪ V) (n ++ q) (ms ++ [g])) as (ms' & E' & HA & HB & _).
    - intros h [Hh|Hh]%elem_of_app; [|apply Hq; by right]. destruct (Hn h Hh) as (? & ? & _). split; [done|]. by eapply rtc_r.
    - intros h [Hh| ->%elem_of_list_singleton]%elem_of_app; [by apply Hms|done].
    - intros k [->%elem_of_singleton|Hk]%elem_of_union; rewrite fmap_app, elem_of_app; [right; by left|left; by apply HV].
    - intros k k' [->%elem_of_singleton|Hk]%elem_of_union Hs; rewrite fmap_app, elem_of_app, elem_of_union, elem_of_singleton.
      + destruct (Hsucc k' Hs) as [[?%elem_of_singleton|?]%elem_of_union|?]; tauto.
      + destruct (Hcl k k' Hk Hs) as [?|Hc]; [tauto|]. cbn in Hc. apply elem_of_cons in Hc as [?|?]; tauto.
    - rewrite fmap_app, elem_of_app, elem_of_union, elem_of_singleton. destruct H0 as [?|Hc]; [tauto|]. cbn in Hc. apply elem_of_cons in Hc as [?|?]; tauto.
    - intros p h r k Ep Hh Hs.
      assert (h ∉ n) as Hin by (intros Hin; by destruct (Hn h Hin) as (_ & _ & H)).
      assert (∃ p', p = n ++ p' ∧ q = p' ++ h :: r) as (p' & -> & ->).
      { apply app_eq_app in Ep as (l & [(E1 & E2)|(E1 & E2)]).
        - destruct l as [|h' l]; cbn in E2; [exists []; by rewrite app_nil_r, E1, app_nil_r|]. injection E2 as -> _. exfalso. apply Hin. rewrite E1. apply elem_of_app. right. by left.
        - by exists l. }
      rewrite fmap_app, elem_of_app, elem_of_union, elem_of_singleton.
      destruct (decide (mec_key h = mec_key g)) as [Eh|Nh].
      + rewrite Eh in Hs. destruct (Hsucc k Hs) as [[?%elem_of_singleton|?]%elem_of_union|?]; tauto.
      + apply elem_of_union in Hh as [?%elem_of_singleton|Hh]; [done|]. destruct (Hfr (g :: p') h r k) as [?|Hc]; [done|done|done|tauto|].
        cbn in Hc. apply elem_of_cons in Hc as [?|?]; tauto.
    - rewrite app_length. cbn [length] in Hsz.
      destruct (decide (mec_key g ∈ V)) as [Hv|Hv].
      + assert (n = []) as ->.
        { destruct n as [|h n]; [done|]. exfalso. destruct (Hn h ltac:(by left)) as (_ & Hs & Hnv). apply Hnv.
          destruct (Hfr [] g q (mec_key h)) as [?|?%elem_of_nil]; [done|done|done|by apply elem_of_union_r|done]. }
        assert ({[mec_key g]} ∪ V = V) as -> by (clear -Hv; set_solver). cbn. lia.
      + assert (Datatypes.S (size (T ∖ ({[mec_key g]} ∪ V))) ≤ size (T ∖ V)) as Hlt.
        { apply subset_size. split; [clear; set_solver|]. intros H. assert (mec_key g ∈ T ∖ V) as Hin.
          { apply elem_of_difference. split; [|done]. apply elem_of_list_to_set. by apply (key_bound N S E). }
          apply H in Hin. clear -Hin. set_solver. }
        nia.
    - exists (g :: ms'). rewrite E', <-(assoc_L app). split; [done|]. rewrite <-(assoc_L app) in HA, HB. split_and!; [done|done|].
      intros h r Eq. injection Eq as -> _. by exists ms'.
  Qed.
End loop.

Lemma size_lts `{Countable A} (l : list A) : size (list_to_set l : gset A) ≤ length l.
Proof.
  induction l as [|x l IH]; [done|]. cbn [list_to_set length]. rewrite size_union_alt, size_singleton.
  assert (size ((list_to_set l : gset A) ∖ {[x]}) ≤ size (list_to_set l : gset A)) by (apply subseteq_size; clear; set_solver). lia.
Qed.
Lemma skel_size g : gok g → g_un g = ∅ → size (g_skeleton g) ≤ size (g_dir g) + size (g_bi g).
Proof.
  intros Hg HU. trans (size (as_edges (g_dir g) ∪ g_bi g)).
  - apply subseteq_size. intros e He. pose proof He as ([a b] & _ & ->)%elem_of_as_edges. cbn [fst snd] in *. apply g_skeleton_spec in He; [|done].
    apply elem_of_union. rewrite elem_of_as_edges. destruct He as [H|[H|[H|H]]].
    + left. by exists (a, b).
    + left. exists (b, a). split; [done|]. cbn. apply upair_comm.
    + right. by apply spouse_upair in H.
    + apply neighbor_upair in H; [|done]. rewrite HU in H. by apply not_elem_of_empty in H.
  - rewrite size_union_alt. assert (size (as_edges (g_dir g)) ≤ size (g_dir g)).
    { unfold as_edges, set_map. etrans; [apply size_lts|]. by rewrite fmap_length. }
    assert (size (g_bi g ∖ as_edges (g_dir g)) ≤ size (g_bi g)) by (apply subseteq_size; clear; set_solver). lia.
Qed.

Lemma get_all_mec_spec g o flip : gok g → ancestral (gmix g) → g_un g = ∅ →
  ∃ l, get_all_mec g o flip = Ok (g :: l) ∧
    (∀ h, h ∈ g :: l → good (g_nodes g) (g_skeleton g) (size (g_dir g) + size (g_bi g)) h ∧ rtc kstep (mec_key g) (mec_key h)) ∧
    (∀ k, rtc kstep (mec_key g) k → k ∈ mec_key <$> (g :: l)).
Proof.
  intros Hg Ha HU. unfold get_all_mec. set (E := size (g_dir g) + size (g_bi g)).
  assert (good (g_nodes g) (g_skeleton g) E g) as Hgd by done.
  destruct (mec_loop_spec (g_nodes g) (g_skeleton g) E o flip (mec_key g) (mec_fuel g) ∅ [g] []) as (ms & E' & HA & HB & HC).
  - by intros h ->%elem_of_list_singleton.
  - by intros h ?%elem_of_nil.
  - by intros k ?%not_elem_of_empty.
  - by intros k k' ?%not_elem_of_empty.
  - right. by left.
  - intros p h r k _ H. by apply not_elem_of_empty in H.
  - unfold mec_fuel. fold E. cbn [length]. rewrite difference_empty_L.
    assert (size (list_to_set (keys_over (elements (g_skeleton g))) : gset mkey) ≤ 3 ^ E) as H.
    { trans (length (keys_over (elements (g_skeleton g)))); [apply size_lts|]. rewrite keys_over_length.
      apply Nat.pow_le_mono_r; [lia|]. change (size (g_skeleton g) ≤ E). by apply skel_size. }
    nia.
  - cbn in *. destruct (HC g [] eq_refl) as (t & ->). by exists t.
Qed.
