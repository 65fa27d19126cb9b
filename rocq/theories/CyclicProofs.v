(** What the methods of cyclic_graph.py return. *)
From Verif Require Import Py Spec SpecDsep SpecMixed SpecMagMec DagModel UGraphModel CompareModel AncestralModel MagModel MagMecModel CyclicModel AncestralState AncestralProofs AncestralCopy
  PropertiesAncestral TopoProofs StateProofs ReachProofs QueryProofs PdagProofs UGraphProofs CompareProofs ShdProofs MWalkProofs MsepProofs InduceProofs MagProofs MaxProofs
  MagMecProofs MagMecCore MagMecMain MagMecNec MagMarkProofs MagLegitProofs MagDiscProofs MagEquivProofs.

(** ** [vstructures] *)
Lemma into_set g v a : gok g → a ∈ g_parents g v ∪ g_spouses g v ↔ into (gmix g) a v.
Proof.
  intros Hg. rewrite elem_of_union, (gok_par _ Hg), (gok_spo _ Hg), <-(spouse_upair g v a Hg). unfold into.
  split; intros [?|?]; (by left) || (right; by apply spouse_sym).
Qed.
Lemma c_vstructures_spec g o x z y : gok g →
  (x, z, y) ∈ c_vstructures g o ↔
  ∃ w, (w, y) ∈ combinations2 (on o [152; z] (g_parents g z ∪ g_spouses g z)) ∧ x = w `min` y ∧ mvstruct (gmix g) w z y.
Proof.
  intros Hg. unfold c_vstructures. rewrite elem_of_list_to_set, elem_of_list_bind. setoid_rewrite elem_of_list_bind. split.
  - intros (v & ([p1 p2] & He & Hp) & Hv). destruct (has_any_edge g p1 p2) eqn:Eh; [by apply elem_of_nil in He|].
    apply elem_of_list_singleton in He. injection He as -> -> ->. exists p1. split; [done|]. split; [done|].
    apply combinations2_ne in Hp as (Hne & H1 & H2); [|apply NoDup_on]. rewrite elem_of_on, into_set in H1, H2 by done.
    split; [done|]. split; [done|]. rewrite <-has_any_edge_spec, Eh by done. done.
  - intros (w & Hp & -> & (H1 & H2) & Hne & Hna). exists z. split; [|apply elem_of_on; apply (madj_nodes g Hg w z); by apply into_adj].
    exists (w, y). split; [|done]. destruct (has_any_edge g w y) eqn:Eh; [by apply has_any_edge_spec in Eh|]. by apply elem_of_list_singleton.
Qed.

(** ** [discriminating_paths] *)
Lemma elem_of_c_keys g l j : j ∈ c_keys g l ↔ ∃ l1 l2, l = l1 ++ j :: l2 ∧ ∀ k, k ∈ l1 ++ [j] → g_parents g k ≠ ∅.
Proof.
  induction l as [|i l IH]; cbn [c_keys].
  - rewrite elem_of_nil. split; [done|]. intros (l1 & l2 & E & _). by destruct l1.
  - destruct (decide (g_parents g i = ∅)) as [Hi|Hi].
    + rewrite elem_of_nil. split; [done|]. intros ([|k l1] & l2 & E & H); injection E as <- E; destruct (H i ltac:(left)); done.
    + rewrite elem_of_cons, IH. split.
      * intros [->|(l1 & l2 & -> & H)]; [exists [], l; split; [done|]; by intros k ->%elem_of_list_singleton|].
        exists (i :: l1), l2. split; [done|]. intros k [->|Hk]%elem_of_cons; [done|by apply H].
      * intros ([|k l1] & l2 & E & H); injection E as <- E; [by left|]. right. exists l1, l2. split; [done|]. intros k' Hk'. apply H. cbn. by right.
Qed.
Lemma c_keys_parents g l j : j ∈ c_keys g l → j ∈ l ∧ g_parents g j ≠ ∅.
Proof.
  intros (l1 & l2 & -> & H)%elem_of_c_keys. split; [rewrite elem_of_app; right; left|]. apply H. rewrite elem_of_app. right. left.
Qed.

Lemma loopR_cong {S A} (f h : A → S → res S) l s : (∀ a s, a ∈ l → f a s = h a s) → loopR f l s = loopR h l s.
Proof.
  revert s. induction l as [|a l IH]; intros s H; [done|]. cbn [loopR]. rewrite (H a s ltac:(left)). destruct (h a s); [|done]. cbn [res_bind].
  apply IH. intros a' s' Ha. apply H. by right.
Qed.
Lemma loopR_keep {A S} (f : A → S → res S) (I : S → Prop) l s s' :
  (∀ a s s', a ∈ l → I s → f a s = Ok s' → I s') → I s → loopR f l s = Ok s' → I s'.
Proof.
  revert s. induction l as [|a l IH]; intros s Hf Hs E; cbn [loopR] in E; [by injection E as <-|].
  destruct (f a s) as [s1|] eqn:E1; [|done]. cbn [res_bind] in E. eapply IH; [|eapply Hf; [left|exact Hs|exact E1]|exact E].
  intros; eapply Hf; eauto. by right.
Qed.

(** Every path that is added ends in [j]. *)
Lemma dp_found_last g o j p f acc l : l ∈ dom (dp_found g o j p f acc) → l ∈ dom acc ∨ last l = Some j.
Proof.
  unfold dp_found. assert (∀ k, last (p ++ [k; j]) = Some j) as Hl.
  { intros k. change [k; j] with ([k] ++ [j]). by rewrite (assoc_L app), last_snoc. }
  assert (∀ (h : pdict → node → pdict) ks acc0, (∀ a k, h a k = a ∨ ∃ b, h a k = <[p ++ [k; j] := b]> a) →
    l ∈ dom (foldl h acc0 ks) → l ∈ dom acc0 ∨ last l = Some j) as H.
  { intros h ks. induction ks as [|k ks IH]; intros acc0 Hh; cbn [foldl]; [by left|]. intros [H|H]%IH; [|by right|done].
    destruct (Hh acc0 k) as [E|[b E]]; rewrite E in H; [by left|]. rewrite dom_insert in H. apply elem_of_union in H as [->%elem_of_singleton|H]; [right; apply Hl|by left]. }
  intros Hd. apply H in Hd as [Hd|Hd]; [|by right|].
  - apply H in Hd; [done|]. intros a k. repeat case_decide; eauto.
  - intros a k. repeat case_decide; eauto.
Qed.
Lemma dp_loop_last g o cs j fuel queue acc m l : dp_loop g o cs j fuel queue acc = Ok m → l ∈ dom m → l ∈ dom acc ∨ last l = Some j.
Proof.
  revert queue acc. induction fuel as [|fuel IH]; intros [|p queue] acc E Hl; cbn [dp_loop] in E; try (injection E as <-; by left); [done|].
  destruct (last p) as [f|]; [|done]. destruct (IH _ _ E Hl) as [H|H]; [|by right]. by apply dp_found_last in H.
Qed.

Lemma c_discriminating_paths_spec g o : gok g → ancestral (gmix g) →
  ∃ m, c_discriminating_paths g o = Ok m ∧
    ∀ l c, m !! l = Some c ↔ lab g l c ∧ ∃ j, last l = Some j ∧ j ∈ c_keys g (on o [153] (g_nodes g ∪ dom (g_par g))).
Proof.
  intros Hg Ha. set (L := c_keys g (on o [153] (g_nodes g ∪ dom (g_par g)))).
  destruct (disc_loop_spec g o Hg Ha L) as (m & E & Hs & Hc). exists m.
  assert (c_discriminating_paths g o = Ok m) as E'.
  { rewrite <-E. apply loopR_cong. intros j acc Hj. rewrite decide_False; [done|]. by apply (c_keys_parents g _ j) in Hj as [_ ?]. }
  split; [done|]. intros l c. split.
  - intros Hl. split; [by apply Hs|].
    assert (∀ l, l ∈ dom m → ∃ j, last l = Some j ∧ j ∈ L) as H; [|apply H; by eapply elem_of_dom_2].
    unfold c_discriminating_paths in E'. cbn zeta in E'. fold L in E'.
    eapply (loopR_keep _ (λ m : pdict, ∀ l, l ∈ dom m → ∃ j, last l = Some j ∧ j ∈ L)); [|intros l'; rewrite dom_empty; by intros ?%not_elem_of_empty|exact E'].
    intros j a a' Hj IH E1. eapply (loopR_keep _ (λ m : pdict, ∀ l, l ∈ dom m → ∃ j, last l = Some j ∧ j ∈ L)); [|exact IH|exact E1].
    clear -Hj. intros i b b' _ IH E l Hl. eapply dp_loop_last in E as [H|H]; [by apply IH|by exists j|done].
  - intros [Hl (j & Hj & HjL)]. apply (lab_dom g); [done| |done]. destruct Hl as [Hl _]. by apply (Hc l j).
Qed.

(** ** [ancestors_of] *)
Lemma c_ancestors_of_spec (g : ag) (o : oracle) (n : node) (X : arcset) : gok g →
  ∃ Y, c_ancestors_of g o n X = Ok Y ∧ ∀ x, x ∈ Y ↔ ancestor (g_dir g ∖ X) x n.
Proof.
  intros Hg.
  destruct (add_closure_empty (λ n, filter (λ p, (p, n) ∉ X) (g_parents g n)) o (g_nodes g)) with (fuel := g_fuel g) (n := n) as (Y & E & HY).
  - intros x y [_ Hy]%elem_of_filter. by apply (gparents_sub g Hg x).
  - unfold g_fuel. lia.
  - exists Y. split; [exact E|]. intros x. rewrite HY. unfold ancestor. rewrite (tc_flip (edge _)). apply tc_iff. intros a b. unfold edge, flip.
    rewrite elem_of_filter, elem_of_difference, (gok_par _ Hg). tauto.
Qed.

(** ** [legitimate_mark_changes] *)
Lemma c_changes_spec (ok : arc → res bool) (P : arc → Prop) l : (∀ e, e ∈ l → ∃ b, ok e = Ok b ∧ (b = true ↔ P e)) →
  ∃ X, c_changes ok l = Ok X ∧ ∀ e, e ∈ X ↔ e ∈ l ∧ P e.
Proof.
  unfold c_changes. intros H.
  assert (∀ acc : arcset, ∃ X, loopR (λ e (acc : arcset), res_bind (ok e) (λ b : bool, Ok (if b then {[e]} ∪ acc else acc))) l acc = Ok X ∧
    ∀ e, e ∈ X ↔ e ∈ acc ∨ e ∈ l ∧ P e) as Hl.
  { induction l as [|e l IH]; intros acc; cbn [loopR].
    - exists acc. split; [done|]. intros e. rewrite elem_of_nil. tauto.
    - destruct (H e ltac:(left)) as (b & -> & Hb). cbn [res_bind].
      destruct (IH ltac:(intros e' He'; apply H; by right) (if b then {[e]} ∪ acc else acc)) as (X & -> & HX). exists X. split; [done|].
      intros e'. rewrite HX, elem_of_cons. destruct b.
      + rewrite elem_of_union, elem_of_singleton. split; [intros [[->|?]|?]; [right; split; [by left|by apply Hb]|tauto|tauto]|intros [?|[[->|?] ?]]; tauto].
      + split; [tauto|]. intros [?|[[->|?] ?]]; [tauto| |tauto]. apply Hb in H0. done. }
  destruct (Hl ∅) as (X & -> & HX). exists X. split; [done|]. intros e. rewrite HX. split; [intros [?%not_elem_of_empty|?]; done|tauto].
Qed.

(** The conditions that the method checks; [dom] is the set of recorded paths. *)
Record weak_legit (g : ag) (dp : pdict) (a b : node) (X : arcset) : Prop := WeakLegit {
  wl_par : ∀ c, (c, a) ∈ g_dir g → (c, b) ∈ g_dir g;
  wl_spo : ∀ d, d ≠ b → spouse (gmix g) d a → madj (gmix g) d b;
  wl_disc : ∀ p, p ++ [a; b] ∉ dom dp;
  wl_anc : ¬ ancestor (g_dir g ∖ X) a b
}.
Lemma no_disc_path_dom dp a b : no_disc_path dp a b = true ↔ ∀ p, p ++ [a; b] ∉ dom dp.
Proof.
  unfold no_disc_path. rewrite bool_decide_eq_true. split.
  - intros H p Hp. apply (H _ Hp). rewrite reverse_app. cbn. by eexists.
  - intros H l Hl [r E]. apply (H (reverse r)). assert (reverse r ++ [a; b] = l) as ->; [|done].
    rewrite <-(reverse_involutive l), E, reverse_app. done.
Qed.
Lemma c_mark_ok_spec g o dp a b (sp : nset) X : gok g → (∀ d, d ∈ sp ↔ d ≠ b ∧ spouse (gmix g) d a) →
  ∃ r, c_mark_ok g o dp a b sp X = Ok r ∧ (r = true ↔ weak_legit g dp a b X).
Proof.
  intros Hg Hsp. unfold c_mark_ok.
  assert (∀ P : node → Prop, set_Forall P (g_parents g a) ↔ ∀ c, (c, a) ∈ g_dir g → P c) as Hp.
  { intros P. unfold set_Forall. by setoid_rewrite (gok_par _ Hg). }
  assert (set_Forall (λ p, has_directed g p b = true) (g_parents g a) ↔ ∀ c, (c, a) ∈ g_dir g → (c, b) ∈ g_dir g) as H1.
  { rewrite Hp. unfold has_directed. by setoid_rewrite bool_decide_eq_true. }
  assert (set_Forall (λ s, has_any_edge g s b = true) sp ↔ ∀ d, d ≠ b → spouse (gmix g) d a → madj (gmix g) d b) as H2.
  { unfold set_Forall. setoid_rewrite Hsp. split.
    - intros H d N S. by apply has_any_edge_spec, H.
    - intros H d [N S]. by apply has_any_edge_spec, H. }
  destruct (_ && no_disc_path dp a b) eqn:E.
  - rewrite !andb_true_iff, !bool_decide_eq_true, H1, H2, no_disc_path_dom in E. destruct E as [[E1 E2] E3].
    destruct (c_ancestors_of_spec g o b X Hg) as (Y & -> & HY). cbn [res_bind]. eexists. split; [done|]. rewrite bool_decide_eq_true, HY.
    split; [by intros; split|by intros []].
  - exists false. split; [done|]. split; [done|]. intros [W1 W2 W3 _]. exfalso. apply not_true_iff_false in E. apply E.
    rewrite !andb_true_iff, !bool_decide_eq_true, H1, H2, no_disc_path_dom. done.
Qed.

Lemma c_lmc_spec g o : gok g → ancestral (gmix g) → g_un g = ∅ →
  ∃ dp X Y, c_discriminating_paths g o = Ok dp ∧ c_legitimate_mark_changes g o = Ok (X, Y) ∧
    (∀ a b, (a, b) ∈ X ↔ (a, b) ∈ g_dir g ∧ weak_legit g dp a b {[(a, b)]}) ∧
    (∀ a b, (a, b) ∈ Y ↔ spouse (gmix g) a b ∧ weak_legit g dp a b ∅).
Proof.
  intros Hg Ha Hun. unfold c_legitimate_mark_changes. rewrite decide_True by done.
  destruct (c_discriminating_paths_spec g o Hg Ha) as (dp & E & _). exists dp. rewrite E. cbn [res_bind].
  pose proof (gmix_simple g Hg) as Hsi.
  assert (∀ x d, d ∈ g_spouses g x ↔ spouse (gmix g) d x) as Hs.
  { intros x d. rewrite (gok_spo _ Hg), <-(spouse_upair g x d Hg). split; apply spouse_sym. }
  destruct (c_changes_spec (λ e, c_mark_ok g o dp e.1 e.2 (g_spouses g e.1) {[e]}) (λ e, weak_legit g dp e.1 e.2 {[e]}) (oa o [203] (g_dir g))) as (X & -> & HX).
  { intros [a b] He%elem_of_oa. apply c_mark_ok_spec; [done|]. intros d. cbn [fst snd]. rewrite Hs. split; [|tauto]. intros Hd. split; [|done]. intros ->.
    apply (simple_dir _ Hsi) in He as (_ & He & _). by apply He, spouse_sym. }
  destruct (c_changes_spec (λ e, c_mark_ok g o dp e.1 e.2 (g_spouses g e.1 ∖ {[e.2]}) ∅) (λ e, weak_legit g dp e.1 e.2 ∅) (oa o [204] (g_bi g ∪ rev_arcs (g_bi g)))) as (Y & -> & HY).
  { intros [a b] He. apply c_mark_ok_spec; [done|]. intros d. cbn [fst snd]. rewrite elem_of_difference, Hs, elem_of_singleton. tauto. }
  cbn [res_bind]. exists X, Y. split_and!; [done..| |]; intros a b.
  - rewrite HX, elem_of_oa. done.
  - rewrite HY, elem_of_oa, elem_of_union, elem_of_rev_arcs. done.
Qed.
