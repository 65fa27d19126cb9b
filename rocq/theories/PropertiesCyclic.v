(** The ancestral graphs of cyclic_graph.py: C114. *)
From Verif Require Import Py Spec SpecDsep SpecMixed SpecMagMec DagModel UGraphModel CompareModel AncestralModel MagModel MagMecModel CyclicModel AncestralState AncestralProofs AncestralCopy
  PropertiesAncestral TopoProofs StateProofs ReachProofs QueryProofs PdagProofs UGraphProofs CompareProofs ShdProofs MWalkProofs MsepProofs InduceProofs MagProofs MaxProofs
  MagMecProofs MagMecCore MagMecMain MagMecNec MagMarkProofs MagLegitProofs MagDiscProofs MagEquivProofs MagChangeProofs MagAllProofs CyclicProofs InterveneModel MsepModel DsepModel
  PropertiesMsep PropertiesMag PropertiesMagMec.

(** ** [vstructures] *)

(** The last entry of a triple may be either end of the structure. *)
Theorem C114_vstructures_partial g o :
  ag_wf g →
  (∀ x z y, (x, z, y) ∈ c_vstructures g o → ∃ w, x < w ∧ mvstruct (gmix g) x z w ∧ (y = x ∨ y = w)) ∧
  (∀ x z w, x < w → mvstruct (gmix g) x z w → (x, z, x) ∈ c_vstructures g o ∨ (x, z, w) ∈ c_vstructures g o).
Proof.
  rewrite <-gok_ag_wf. intros Hg. split.
  - intros x z y (w & _ & -> & Hv)%c_vstructures_spec; [|done]. assert (w ≠ y) as Hne by apply Hv.
    destruct (decide (w < y)).
    + exists y. rewrite Nat.min_l by lia. split_and!; [done..|by right].
    + exists w. rewrite Nat.min_r by lia. split_and!; [lia|by apply mvstruct_sym|by left].
  - intros x z w Hxw Hv. pose proof Hv as ((H1 & H2) & Hne & Hna). rewrite !c_vstructures_spec by done.
    destruct (combinations2_total (on o [152; z] (g_parents g z ∪ g_spouses g z)) x w) as [[H _]|[H _]];
      [apply NoDup_on|by apply elem_of_on, into_set..|done|right; exists x|left; exists w]; (split; [done|]).
    + split; [lia|done].
    + split; [lia|by apply mvstruct_sym].
Qed.
(** The result is right if the sets of parents and spouses are iterated in increasing order. *)
Definition increasing (g : ag) (o : oracle) : Prop :=
  ∀ z x y, (x, y) ∈ combinations2 (on o [152; z] (g_parents g z ∪ g_spouses g z)) → x < y.
Theorem C114_vstructures_increasing g o x z y :
  ag_wf g → increasing g o → (x, z, y) ∈ c_vstructures g o ↔ x < y ∧ mvstruct (gmix g) x z y.
Proof.
  rewrite <-gok_ag_wf. intros Hg Ho. rewrite c_vstructures_spec by done. split.
  - intros (w & Hp & -> & Hv). apply Ho in Hp. rewrite Nat.min_l by lia. done.
  - intros [Hxy Hv]. exists x. split; [|split; [lia|done]]. pose proof Hv as ((H1 & H2) & Hne & Hna).
    destruct (combinations2_total (on o [152; z] (g_parents g z ∪ g_spouses g z)) x y) as [[H _]|[H _]];
      [apply NoDup_on|by apply elem_of_on, into_set..|done|done|]. apply Ho in H. lia.
Qed.
Definition increasingb (g : ag) (o : oracle) : bool :=
  forallb (λ z, forallb (λ e, e.1 <? e.2) (combinations2 (on o [152; z] (g_parents g z ∪ g_spouses g z)))) (elements (g_nodes g)).
Lemma increasingb_spec g o : gok g → increasingb g o = true → increasing g o.
Proof.
  intros Hg H z x y Hp. unfold increasingb in H. rewrite forallb_forall in H.
  assert (z ∈ g_nodes g) as Hz.
  { apply combinations2_ne in Hp as (_ & Hx & _); [|apply NoDup_on]. rewrite elem_of_on, into_set in Hx by done. apply (madj_nodes g Hg x z). by apply into_adj. }
  specialize (H z). rewrite <-elem_of_list_In, elem_of_elements in H. specialize (H Hz). rewrite forallb_forall in H.
  specialize (H (x, y)). rewrite <-elem_of_list_In in H. by apply Nat.ltb_lt, H.
Qed.
Example C114_vstructures_example :
  ag_wf md_ag ∧ increasing md_ag oracle0 ∧ bool_decide (c_vstructures md_ag oracle0 = {[(0, 1, 2)]}) = true ∧
  bool_decide (c_vstructures md_ag oracle_rev = {[(0, 1, 0)]}) = true.
Proof. split_and!; [ex_wf| |by vm_compute..]. apply increasingb_spec; [apply gok_ag_wf; ex_wf|by vm_compute]. Qed.
(** In general the triples are not the structures of the graph and depend on the order of iteration. *)
Theorem C114_vstructures_refuted :
  ∃ g o o' x z, ag_wf g ∧ ancestral (gmix g) ∧ (x, z, x) ∈ c_vstructures g o ∧ c_vstructures g o ≠ c_vstructures g o'.
Proof.
  exists md_ag, oracle_rev, oracle0, 0, 1. split_and!; [ex_wf|ex_wf|by apply (bool_decide_unpack _); vm_compute|].
  apply (bool_decide_unpack _). by vm_compute.
Qed.

(** ** [discriminating_paths] *)

(** [ks] lists the keys of [_parents] in the order of their insertion.  The paths to a node are recorded
    if no key without parents comes before the node. *)
Theorem C114_discriminating_paths_partial g o :
  ag_wf g → ancestral (gmix g) →
  ∃ m ks, c_discriminating_paths g o = Ok m ∧ ks ≡ₚ elements (g_nodes g ∪ dom (g_par g)) ∧
    ∀ l c, m !! l = Some c ↔
      discriminating (gmix g) l ∧ (c = true ↔ discr_collider (gmix g) l) ∧
      ∃ ks1 j ks2, ks = ks1 ++ j :: ks2 ∧ last l = Some j ∧ ∀ k, k ∈ ks1 → ∃ p, (p, k) ∈ g_dir g.
Proof.
  rewrite <-gok_ag_wf. intros Hg Ha. destruct (c_discriminating_paths_spec g o Hg Ha) as (m & E & Hm).
  exists m, (on o [153] (g_nodes g ∪ dom (g_par g))). split; [done|]. split; [apply on_perm|]. intros l c. rewrite Hm. unfold lab.
  assert (∀ k, g_parents g k ≠ ∅ ↔ ∃ p, (p, k) ∈ g_dir g) as Hp.
  { intros k. setoid_rewrite <-(gok_par _ Hg). split; [apply set_choose_L|]. intros [p Hp] E0. rewrite E0 in Hp. by apply not_elem_of_empty in Hp. }
  split.
  - intros [[H1 H2] (j & Hj & (ks1 & ks2 & E1 & Hk)%elem_of_c_keys)]. split_and!; [done..|]. exists ks1, j, ks2. split_and!; [done..|].
    intros k Hk1. apply Hp, Hk. rewrite elem_of_app. by left.
  - intros (H1 & H2 & ks1 & j & ks2 & E1 & Hj & Hk). split; [done|]. exists j. split; [done|]. apply elem_of_c_keys. exists ks1, ks2. split; [done|].
    intros k. rewrite Hp, elem_of_app. intros [Hk1| ->%elem_of_list_singleton]; [by apply Hk|].
    destruct (disc_last g o Hg Ha l H1) as (j' & p & Hj' & Hd & _). rewrite Hj in Hj'. injection Hj' as <-. by exists p.
Qed.
(** All paths are recorded if the keys with parents come first, as in a graph that was built by adding directed
    edges and has not been read before. *)
Definition parents_first (g : ag) (o : oracle) : Prop :=
  ∀ k j, (k, j) ∈ combinations2 (on o [153] (g_nodes g ∪ dom (g_par g))) → g_parents g j ≠ ∅ → g_parents g k ≠ ∅.
Lemma parents_first_keys g o j : parents_first g o → j ∈ g_nodes g → g_parents g j ≠ ∅ → j ∈ c_keys g (on o [153] (g_nodes g ∪ dom (g_par g))).
Proof.
  intros Ho Hj Hp. assert (j ∈ on o [153] (g_nodes g ∪ dom (g_par g))) as (l1 & l2 & E)%elem_of_list_split by (apply elem_of_on, elem_of_union; by left).
  apply elem_of_c_keys. exists l1, l2. split; [done|]. intros k [Hk| ->%elem_of_list_singleton]%elem_of_app; [|done].
  apply elem_of_list_split in Hk as (l3 & l4 & ->). apply (Ho k j); [|done].
  rewrite E. apply elem_of_combinations2. exists l3, l4, l2. by rewrite <-(assoc_L app).
Qed.
Theorem C114_discriminating_paths_first g o :
  ag_wf g → ancestral (gmix g) → parents_first g o →
  ∃ m, c_discriminating_paths g o = Ok m ∧
    ∀ l c, m !! l = Some c ↔ discriminating (gmix g) l ∧ (c = true ↔ discr_collider (gmix g) l).
Proof.
  rewrite <-gok_ag_wf. intros Hg Ha Ho. destruct (c_discriminating_paths_spec g o Hg Ha) as (m & E & Hm). exists m. split; [done|].
  intros l c. rewrite Hm. unfold lab. split; [tauto|]. intros [H1 H2]. split; [done|].
  destruct (disc_last g o Hg Ha l H1) as (j & p & Hj & Hd & HjN). exists j. split; [done|]. apply parents_first_keys; [done|done|].
  apply (gok_par _ Hg) in Hd. intros E0. rewrite E0 in Hd. by apply not_elem_of_empty in Hd.
Qed.
(** Example graphs with the discriminating path [4, 0, 2, 1]. *)
Definition cy_ag : ag := (ag_new ∅ [(4, 0); (0, 1)] [(0, 2); (2, 1)] []).1.
Definition cz_ag : ag := (ag_new ∅ [(4, 0); (0, 1); (2, 1)] [(0, 2)] []).1.
Definition parents_firstb (g : ag) (o : oracle) : bool :=
  forallb (λ e, bool_decide (g_parents g e.2 ≠ ∅ → g_parents g e.1 ≠ ∅)) (combinations2 (on o [153] (g_nodes g ∪ dom (g_par g)))).
Lemma parents_firstb_spec g o : parents_firstb g o = true → parents_first g o.
Proof.
  unfold parents_firstb. rewrite forallb_forall. intros H k j Hp. specialize (H (k, j)). rewrite <-elem_of_list_In in H.
  apply H in Hp. by apply bool_decide_eq_true in Hp.
Qed.
Lemma cy_wf g : g = cy_ag ∨ g = cz_ag →
  ag_wf g ∧ ancestral (gmix g) ∧ maximal (g_nodes g) (gmix g) ∧ increasing g oracle0 ∧ parents_first g oracle0.
Proof.
  intros H. assert (ag_wf g) as Hw by (destruct H as [-> | ->]; by apply new_gok_wf). assert (gok g) as Hg by (by apply gok_ag_wf).
  assert (ancestral (gmix g)) as Ha by (apply ancestralb_spec; [done|]; destruct H as [-> | ->]; by vm_compute).
  split; [done|]. split; [done|]. split; [apply is_maximal_maximal; [done|done|]; destruct H as [-> | ->]; by vm_compute|].
  split; [apply increasingb_spec; [done|]|apply parents_firstb_spec]; destruct H as [-> | ->]; by vm_compute.
Qed.
Example C114_discriminating_paths_example :
  ag_wf cy_ag ∧ ancestral (gmix cy_ag) ∧ parents_first cy_ag oracle0 ∧
  match c_discriminating_paths cy_ag oracle0 with Ok m => bool_decide (m = {[ [4; 0; 2; 1] := true ]}) | _ => false end = true ∧
  match c_discriminating_paths cz_ag oracle0 with Ok m => bool_decide (m = {[ [4; 0; 2; 1] := false ]}) | _ => false end = true.
Proof. destruct (cy_wf cy_ag ltac:(by left)) as (? & ? & ? & ? & ?). split_and!; [done..|by vm_compute|by vm_compute]. Qed.
(** In general paths are missing, so the result depends on the order of the keys. *)
Theorem C114_discriminating_paths_refuted :
  ∃ g o l, ag_wf g ∧ ancestral (gmix g) ∧ discriminating (gmix g) l ∧ c_discriminating_paths g o = Ok ∅.
Proof.
  exists md_ag, oracle0, [0; 1; 2; 3]. split_and!; [ex_wf|ex_wf| |by vm_compute].
  destruct (C94_discriminating_paths md_ag oracle_rev) as (m & E & Hm); [ex_wf|ex_wf|].
  assert (m !! [0; 1; 2; 3] = Some true) as H by (revert E; vm_compute; intros [=<-]; reflexivity).
  by apply Hm in H as [H _].
Qed.

(** ** [markov_equivalent] *)
Theorem C114_markov_equivalent_partial g h o o' :
  ag_wf g → ag_wf h → ancestral (gmix g) → ancestral (gmix h) → g_nodes g = g_nodes h →
  maximal (g_nodes g) (gmix g) → maximal (g_nodes h) (gmix h) →
  increasing g o → increasing h o' → parents_first g o → parents_first h o' →
  ∃ b, c_markov_equivalent g h o o' = Ok b ∧ (b = true ↔ same_mseps (g_nodes g) (gmix g) (gmix h)).
Proof.
  intros Hg Hh Hag Hah HN Hmg Hmh I1 I2 F1 F2.
  destruct (C95_markov_equivalent g h o o') as (b & E & Hb); [done..|]. exists b. split; [|done]. rewrite <-E.
  unfold c_markov_equivalent, markov_equivalent.
  destruct (C94_discriminating_paths g o Hg Hag) as (m1 & -> & M1). destruct (C94_discriminating_paths h o' Hh Hah) as (m2 & -> & M2).
  destruct (C114_discriminating_paths_first g o Hg Hag F1) as (n1 & -> & N1). destruct (C114_discriminating_paths_first h o' Hh Hah F2) as (n2 & -> & N2).
  assert (n1 = m1) as -> by (apply map_eq; intros l; apply option_eq; intros c; by rewrite N1, M1).
  assert (n2 = m2) as -> by (apply map_eq; intros l; apply option_eq; intros c; by rewrite N2, M2).
  assert (∀ k q, ag_wf k → increasing k q → c_vstructures k q = g_vstructures k q) as HV.
  { intros k q Hk Hq. apply set_eq. intros [[x z] y]. by rewrite C114_vstructures_increasing, C94_vstructures. }
  cbn [res_bind]. by rewrite !HV.
Qed.
Example C114_markov_equivalent_example :
  (∀ g, g = cy_ag ∨ g = cz_ag → ag_wf g ∧ ancestral (gmix g) ∧ maximal (g_nodes g) (gmix g) ∧ increasing g oracle0 ∧ parents_first g oracle0) ∧
  bool_decide (g_nodes cy_ag = g_nodes cz_ag) = true ∧
  c_markov_equivalent cy_ag cz_ag oracle0 oracle0 = Ok false ∧ c_markov_equivalent cy_ag cy_ag oracle0 oracle0 = Ok true.
Proof. split; [apply cy_wf|]. split_and!; by vm_compute. Qed.
(** [False] may be returned for two graphs with the same nodes and edges, *)
Theorem C114_markov_equivalent_refl_refuted :
  ∃ g o o', ag_wf g ∧ ancestral (gmix g) ∧ maximal (g_nodes g) (gmix g) ∧ c_markov_equivalent g g o o' = Ok false.
Proof. exists md_ag, oracle0, oracle_rev. split_and!; [ex_wf..|by vm_compute]. Qed.
(** and [True] for graphs that are not equivalent. *)
Theorem C114_markov_equivalent_true_refuted :
  ∃ g h o, ag_wf g ∧ ag_wf h ∧ ancestral (gmix g) ∧ ancestral (gmix h) ∧ g_nodes g = g_nodes h ∧
    maximal (g_nodes g) (gmix g) ∧ maximal (g_nodes h) (gmix h) ∧
    c_markov_equivalent g h o o = Ok true ∧ ¬ same_mseps (g_nodes g) (gmix g) (gmix h).
Proof.
  exists md_ag, me_ag, oracle0. split_and!; [ex_wf..|by apply (bool_decide_unpack _); vm_compute|ex_wf|ex_wf|by vm_compute|].
  destruct (C95_markov_equivalent md_ag me_ag oracle0 oracle0) as (b & E & Hb); [ex_wf..|by apply (bool_decide_unpack _); vm_compute|ex_wf|ex_wf|].
  assert (b = false) as -> by (revert E; vm_compute; congruence). rewrite <-Hb. done.
Qed.

(** ** [ancestors_of] *)
Theorem C114_ancestors_of (g : ag) (o : oracle) (n : node) (exclude : arcset) :
  ag_wf g → ∃ X, c_ancestors_of g o n exclude = Ok X ∧ ∀ x, x ∈ X ↔ ancestor (g_dir g ∖ exclude) x n.
Proof. rewrite <-gok_ag_wf. apply c_ancestors_of_spec. Qed.
Example C114_ancestors_of_example :
  ag_wf me_ag ∧ match c_ancestors_of me_ag oracle0 3 {[(0, 1)]} with Ok X => bool_decide (X = {[1; 2]}) | _ => false end = true ∧
  match c_ancestors_of me_ag oracle0 3 {[(1, 3)]} with Ok X => bool_decide (X = {[2]}) | _ => false end = true.
Proof. split_and!; [ex_wf|by vm_compute..]. Qed.

(** ** [legitimate_mark_changes] *)
Lemma legit_anc g a b : gok g → ancestral (gmix g) → (∀ c, (a, c) ∈ g_dir g → c ≠ b → ¬ rtc (edge (g_dir g)) c b) → ¬ ancestor (g_dir g ∖ {[(a, b)]}) a b.
Proof.
  intros Hg Ha Hp Ht. inversion Ht as [? ? He|? c ? He Ht']; subst.
  - apply elem_of_difference in He as [_ He]. by apply He, elem_of_singleton.
  - apply elem_of_difference in He as [He Hn]. apply (Hp c He); [intros ->; by apply Hn, elem_of_singleton|].
    apply tc_rtc. eapply (tc_subrel (edge (g_dir g ∖ {[(a, b)]}))); [|exact Ht']. intros u v H. by apply elem_of_difference in H as [? _].
Qed.
Lemma legit_weak (g : ag) (o : oracle) (dp : pdict) (a b : node) (X : arcset) : gok g → ancestral (gmix g) → c_discriminating_paths g o = Ok dp → legit (gmix g) a b →
  ((a, b) ∈ g_dir g ∧ X = {[(a, b)]} ∨ spouse (gmix g) a b ∧ X = ∅) → weak_legit g dp a b X.
Proof.
  intros Hg Ha E [[S1 S2 S3 S4] Hp] HX. destruct (c_discriminating_paths_spec g o Hg Ha) as (m & E' & Hm). rewrite E in E'. injection E' as <-.
  split; [done| | |].
  - intros d Hd Hs. destruct (S3 d Hd Hs) as [H|H]; [by left|right; right; by left].
  - intros p [c Hc]%elem_of_dom. apply Hm in Hc as [[Hc _] _]. by apply (S4 _ p Hc).
  - destruct HX as [[Hd ->]|[Hs ->]]; [by apply legit_anc|]. intros Ht. apply (legit_anc g a b Hg Ha Hp).
    assert (g_dir g ∖ {[(a, b)]} = g_dir g ∖ ∅) as ->; [|done]. apply set_eq. intros e. rewrite !elem_of_difference, elem_of_singleton.
    split; [intros [? _]; split; [done|by intros ?%not_elem_of_empty]|]. intros [He _]. split; [done|]. intros ->.
    by apply (simple_dir _ (gmix_simple g Hg)) in He as (_ & He & _).
Qed.
(** No change of one mark that gives an equivalent graph is missed. *)
Theorem C114_mark_changes_complete g o :
  ag_wf g → ancestral (gmix g) → maximal (g_nodes g) (gmix g) → g_un g = ∅ →
  ∃ X Y, c_legitimate_mark_changes g o = Ok (X, Y) ∧ X ⊆ g_dir g ∧ (∀ a b, (a, b) ∈ Y → spouse (gmix g) a b) ∧
    (∀ a b h, ag_wf h → g_nodes h = g_nodes g → swap (gmix g) (gmix h) a b → ancestral (gmix h) → same_mseps (g_nodes g) (gmix g) (gmix h) → (a, b) ∈ X) ∧
    (∀ a b h, ag_wf h → g_nodes h = g_nodes g → swap (gmix h) (gmix g) a b → ancestral (gmix h) → same_mseps (g_nodes g) (gmix g) (gmix h) → (a, b) ∈ Y).
Proof.
  intros Hw Ha Hmx HU. pose proof Hw as Hg. apply gok_ag_wf in Hg. destruct (c_lmc_spec g o Hg Ha HU) as (dp & X & Y & E & EL & HX & HY).
  exists X, Y. split; [done|]. split; [by intros [a b] [? _]%HX|]. split; [by intros a b [? _]%HY|].
  destruct (C96_mark_changes g o (λ _, false) Hw Ha Hmx HU) as (X' & Y' & E' & HX' & HY').
  destruct (lmc_spec g o (λ _, false) Hg Ha HU) as (X2 & Y2 & E2 & HX2 & HY2). rewrite E' in E2. injection E2 as <- <-.
  split; intros a b h Hh HN Hsw Hah Hs.
  - assert ((a, b) ∈ X') as [Hd Hl]%HX2 by (apply HX'; by exists h). apply HX. split; [done|]. eapply legit_weak; eauto.
  - assert ((a, b) ∈ Y') as [Hd Hl]%HY2 by (apply HY'; by exists h). apply HY. split; [done|]. eapply legit_weak; eauto.
Qed.
Example C114_mark_changes_example :
  ag_wf ma_ag ∧ ancestral (gmix ma_ag) ∧ maximal (g_nodes ma_ag) (gmix ma_ag) ∧ g_un ma_ag = ∅ ∧
  match c_legitimate_mark_changes ma_ag oracle0 with Ok (X, Y) => bool_decide (X = {[(0, 1)]} ∧ Y = {[(2, 1)]}) | _ => false end = true ∧
  match c_legitimate_mark_changes cz_ag oracle0 with Ok (X, Y) => bool_decide (X = {[(4, 0)]} ∧ Y = {[(2, 0)]}) | _ => false end = true.
Proof. split_and!; [ex_wf..|by vm_compute|by vm_compute]. Qed.
(** Without bidirected edges the changes are those of the newer class. *)
Theorem C114_mark_changes_dag g o o' flip :
  ag_wf g → ancestral (gmix g) → g_un g = ∅ → g_bi g = ∅ →
  ∃ X, c_legitimate_mark_changes g o = Ok (X, ∅) ∧ legitimate_mark_changes g o' flip = Ok (X, ∅).
Proof.
  intros Hw Ha HU HB. pose proof Hw as Hg. apply gok_ag_wf in Hg.
  destruct (lmc_spec g o' flip Hg Ha HU) as (X & Y & E & HX & HY). destruct (c_lmc_spec g o Hg Ha HU) as (dp & X' & Y' & Ed & E' & HX' & HY').
  assert (∀ x y, ¬ spouse (gmix g) x y) as Hns by (intros x y; unfold spouse; cbn; rewrite HB; by intros [?%not_elem_of_empty|?%not_elem_of_empty]).
  assert (Y = ∅) as ->. { apply set_eq. intros [a b]. split; [|by intros ?%not_elem_of_empty]. intros [H _]%HY. by apply Hns in H. }
  assert (Y' = ∅) as ->. { apply set_eq. intros [a b]. split; [|by intros ?%not_elem_of_empty]. intros [H _]%HY'. by apply Hns in H. }
  exists X. split; [|done]. rewrite E'. f_equal. f_equal. pose proof (gmix_simple g Hg) as Hsi. pose proof Ha as [Hac _].
  apply set_eq. intros [a b]. rewrite HX, HX'. split.
  - intros [Hab [W1 _ _ W4]]. split; [done|].
    assert (∀ c, (a, c) ∈ g_dir g → c ≠ b → ¬ rtc (edge (g_dir g)) c b) as Hp.
    { intros c Hc Hcb Hr. apply W4.
      assert (∀ x, rtc (edge (g_dir g)) x b → tc (edge (g_dir g)) a x → rtc (edge (g_dir g ∖ {[(a, b)]})) x b) as Hgo.
      { clear -Hac. intros x H Hax. induction H as [x|x y z Hxy _ IH]; [done|]. eapply rtc_l; [|apply IH].
        - apply elem_of_difference. split; [done|]. intros [= -> ->]%elem_of_singleton. by apply (Hac a).
        - eapply tc_r; [exact Hax|exact Hxy]. }
      eapply tc_rtc_r; [apply tc_once|apply (Hgo c Hr); by apply tc_once]. apply elem_of_difference. split; [done|]. by intros [= ->]%elem_of_singleton. }
    split; [|exact Hp]. split; [by left|done| |].
    + intros d _ Hd. by apply Hns in Hd.
    + intros l p (Hnd & Ht & x & q & m & b' & y & El & Hna & Hin) Ep.
      destruct (last_two x q m) as (p1 & w & u & E1). rewrite El in Ep. change (x :: q :: m ++ [b'; y]) with ((x :: q :: m) ++ [b'; y]) in Ep.
      apply app_inj_2 in Ep as [_ E2]; [|done]. injection E2 as -> ->.
      destruct (Hin p1 w u a [b]) as [[_ Hau] Hub]; [|done|].
      { rewrite El. change (x :: q :: m ++ [a; b]) with ((x :: q :: m) ++ [a; b]). rewrite E1. by rewrite <-(assoc_L app). }
      destruct Hau as [Hau|Hau]; [|by apply Hns in Hau]. apply (Hp u Hau); [|by apply rtc_once].
      intros ->. apply (simple_irr _ Hsi b). by left.
  - intros [Hab Hl]. split; [done|]. eapply legit_weak; eauto.
Qed.
Example C114_mark_changes_dag_example :
  ag_wf mb_ag ∧ ancestral (gmix mb_ag) ∧ g_un mb_ag = ∅ ∧ g_bi mb_ag = ∅ ∧
  match c_legitimate_mark_changes mb_ag oracle0 with Ok (X, _) => bool_decide (X = {[(0, 1); (2, 1)]}) | _ => false end = true.
Proof. split_and!; [ex_wf..|by apply (bool_decide_unpack _); vm_compute|by vm_compute]. Qed.
(** A change that is returned may give a graph that is not ancestral. *)
Definition cs_ag : ag := (ag_new ∅ [(1, 2)] [(0, 1); (0, 2)] []).1.
Theorem C114_mark_changes_sound_refuted :
  ∃ g o X Y a b, ag_wf g ∧ ancestral (gmix g) ∧ maximal (g_nodes g) (gmix g) ∧ g_un g = ∅ ∧
    c_legitimate_mark_changes g o = Ok (X, Y) ∧ (a, b) ∈ Y ∧ ∀ h, swap (gmix h) (gmix g) a b → ¬ ancestral (gmix h).
Proof.
  assert (ag_wf cs_ag) as Hw by (by apply new_gok_wf). assert (gok cs_ag) as Hg by (by apply gok_ag_wf).
  assert (ancestral (gmix cs_ag)) as Ha by (apply ancestralb_spec; [done|by vm_compute]).
  assert (g_un cs_ag = ∅) as HU by (by apply (bool_decide_unpack _); vm_compute).
  destruct (c_lmc_spec cs_ag oracle0 Hg Ha HU) as (dp & X & Y & _ & E & _ & _). exists cs_ag, oracle0, X, Y, 0, 1.
  split_and!; [done|done| |done|done| |].
  - apply is_maximal_maximal; [done|done|by vm_compute].
  - assert (match c_legitimate_mark_changes cs_ag oracle0 with Ok (X, Y) => bool_decide ((0, 1) ∈ Y) | _ => false end = true) as H by (by vm_compute).
    rewrite E in H. by apply bool_decide_eq_true in H.
  - intros h Hsw [_ Hs]. apply (Hs 0 2).
    + apply (sw_spo _ _ _ _ Hsw). split; [|done]. by apply (bool_decide_unpack _); vm_compute.
    + eapply rtc_l; [exact (sw_D _ _ _ _ Hsw)|]. apply rtc_once. unfold edge.
      assert ((1, 2) ∈ mx_dir (gmix cs_ag)) as [H _]%(sw_dir _ _ _ _ Hsw) by (by apply (bool_decide_unpack _); vm_compute). done.
Qed.
Theorem C114_mark_changes_undirected g o : g_un g ≠ ∅ → c_legitimate_mark_changes g o = Raise ValueError.
Proof. intros H. unfold c_legitimate_mark_changes. by rewrite decide_False. Qed.

Print Assumptions C114_vstructures_partial.
Print Assumptions C114_vstructures_increasing.
Print Assumptions C114_vstructures_refuted.
Print Assumptions C114_discriminating_paths_partial.
Print Assumptions C114_discriminating_paths_first.
Print Assumptions C114_discriminating_paths_refuted.
Print Assumptions C114_markov_equivalent_partial.
Print Assumptions C114_markov_equivalent_refl_refuted.
Print Assumptions C114_markov_equivalent_true_refuted.
Print Assumptions C114_ancestors_of.
Print Assumptions C114_mark_changes_complete.
Print Assumptions C114_mark_changes_dag.
Print Assumptions C114_mark_changes_sound_refuted.
Print Assumptions C114_mark_changes_undirected.
