(** Final theorems about districts, Markov blankets, pairwise statements and
    maximality of [AncestralGraph], and chain components of [PDAG]: C41, C56,
    C70, C71, C72, C73. *)
From Verif Require Import Py Spec SpecDsep SpecMixed DagModel DsepModel UGraphModel PdagModel InterveneModel AncestralModel MsepModel MagModel
  TopoProofs StateProofs ReachProofs OrderProofs QueryProofs UGraphProofs PdagProofs WalkProofs DsepProofs InterveneProofs AncestralState
  AncestralProofs AncestralCopy MWalkProofs MsepProofs InduceProofs GlobalProofs MagProofs MaxProofs PropertiesEnum PropertiesAncestral PropertiesMsep.

(** Graph used in the examples: 1 <-> 2 <-> 3 <-> 4 with 2 -> 4 and 3 -> 1; the
    non-adjacent nodes 1 and 4 are separated by no set. *)
Definition nm_ag : ag := (ag_new ∅ [(2, 4); (3, 1)] [(1, 2); (2, 3); (3, 4)] []).1.
Lemma nm_wf : ag_wf nm_ag. Proof. by apply new_gok_wf. Qed.
Lemma nm_anc : ancestral (gmix nm_ag).
Proof. apply ancestralb_spec; [by apply gok_ag_wf, nm_wf|by vm_compute]. Qed.

(** ** C41: component decompositions *)

Theorem C41_district_of g o v sub :
  ag_wf g → ∃ X, district_of g o v sub = Ok X ∧
    ∀ x, x ∈ X ↔ rtc (λ a b, spouse (gmix g) a b ∧ b ∈ default (g_nodes g) sub) v x.
Proof. rewrite <-gok_ag_wf. intros Hg. by apply district_of_spec. Qed.

(** The sets returned by [c_components] are non-empty, pairwise disjoint, cover the
    nodes, and two nodes share one exactly when a bidirected path joins them. *)
Theorem C41_c_components g o :
  ag_wf g → ∃ cs, c_components g o = Ok cs ∧
    (∀ c, c ∈ cs → c ≠ ∅ ∧ c ⊆ g_nodes g) ∧ (∀ v, v ∈ g_nodes g → ∃ c, c ∈ cs ∧ v ∈ c) ∧
    (∀ i j c c', cs !! i = Some c → cs !! j = Some c' → i ≠ j → c ## c') ∧
    (∀ x y, x ∈ g_nodes g → (∃ c, c ∈ cs ∧ x ∈ c ∧ y ∈ c) ↔ rtc (spouse (gmix g)) x y).
Proof.
  rewrite <-gok_ag_wf. intros Hg. destruct (c_components_spec g Hg o) as (cs & E & H1 & H2 & H3).
  exists cs. split; [done|].
  assert (∀ x y, rtc (spouse (gmix g)) x y → rtc (spouse (gmix g)) y x) as Hsym.
  { intros x y Hr. induction Hr as [|x y z Hxy _ IH]; [apply rtc_refl|]. eapply rtc_r; [exact IH|]. by apply spouse_sym. }
  split_and!; [|done|done|].
  - intros c Hc. destruct (H1 c Hc) as (v & Hv & Hx). split.
    + intros ->. apply (not_elem_of_empty (C := nset) v). apply Hx. apply rtc_refl.
    + intros x Hr%Hx. clear -Hg Hv Hr. induction Hr as [|x y z Hxy _ IH]; [done|]. apply IH. apply (madj_nodes g Hg x y). unfold madj. tauto.
  - intros x y Hx. split.
    + intros (c & Hc & Hxc & Hyc). destruct (H1 c Hc) as (v & _ & Hv). apply Hv in Hxc, Hyc. etrans; [by apply Hsym|done].
    + intros Hr. destruct (H2 x Hx) as (c & Hc & Hxc). exists c. split_and!; [done..|]. destruct (H1 c Hc) as (v & _ & Hv).
      apply Hv. apply Hv in Hxc. by etrans.
Qed.
Example C41_c_components_example :
  ag_wf ms_ag ∧ match c_components ms_ag oracle0 with Ok cs => bool_decide (cs ≡ₚ [{[1]}; {[2; 3; 4]}; {[5]}; {[6]}; {[7]}; {[8]}]) | _ => false end = true ∧
  match district_of ms_ag oracle_rev 2 (Some {[1; 3]}) with Ok X => bool_decide (X = {[2; 3]}) | _ => false end = true.
Proof. split; [apply ms_wf|]. split; by vm_compute. Qed.

(** [chain_components] returns the subgraphs induced by the components of the
    undirected edges that have at least two nodes. *)
Definition und (g : pdag) (x y : node) : Prop := upair x y ∈ p_edges g.
Theorem C41_chain_components g o :
  pdag_wf g → ∃ cs, chain_components g o = Ok cs ∧
    (∀ h, h ∈ cs → pdag_wf h ∧ p_nodes h ⊆ p_nodes g ∧ 1 < size (p_nodes h) ∧
      (∀ x y, (x, y) ∈ p_arcs h ↔ (x, y) ∈ p_arcs g ∧ x ∈ p_nodes h ∧ y ∈ p_nodes h) ∧
      (∀ x y, und h x y ↔ und g x y ∧ x ∈ p_nodes h ∧ y ∈ p_nodes h)) ∧
    (∀ i j h h', cs !! i = Some h → cs !! j = Some h' → i ≠ j → p_nodes h ## p_nodes h') ∧
    (∀ x y, x ≠ y → (∃ h, h ∈ cs ∧ x ∈ p_nodes h ∧ y ∈ p_nodes h) ↔ rtc (und g) x y).
Proof.
  rewrite <-pok_pdag_wf. intros Hg. unfold chain_components.
  assert (∀ x y, y ∈ p_unbrs g x ↔ und g x y) as Hu.
  { intros x y. rewrite (pok_unb g Hg). split; [tauto|]. intros H. split; [by eapply upair_edge_ne|done]. }
  assert (∀ x y, und g x y → und g y x) as Hus by (intros x y; unfold und; by rewrite upair_comm).
  destruct (dfs_all_spec (p_unbrs g) o (p_nodes g)) with (N := p_nodes g) as (cs & vis & -> & H1 & H2 & H3).
  - intros x y Hy. apply Hu in Hy. by apply (over_upair _ _ _ _ (proj2 (pok_over g Hg)) Hy).
  - intros x y. rewrite !Hu. apply Hus.
  - done.
  - cbn [res_bind fst].
    assert (∀ v x, rtc (λ a b, b ∈ p_unbrs g a) v x ↔ rtc (und g) v x) as HR by (intros v x; apply rtc_iff; intros a b; apply Hu).
    assert (∀ x y, rtc (und g) x y → rtc (und g) y x) as Hsym.
    { intros x y Hr. induction Hr as [|x y z Hxy _ IH]; [apply rtc_refl|]. eapply rtc_r; [exact IH|]. by apply Hus. }
    assert (∀ c, c ∈ cs → c ⊆ p_nodes g) as Hsub.
    { intros c Hc x Hx. destruct (H1 c Hc) as (v & Hv & Hxv). apply Hxv, HR in Hx. clear -Hg Hv Hx.
      induction Hx as [|x y z Hxy _ IH]; [done|]. apply IH. by apply (over_upair _ _ _ _ (proj2 (pok_over g Hg)) Hxy). }
    assert (∀ c, pok (p_induced_subgraph g o c) ∧ p_nodes (p_induced_subgraph g o c) = c ∧
      (∀ x y, (x, y) ∈ p_arcs (p_induced_subgraph g o c) ↔ (x, y) ∈ p_arcs g ∧ x ∈ c ∧ y ∈ c) ∧
      (∀ x y, und (p_induced_subgraph g o c) x y ↔ und g x y ∧ x ∈ c ∧ y ∈ c)) as Hind.
    { intros c. unfold p_induced_subgraph.
      destruct (pdag_make_ok o c (filter (λ a, a.1 ∈ c ∧ a.2 ∈ c) (p_arcs g)) (filter (λ e, e.1 ∈ c ∧ e.2 ∈ c) (p_edges g)) ∅)
        as (P1 & P2 & _ & P4 & P5 & _).
      - intros x y. rewrite !elem_of_filter. intros [_ H] [_ H']. by apply (pok_asym g Hg x y).
      - intros x. rewrite elem_of_filter. intros [_ H]. apply (pok_edge g Hg) in H. cbn in H. lia.
      - intros x y. rewrite elem_of_filter. intros [_ He].
        assert (upair x y = (x, y)) as Eu by (apply (upair_id (x, y)); by apply (pok_edge g Hg)).
        intros [H|H]; rewrite elem_of_filter in H; destruct H as [_ H]; apply (pok_disj g Hg) in H; apply H; [|rewrite upair_comm]; by rewrite Eu.
      - split; [done|]. split.
        { apply P5; intros x y; rewrite elem_of_filter; cbn; tauto. }
        split.
        { intros x y. rewrite P2, elem_of_filter. cbn. tauto. }
        intros x y. unfold und at 1. rewrite P4. unfold adjacent. rewrite !elem_of_filter. cbn. unfold und.
        rewrite upair_in_lt by (intros a b Hab; by apply (pok_edge g Hg) in Hab). tauto. }
    eexists. split; [reflexivity|]. split_and!.
    + intros h (c & -> & Hc)%elem_of_list_fmap. apply elem_of_list_filter in Hc as [Hsz Hc].
      destruct (Hind c) as (I1 & I2 & I3 & I4). rewrite I2. rewrite <-pok_pdag_wf. split_and!; [done|by apply Hsub|done|done|done].
    + intros i j h h' Hi Hj Hij.
      apply list_lookup_fmap_Some in Hi as (c & Hi & ->). apply list_lookup_fmap_Some in Hj as (c' & Hj & ->).
      destruct (Hind c) as (_ & -> & _). destruct (Hind c') as (_ & -> & _).
      assert (∀ (l : list nset) i j c c', (∀ i j c c', l !! i = Some c → l !! j = Some c' → i ≠ j → c ## c') →
        filter (λ c, 1 < size c) l !! i = Some c → filter (λ c, 1 < size c) l !! j = Some c' → i ≠ j → c ## c') as Hf; [|by eapply (Hf cs i j)].
      clear. induction l as [|d l IH]; intros i j c c' Hl Hi Hj Hij; [by rewrite filter_nil in Hi|].
      assert (∀ i j c c', l !! i = Some c → l !! j = Some c' → i ≠ j → c ## c') as Hl'.
      { intros i' j' e e' H1 H2 H3. apply (Hl (S i') (S j')); [done|done|congruence]. }
      rewrite filter_cons in Hi, Hj. case_decide; [|by apply (IH i j)].
      assert (∀ k e, filter (λ c, 1 < size c) l !! k = Some e → d ## e) as Hd.
      { intros k e He. apply elem_of_list_lookup_2, elem_of_list_filter in He as [_ He]. apply elem_of_list_lookup_1 in He as [n He].
        by apply (Hl 0 (S n)). }
      destruct i as [|i], j as [|j]; cbn in Hi, Hj.
      * done.
      * injection Hi as <-. by eapply Hd.
      * injection Hj as <-. symmetry. by eapply Hd.
      * apply (IH i j); [done|done|done|congruence].
    + intros x y Hne. split.
      * intros (h & (c & -> & Hc)%elem_of_list_fmap & Hx & Hy). destruct (Hind c) as (_ & Ec & _). rewrite Ec in Hx, Hy.
        apply elem_of_list_filter in Hc as [_ Hc]. destruct (H1 c Hc) as (v & _ & Hv). apply Hv, HR in Hx. apply Hv, HR in Hy. etrans; [by apply Hsym|done].
      * intros Hr. destruct (rtc_inv _ _ Hr) as [->|(z & Hxz & _)]; [done|].
        pose proof (over_upair _ _ _ _ (proj2 (pok_over g Hg)) Hxz) as [HxN _]. destruct (H2 x HxN) as (c & Hc & Hxc).
        destruct (H1 c Hc) as (v & _ & Hv). assert (y ∈ c) as Hyc.
        { apply Hv, HR. apply Hv, HR in Hxc. by etrans. }
        exists (p_induced_subgraph g o c). destruct (Hind c) as (_ & -> & _). split; [|done]. apply elem_of_list_fmap_1, elem_of_list_filter.
        split; [|done]. assert (size ({[x; y]} : nset) ≤ size c) by (apply subseteq_size; clear -Hxc Hyc; set_solver).
        rewrite size_union in H by (clear -Hne; set_solver). rewrite !size_singleton in H. lia.
Qed.
(** 1 -> 2 - 3, 4 isolated: nodes 1 and 4 are in no component. *)
Definition cc_pdag : pdag := pdag_make oracle0 {[4]} {[(1, 2)]} {[(2, 3)]} ∅.
Lemma cc_wf : pdag_wf cc_pdag.
Proof.
  apply pok_pdag_wf. apply pdag_make_ok.
  - intros x y. rewrite !elem_of_singleton. congruence.
  - intros x. rewrite elem_of_singleton. congruence.
  - intros x y. unfold adjacent. rewrite !elem_of_singleton. intros [= -> ->] [H|H]; congruence.
Qed.
Theorem C41_chain_components_cover_refuted :
  ∃ g v, pdag_wf g ∧ v ∈ p_nodes g ∧ ∃ cs, chain_components g oracle0 = Ok cs ∧ ∀ h, h ∈ cs → v ∉ p_nodes h.
Proof.
  exists cc_pdag, 1. split; [apply cc_wf|]. split; [by apply (bool_decide_unpack _); vm_compute|].
  destruct (chain_components cc_pdag oracle0) as [cs|] eqn:E; [|by vm_compute in E].
  exists cs. split; [done|].
  assert (match chain_components cc_pdag oracle0 with Ok cs => forallb (λ h, bool_decide (1 ∉ p_nodes h)) cs | _ => false end = true) as H by by vm_compute.
  rewrite E in H. rewrite forallb_forall in H. intros h Hh. apply elem_of_list_In in Hh. apply H in Hh. by apply bool_decide_eq_true in Hh.
Qed.
Example C41_chain_components_example :
  pdag_wf cc_pdag ∧ match chain_components cc_pdag oracle0 with Ok [h] => bool_decide (p_nodes h = {[2; 3]}) | _ => false end = true.
Proof. split; [apply cc_wf|]. by vm_compute. Qed.

(** ** C70: [to_maximal] *)

(** What [to_maximal] should compute: bidirected edges are added between exactly
    the non-adjacent pairs that no set separates. *)
Definition inseparable (N : nset) (G : mixed) (x y : node) : Prop :=
  x ∈ N ∧ y ∈ N ∧ x ≠ y ∧ ¬ madj G x y ∧ ∀ C, C ⊆ N ∖ {[x; y]} → ¬ msepd G {[x]} {[y]} C.
Record maximised (g h : ag) : Prop := Maximised {
  mm_wf : ag_wf h;
  mm_anc : ancestral (gmix h);
  mm_nodes : g_nodes h = g_nodes g;
  mm_dir : ∀ x y, (x, y) ∈ g_dir h ↔ (x, y) ∈ g_dir g;
  mm_un : ∀ x y, neighbor (gmix h) x y ↔ neighbor (gmix g) x y;
  mm_bi : ∀ x y, spouse (gmix h) x y ↔ spouse (gmix g) x y ∨ inseparable (g_nodes g) (gmix g) x y;
  mm_sep : ∀ A B C, A ## C → msepd (gmix g) A B C ↔ msepd (gmix h) A B C;
  mm_max : maximal (g_nodes h) (gmix h)
}.
Lemma ext_maximised g h : gok g → ext g h → no_induced h → maximised g h.
Proof.
  intros Hg Hx Hno. pose proof (ext_ok _ _ Hx) as Hh. split.
  - by apply gok_ag_wf.
  - apply Hx.
  - apply Hx.
  - intros x y. by rewrite (ext_dir _ _ Hx).
  - intros x y. by rewrite !neighbor_upair, (ext_un _ _ Hx).
  - intros x y. by apply ext_spouse.
  - intros A B C. by apply ext_msepd.
  - by apply no_induced_maximal; [|apply Hx|].
Qed.
Theorem C70_to_maximal g o :
  ag_wf g → ancestral (gmix g) → ∃ h, to_maximal o g = (h, Ok tt) ∧ maximised g h.
Proof.
  rewrite <-gok_ag_wf. intros Hg Han. destruct (to_maximal_spec o g Hg Han) as (h & E & Hx & Hno).
  exists h. split; [done|]. by apply ext_maximised.
Qed.
Theorem C70_to_maximal_old g o p :
  ag_wf g → ancestral (gmix g) → ∃ h, to_maximal_old o p g = (h, Ok tt) ∧ maximised g h.
Proof.
  rewrite <-gok_ag_wf. intros Hg Han. destruct (to_maximal_old_spec o p g Hg Han) as (h & E & Hx & Hno).
  exists h. split; [done|]. by apply ext_maximised.
Qed.
(** Both variants give equal graphs, whatever the iteration orders. *)
Theorem C70_variants_agree g o o' p :
  ag_wf g → ancestral (gmix g) →
  ∃ h h', to_maximal o g = (h, Ok tt) ∧ to_maximal_old o' p g = (h', Ok tt) ∧ ag_eqb h h' = true.
Proof.
  intros Hg Han. destruct (C70_to_maximal g o Hg Han) as (h & E & H). destruct (C70_to_maximal_old g o' p Hg Han) as (h' & E' & H').
  exists h, h'. split_and!; [done..|]. apply C67_eq; [apply H|apply H'|]. split_and!.
  - intros x. by rewrite (mm_nodes _ _ H), (mm_nodes _ _ H').
  - intros x y. by rewrite (mm_dir _ _ H), (mm_dir _ _ H').
  - intros x y. by rewrite (mm_bi _ _ H), (mm_bi _ _ H').
  - intros x y. by rewrite (mm_un _ _ H), (mm_un _ _ H').
Qed.
Example C70_to_maximal_example :
  ag_wf nm_ag ∧ ancestral (gmix nm_ag) ∧
  match to_maximal oracle0 nm_ag with (h, Ok _) => bool_decide (g_bi h = {[(1, 2); (2, 3); (3, 4); (1, 4)]}) | _ => false end = true ∧
  match to_maximal_old oracle_rev popper_last nm_ag with (h, Ok _) => bool_decide (g_bi h = {[(1, 2); (2, 3); (3, 4); (1, 4)]}) | _ => false end = true.
Proof. split; [apply nm_wf|]. split; [apply nm_anc|]. split; by vm_compute. Qed.

(** ** C71: [is_maximal] *)
Theorem C71_is_maximal g o flip :
  ag_wf g → ancestral (gmix g) →
  ∃ b, is_maximal g o flip = Ok b ∧ (b = true ↔ maximal (g_nodes g) (gmix g)).
Proof.
  intros Hg Han. unfold is_maximal. destruct (C67_copy g o flip Hg) as (k & -> & Hk & HN & HG & _). cbn [res_bind].
  destruct (C70_to_maximal k o Hk) as (h & -> & H); [by rewrite HG|].
  eexists. split; [reflexivity|]. rewrite C67_eq; [|apply H|done]. split.
  - intros (_ & _ & Hs & _) x y Hx Hy Hne Hna.
    assert (¬ madj (gmix h) x y) as Hna'.
    { unfold madj in *. rewrite Hs, (mm_un _ _ H), HG. cbn [mx_dir gmix]. rewrite !(mm_dir _ _ H).
      assert (g_dir k = g_dir g) as -> by (by injection HG). done. }
    destruct (mm_max _ _ H x y) as (C & HC & Hsep); [by rewrite (mm_nodes _ _ H), HN..|done|done|].
    rewrite (mm_nodes _ _ H), HN in HC. exists C. split; [done|]. rewrite <-HG. apply (mm_sep _ _ H); [clear -HC; set_solver|done].
  - intros Hm. split_and!.
    + intros x. by rewrite (mm_nodes _ _ H), HN.
    + intros x y. rewrite (mm_dir _ _ H). assert (g_dir k = g_dir g) as -> by (by injection HG). done.
    + intros x y. rewrite (mm_bi _ _ H), HG, HN. split; [|by left]. intros [?|(H1 & H2 & H3 & H4 & H5)]; [done|].
      destruct (Hm x y H1 H2 H3 H4) as (C & HC & Hsep). by destruct (H5 C HC).
    + intros x y. by rewrite (mm_un _ _ H), HG.
Qed.
Example C71_is_maximal_example :
  ag_wf nm_ag ∧ ancestral (gmix nm_ag) ∧ is_maximal nm_ag oracle0 (λ _, false) = Ok false ∧ is_maximal ag0 oracle0 (λ _, true) = Ok true.
Proof. split; [apply nm_wf|]. split; [apply nm_anc|]. split; by vm_compute. Qed.

(** ** C56: [pairwise_markov_statements] *)

(** What is returned, for every ancestral graph.  The set of a statement never
    contains its first node; it contains the second one when that is an ancestor
    of the first. *)
Theorem C56_pairwise_shape g o :
  ag_wf g → ancestral (gmix g) →
  ∃ l, pairwise g o = Ok l ∧
    (∀ i j C, (i, j, C) ∈ l → i ∈ g_nodes g ∧ j ∈ g_nodes g ∧ i ≠ j ∧ ¬ madj (gmix g) i j ∧ i ∉ C ∧
      ∀ x, x ∈ C ↔ ancestor (g_dir g) x i ∨ ancestor (g_dir g) x j ∧ x ≠ i ∧ x ≠ j) ∧
    (∀ i j, i ∈ g_nodes g → j ∈ g_nodes g → i ≠ j → ¬ madj (gmix g) i j → ∃ C, (i, j, C) ∈ l ∨ (j, i, C) ∈ l).
Proof.
  intros Hw Han. pose proof Hw as Hg. rewrite <-gok_ag_wf in Hg. unfold pairwise.
  set (f := λ e acc, if has_any_edge g e.1 e.2 then Ok acc else _).
  assert (∀ ps acc, ∃ l, loopR f ps acc = Ok l ∧ ∀ i j C, (i, j, C) ∈ l ↔ (i, j, C) ∈ acc ∨
    ((i, j) ∈ ps ∧ ¬ madj (gmix g) i j ∧ ∀ x, x ∈ C ↔ ancestor (g_dir g) x i ∨ ancestor (g_dir g) x j ∧ x ≠ i ∧ x ≠ j)) as Hloop.
  { induction ps as [|[i j] ps IH]; intros acc.
    - exists acc. split; [done|]. intros i j C. rewrite elem_of_nil. tauto.
    - cbn [loopR]. unfold f at 1. cbn [fst snd]. destruct (has_any_edge g i j) eqn:Ea.
      + cbn [res_bind]. destruct (IH acc) as (l & -> & Hl). exists l. split; [done|]. intros i' j' C. rewrite Hl, elem_of_cons.
        assert (madj (gmix g) i j) by by apply has_any_edge_spec.
        split; [tauto|]. intros [?|([[= -> ->]|?] & ? & ?)]; tauto.
      + destruct (C68_ancestors_of g o i Hw) as (X & -> & HX). destruct (C68_ancestors_of g o j Hw) as (Y & -> & HY). cbn [res_bind].
        destruct (IH (acc ++ [(i, j, X ∪ Y ∖ {[i; j]})])) as (l & -> & Hl). exists l. split; [done|].
        assert (¬ madj (gmix g) i j) by (rewrite <-has_any_edge_spec by done; by rewrite Ea).
        assert (∀ x, x ∈ X ∪ Y ∖ {[i; j]} ↔ ancestor (g_dir g) x i ∨ ancestor (g_dir g) x j ∧ x ≠ i ∧ x ≠ j) as HXY.
        { intros x. rewrite elem_of_union, elem_of_difference, not_elem_of_union, !not_elem_of_singleton, HX, HY. tauto. }
        intros i' j' C. rewrite Hl, elem_of_app, elem_of_list_singleton, elem_of_cons. split.
        * intros [[?|[= -> -> ->]]|(? & ? & ?)]; [by left|right; by auto|right; by auto].
        * intros [?|([[= -> ->]|?] & ? & HC)]; [by left; left| |by right].
          left. right. f_equal. apply set_eq. intros x. by rewrite HC, HXY. }
  destruct (Hloop (combinations2 (on o [94] (g_nodes g))) []) as (l & -> & Hl). exists l. split; [done|]. split.
  - intros i j C [H|(Hij & Hna & HC)]%Hl; [by apply elem_of_nil in H|].
    apply combinations2_ne in Hij as (Hne & Hi & Hj); [|apply NoDup_on]. rewrite elem_of_on in Hi, Hj.
    split_and!; [done..| |done]. rewrite HC. intros [Hii|(_ & ? & _)]; [|done]. by apply (proj1 Han i).
  - intros i j Hi Hj Hne Hna.
    assert (∀ a b, ∃ C : nset, ∀ x, x ∈ C ↔ ancestor (g_dir g) x a ∨ ancestor (g_dir g) x b ∧ x ≠ a ∧ x ≠ b) as HC.
    { intros a b. destruct (C68_ancestors_of g o a Hw) as (X & _ & HX). destruct (C68_ancestors_of g o b Hw) as (Y & _ & HY).
      exists (X ∪ Y ∖ {[a; b]}). intros x. rewrite elem_of_union, elem_of_difference, not_elem_of_union, !not_elem_of_singleton, HX, HY. tauto. }
    destruct (combinations2_total (on o [94] (g_nodes g)) i j) as [[H _]|[H _]]; [apply NoDup_on|by rewrite elem_of_on..|done| |].
    + destruct (HC i j) as [C HCC]. exists C. left. apply Hl. by right.
    + destruct (HC j i) as [C HCC]. exists C. right. apply Hl. right. split; [done|]. split; [|done]. intros Ha. apply Hna. by apply madj_sym.
Qed.

(** On a maximal graph without undirected edges the statements are true. *)
Theorem C56_pairwise_true g o :
  ag_wf g → ancestral (gmix g) → maximal (g_nodes g) (gmix g) → g_un g = ∅ →
  ∃ l, pairwise g o = Ok l ∧ ∀ i j C, (i, j, C) ∈ l → msepd (gmix g) {[i]} {[j]} C.
Proof.
  intros Hw Han Hm HU. pose proof Hw as Hg. rewrite <-gok_ag_wf in Hg.
  destruct (C56_pairwise_shape g o Hw Han) as (l & -> & Hl & _). exists l. split; [done|].
  intros i j C Hin. destruct (Hl i j C Hin) as (Hi & Hj & Hne & Hna & HiC & HC).
  apply no_induced_maximal in Hm; [|done..]. pose proof (Hm i j Hi Hj Hne Hna) as Hb.
  assert (∀ x, x ∈ ante_set (gmix g) (g_nodes g) i j ↔ x ∈ C ∧ x ≠ j) as Hset.
  { intros x. rewrite elem_of_ante_set, HC.
    assert (∀ u v, rtc (ante (gmix g)) u v ↔ rtc (edge (g_dir g)) u v) as HR.
    { intros u v. apply rtc_iff. intros a b. unfold ante, neighbor. cbn. rewrite HU. unfold edge. clear. set_solver. }
    rewrite !HR. unfold ancestor. split.
    - intros (H1 & H2 & H3 & [H|H]); apply rtc_tc in H as [->|H]; tauto.
    - intros [[H|(H & ? & ?)] Hxj]; pose proof H as H'; apply tc_rtc in H'.
      + split; [exact (proj1 (tc_over _ _ _ _ (gok_dirN _ Hg) H))|]. split; [|tauto]. intros ->. by apply (proj1 Han i).
      + split; [exact (proj1 (tc_over _ _ _ _ (gok_dirN _ Hg) H))|]. tauto. }
  pose proof (ante_separates (gmix g) (gmix_simple g Hg) (gmix_separate g Hg) Han (g_nodes g) (madj_nodes g Hg) i j Hne Hna Hb) as Hsep.
  intros a b p Ha%elem_of_singleton Hb'%elem_of_singleton Hp. subst a b.
  apply (Hsep i j p); [by apply elem_of_singleton..|]. destruct Hp as (P1 & P2 & P3 & P4 & P5). split_and!; [done..|].
  intros q a b c r E. destruct (P5 q a b c r E) as [A1 A2].
  assert (b ≠ j) as Hbj.
  { intros ->. rewrite E in P1, P3. assert (j ∈ c :: r).
    { change (a :: j :: c :: r) with ([a; j] ++ c :: r) in P3. rewrite app_assoc, last_app_cons in P3.
      apply last_Some in P3 as (l' & ->). clear. set_solver. }
    apply NoDup_app in P1 as (_ & _ & P1). apply NoDup_cons in P1 as [_ P1]. by apply NoDup_cons in P1 as [P1 _]. }
  assert (b ≠ i) as Hbi.
  { intros ->. rewrite E in P1, P2. destruct q as [|z q]; cbn in P1, P2.
    - injection P2 as ->. apply NoDup_cons in P1 as [P1 _]. clear -P1. set_solver.
    - injection P2 as ->. apply NoDup_cons in P1 as [P1 _]. clear -P1. set_solver. }
  split.
  - intros Hcol. destruct (A1 Hcol) as (s & Hs & Hr). destruct (decide (s = j)) as [->|Hsj].
    + exists b. split; [|apply rtc_refl]. apply Hset. split; [|done]. apply HC. apply rtc_tc in Hr as [->|Hr]; [done|]. right. done.
    + exists s. split; [|done]. by apply Hset.
  - intros Hn. specialize (A2 Hn). rewrite Hset. tauto.
Qed.

(** 1 -> 2 -> 3; listed in the order 3, 2, 1 the statement about 3 and 1 contains
    1 in its set. *)
Definition ch_ag : ag := (ag_new ∅ [(1, 2); (2, 3)] [] []).1.
Lemma ch_wf : ag_wf ch_ag. Proof. by apply new_gok_wf. Qed.
Lemma ch_anc : ancestral (gmix ch_ag).
Proof. apply ancestralb_spec; [by apply gok_ag_wf, ch_wf|by vm_compute]. Qed.
Lemma is_maximal_maximal g : ag_wf g → ancestral (gmix g) → is_maximal g oracle0 (λ _, false) = Ok true → maximal (g_nodes g) (gmix g).
Proof. intros Hg Han E. destruct (C71_is_maximal g oracle0 (λ _, false) Hg Han) as (b & E' & Hb). apply Hb. congruence. Qed.
Example C56_pairwise_example :
  ag_wf ch_ag ∧ ancestral (gmix ch_ag) ∧ maximal (g_nodes ch_ag) (gmix ch_ag) ∧ g_un ch_ag = ∅ ∧
  match pairwise ch_ag oracle0 with Ok l => bool_decide (l = [(1, 3, {[1; 2]})] ∨ l = [(1, 3, {[2]})] ∨ l = [(3, 1, {[1; 2]})]) | _ => false end = true.
Proof.
  split; [apply ch_wf|]. split; [apply ch_anc|]. split; [apply is_maximal_maximal; [apply ch_wf|apply ch_anc|by vm_compute]|].
  split; [by apply (bool_decide_unpack _); vm_compute|by vm_compute].
Qed.
Theorem C56_disjoint_refuted :
  ∃ g o l i j C, ag_wf g ∧ ancestral (gmix g) ∧ maximal (g_nodes g) (gmix g) ∧ g_un g = ∅ ∧
    pairwise g o = Ok l ∧ (i, j, C) ∈ l ∧ j ∈ C.
Proof.
  exists ch_ag, oracle_rev, [(3, 1, {[1; 2]})], 3, 1, {[1; 2]}.
  split; [apply ch_wf|]. split; [apply ch_anc|]. split; [apply is_maximal_maximal; [apply ch_wf|apply ch_anc|by vm_compute]|].
  split; [by apply (bool_decide_unpack _); vm_compute|]. split.
  { destruct (pairwise ch_ag oracle_rev) as [l|] eqn:E; [|by vm_compute in E]. f_equal.
    assert (match pairwise ch_ag oracle_rev with Ok l => bool_decide (l = [(3, 1, {[1; 2]})]) | _ => false end = true) as H by by vm_compute.
    rewrite E in H. by apply bool_decide_eq_true in H. }
  split; [apply elem_of_list_here|]. apply (bool_decide_unpack _). by vm_compute.
Qed.
(** 1 - 2 - 3: the statement about 1 and 3 has an empty set and is false. *)
Definition un_ag : ag := (ag_new ∅ [] [] [(1, 2); (2, 3)]).1.
Lemma un_wf : ag_wf un_ag. Proof. by apply new_gok_wf. Qed.
Lemma un_anc : ancestral (gmix un_ag).
Proof. apply ancestralb_spec; [by apply gok_ag_wf, un_wf|by vm_compute]. Qed.
Theorem C56_undirected_refuted :
  ∃ g o l i j C, ag_wf g ∧ ancestral (gmix g) ∧ maximal (g_nodes g) (gmix g) ∧
    pairwise g o = Ok l ∧ (i, j, C) ∈ l ∧ ¬ msepd (gmix g) {[i]} {[j]} C.
Proof.
  exists un_ag, oracle0.
  destruct (pairwise un_ag oracle0) as [l|] eqn:E; [|by vm_compute in E].
  assert (match pairwise un_ag oracle0 with Ok l => bool_decide (l = [(1, 3, ∅)] ∨ l = [(3, 1, ∅)]) | _ => false end = true) as H by by vm_compute.
  rewrite E in H. apply bool_decide_eq_true in H.
  assert (∀ i j : node, msep un_ag oracle0 popper0 {[i]} {[j]} ∅ = Ok false → ¬ msepd (gmix un_ag) {[i]} {[j]} ∅) as Hs.
  { intros i j Hf. destruct (C38_msep_decides un_ag oracle0 popper0 {[i]} {[j]} ∅ un_wf) as (b & Hb & Hb'); [set_solver|].
    rewrite <-Hb'. intros ->. congruence. }
  destruct H as [-> | ->].
  - exists [(1, 3, ∅)], 1, 3, ∅. split; [apply un_wf|]. split; [apply un_anc|].
    split; [apply is_maximal_maximal; [apply un_wf|apply un_anc|by vm_compute]|]. split; [done|]. split; [apply elem_of_list_here|].
    apply Hs. by vm_compute.
  - exists [(3, 1, ∅)], 3, 1, ∅. split; [apply un_wf|]. split; [apply un_anc|].
    split; [apply is_maximal_maximal; [apply un_wf|apply un_anc|by vm_compute]|]. split; [done|]. split; [apply elem_of_list_here|].
    apply Hs. by vm_compute.
Qed.

(** ** C72: [markov_blanket_of] *)
Theorem C72_markov_blanket g o v :
  ag_wf g → ∃ X, mag_blanket g o v = Ok X ∧
    ∀ x, x ∈ X ↔ ∃ d, rtc (spouse (gmix g)) v d ∧ (x = d ∨ (x, d) ∈ g_dir g).
Proof.
  rewrite <-gok_ag_wf. intros Hg. unfold mag_blanket. destruct (district_of_spec g Hg o v None) as (D & -> & HD). cbn [res_bind default] in *.
  assert (∀ x, x ∈ D ↔ rtc (spouse (gmix g)) v x) as HD'.
  { intros x. rewrite HD. apply rtc_iff. intros a b. split; [tauto|]. intros Hs. split; [done|]. apply (madj_nodes g Hg a b). unfold madj. tauto. }
  eexists. split; [reflexivity|].
  assert (∀ l x, x ∈ foldr (λ u acc, g_parents g u ∪ acc) ∅ l ↔ ∃ d, d ∈ l ∧ (x, d) ∈ g_dir g) as Hf.
  { induction l as [|u l IH]; intros x; cbn [foldr].
    - split; [clear; set_solver|]. intros (d & Hd & _). by apply elem_of_nil in Hd.
    - rewrite elem_of_union, IH, (gok_par _ Hg). setoid_rewrite elem_of_cons. split.
      + intros [H|(d & H1 & H2)]; [by exists u; auto|exists d; auto].
      + intros (d & [-> |Hd] & H); [by left|right; by exists d]. }
  intros x. rewrite !elem_of_union, Hf, elem_of_singleton, HD'. setoid_rewrite elem_of_on. setoid_rewrite HD'. split.
  - intros [[H|(d & H1 & H2)]| ->]; [by exists x; auto|by exists d; auto|]. exists v. split; [apply rtc_refl|by left].
  - intros (d & Hd & [-> |H]); [auto|]. left. right. by exists d.
Qed.

(** For a node without children and without undirected edges the returned set,
    minus the node, separates the node from all others. *)
Theorem C72_blanket_separates g o v :
  ag_wf g → v ∈ g_nodes g → (∀ w, (v, w) ∉ g_dir g) → (∀ w, ¬ neighbor (gmix g) v w) →
  ∃ X, mag_blanket g o v = Ok X ∧ msepd (gmix g) {[v]} (g_nodes g ∖ X) (X ∖ {[v]}).
Proof.
  intros Hw Hv Hch Hne. destruct (C72_markov_blanket g o v Hw) as (X & E & HX). exists X. split; [done|].
  rewrite <-gok_ag_wf in Hw. rename Hw into Hg.
  rewrite msepd_reach; [|by apply gmix_simple|by apply gmix_separate|clear; set_solver].
  intros a b Ha Hb [m Hr]. apply elem_of_singleton in Ha as ->. apply elem_of_difference in Hb as [_ Hb]. apply Hb.
  assert (∀ s, rtc (mstep (gmix g) (X ∖ {[v]})) (v, true) s →
    (s = (v, true)) ∨ (s.2 = true ∧ s.1 ≠ v ∧ s.1 ∈ X) ∨ (s.2 = false ∧ rtc (spouse (gmix g)) v s.1)) as Hinv.
  { refine (rtc_ind_r _ _ _ _); [by left|]. intros [u mu] [w mw] _ (k & He & Hp) IH. cbn [fst snd] in *.
    assert (k = false ∧ rtc (spouse (gmix g)) v u) as [-> Hu].
    { destruct IH as [[= -> ->]|[(-> & H1 & H2)|(-> & H1)]].
      - split; [|apply rtc_refl]. destruct k; [|done]. destruct mw; cbn in He; [by destruct (Hne w)|by destruct (Hch w)].
      - cbn in Hp. exfalso. apply Hp. apply elem_of_difference. split; [done|]. by rewrite elem_of_singleton.
      - split; [|done]. destruct k; [|done]. exfalso. cbn in Hp. assert (u ∈ X) as HuX by (apply HX; exists u; auto).
        assert (u = v) as -> by (apply dec_stable; intros Huv; apply Hp; apply elem_of_difference; split; [done|by rewrite elem_of_singleton]).
        destruct mw; cbn in He; [by destruct (Hne w)|by destruct (Hch w)]. }
    destruct mw; cbn in He; right; [left|right].
    - split; [done|]. split; [intros ->; by destruct (Hch u)|]. apply HX. exists u. auto.
    - split; [done|]. by eapply rtc_r. }
  destruct (Hinv _ Hr) as [[= -> ->]|[(_ & _ & H)|(_ & H)]]; cbn in *; [|done|]; apply HX.
  - exists v. split; [apply rtc_refl|by left].
  - exists b. auto.
Qed.
Example C72_blanket_example :
  ag_wf ms_ag ∧ 4 ∈ g_nodes ms_ag ∧ (∀ w, (4, w) ∉ g_dir ms_ag) ∧ (∀ w, ¬ neighbor (gmix ms_ag) 4 w) ∧
  match mag_blanket ms_ag oracle0 4 with Ok X => bool_decide (X = {[1; 2; 3; 4; 8]}) | _ => false end = true.
Proof.
  split; [apply ms_wf|]. split; [by apply (bool_decide_unpack _); vm_compute|]. split; [|split; [|by vm_compute]].
  - assert (set_Forall (λ e : arc, e.1 ≠ 4) (g_dir ms_ag)) as H by (by apply (bool_decide_unpack _); vm_compute). intros w Hw. by apply (H _ Hw).
  - assert (set_Forall (λ e : arc, e.1 ≠ 4 ∧ e.2 ≠ 4) (g_un ms_ag)) as H by (by apply (bool_decide_unpack _); vm_compute).
    intros w [Hw|Hw]; destruct (H _ Hw) as [H1 H2]; [by apply H1|by apply H2].
Qed.
(** In 1 -> 2 the returned set for 1 is {1}, which does not separate 1 from 2. *)
Theorem C72_blanket_with_children_refuted :
  ∃ g o v X, ag_wf g ∧ ancestral (gmix g) ∧ v ∈ g_nodes g ∧ mag_blanket g o v = Ok X ∧ ¬ msepd (gmix g) {[v]} (g_nodes g ∖ X) (X ∖ {[v]}).
Proof.
  exists ch_ag, oracle0, 1. destruct (C72_markov_blanket ch_ag oracle0 1 ch_wf) as (X & E & _). exists X.
  split; [apply ch_wf|]. split; [apply ch_anc|]. split; [by apply (bool_decide_unpack _); vm_compute|]. split; [done|].
  assert (match mag_blanket ch_ag oracle0 1 with Ok X => bool_decide (X = {[1]}) | _ => false end = true) as H by by vm_compute.
  rewrite E in H. apply bool_decide_eq_true in H as ->.
  destruct (C38_msep_decides ch_ag oracle0 popper0 {[1]} (g_nodes ch_ag ∖ {[1]}) ({[1]} ∖ {[1]}) ch_wf) as (b & Hb & Hb'); [set_solver|].
  rewrite <-Hb'. intros ->. by vm_compute in Hb.
Qed.

(** ** C73: [is_imap] *)
Lemma all_msep_spec h o p l : gok h → (∀ i j C, (i, j, C) ∈ l → i ≠ j ∧ i ∉ C) →
  ∃ b, all_msep h o p l = Ok b ∧ (b = true ↔ ∀ i j C, (i, j, C) ∈ l → msepd (gmix h) {[i]} {[j]} C).
Proof.
  intros Hh. induction l as [|[[i j] C] l IH]; intros Hl.
  { exists true. split; [done|]. split; [|done]. intros _ i j C H. by apply elem_of_nil in H. }
  cbn [all_msep]. destruct (Hl i j C) as [Hne HiC]; [apply elem_of_list_here|].
  destruct (msep_spec h Hh o p {[i]} {[j]} C) as (b & -> & Hb); [clear -Hne HiC; set_solver|]. cbn [res_bind].
  assert (({[i]} : nset) ∖ C = {[i]}) as E by (clear -HiC; set_solver). rewrite E in Hb. destruct b.
  - destruct IH as (b & -> & Hb'); [intros i' j' C' H; apply (Hl i' j' C'); by apply elem_of_list_further|]. exists b. split; [done|].
    rewrite Hb'. split.
    + intros H i' j' C' [[= -> -> ->]|Hin]%elem_of_cons; [by apply Hb|by apply H].
    + intros H i' j' C' Hin. apply H. by apply elem_of_list_further.
  - exists false. split; [done|]. split; [done|]. intros H. apply Hb, H, elem_of_list_here.
Qed.

(** The exception is raised exactly on non-maximal graphs.  On maximal graphs
    without undirected edges, the answer is [True] exactly if all separations of
    the first graph hold in the second. *)
Theorem C73_is_imap g h o p flip :
  ag_wf g → ancestral (gmix g) → ag_wf h → g_un g = ∅ →
  (mag_is_imap g h o p flip = Raise RuntimeError ∧ ¬ maximal (g_nodes g) (gmix g)) ∨
  (maximal (g_nodes g) (gmix g) ∧
   ∃ b, mag_is_imap g h o p flip = Ok b ∧
     (b = true ↔ ∀ A B C, A ∪ B ∪ C ⊆ g_nodes g → A ## C → B ## C → msepd (gmix g) A B C → msepd (gmix h) A B C)).
Proof.
  intros Hg Han Hh HU. unfold mag_is_imap. destruct (C71_is_maximal g o flip Hg Han) as (b & -> & Hb). cbn [res_bind].
  destruct b; [|left; split; [done|intros H; by apply Hb in H]]. right. split; [by apply Hb|].
  destruct (C56_pairwise_shape g o Hg Han) as (l & E & Hl1 & Hl2). rewrite E. cbn [res_bind].
  destruct (C56_pairwise_true g o Hg Han) as (l' & E' & Htrue); [by apply Hb|done|]. rewrite E in E'. injection E' as <-. clear Hb E.
  rewrite <-gok_ag_wf in Hh. rewrite <-gok_ag_wf in Hg. destruct (all_msep_spec h o p l Hh) as (b & -> & Hb').
  { intros i j C Hin. apply Hl1 in Hin. tauto. }
  exists b. split; [done|]. rewrite Hb'.
  assert (∀ f A B C, gok f → A ## C → msepd (gmix f) A B C ↔ ∀ a b, a ∈ A → b ∈ B → ¬ mreach (gmix f) C a b) as Hms.
  { intros f A B C Hf HAC. apply msepd_reach; [by apply gmix_simple|by apply gmix_separate|done]. }
  split.
  - intros Hall A B C HN HAC HBC Hsep. rewrite Hms in Hsep by done. rewrite Hms by done. intros a b' Ha Hb2.
    assert (a ≠ b') as Hab. { intros ->. apply (Hsep b' b' Ha Hb2). exists true. apply rtc_refl. }
    apply (pairwise_global (gmix g) (gmix h) (g_nodes g) HU (proj1 Han) (madj_nodes g Hg) (gmix_simple h Hh)); [|clear -HN; set_solver|clear -HN HAC Ha; set_solver|clear -HN HBC Hb2; set_solver|done|by apply Hsep].
    intros i j P Hi Hj Hij Hna HP.
    assert (∀ i j C, (i, j, C) ∈ l → (∀ x, x ∈ P ↔ (rtc (edge (g_dir g)) x i ∨ rtc (edge (g_dir g)) x j) ∧ x ≠ i ∧ x ≠ j) → ¬ mreach (gmix h) P i j) as Hst.
    { clear i j Hi Hj Hij Hna HP. intros i j C' Hin HP. pose proof (Hall i j C' Hin) as Hs. destruct (Hl1 i j C' Hin) as (_ & _ & Hij & _ & HiC & HC').
      rewrite Hms in Hs by (done || clear -HiC; set_solver). specialize (Hs i j). intros Hr. apply Hs; [by apply elem_of_singleton..|].
      assert (∀ x, x ∈ C' ∪ {[j]} ↔ x ∈ P ∪ {[j]}) as HCP.
      { intros x. rewrite !elem_of_union, elem_of_singleton, HC', HP. destruct (decide (x = j)) as [->|Hxj]; [tauto|].
        assert (x = i → ¬ ancestor (g_dir g) x i) as Hxi by (intros ->; apply (proj1 Han)). unfold ancestor in *. split.
        - intros [[Hx|(Hx & ? & ?)]|?]; [left|left|done]; (split; [|split; [|done]]); [left; by apply tc_rtc|by intros ->; apply Hxi|right; by apply tc_rtc|done].
        - intros [([Hx|Hx] & Hxi' & _)|?]; [| |done]; apply rtc_tc in Hx as [->|Hx]; try done; tauto. }
      apply mreach_endpoint. rewrite <-mreach_endpoint in Hr. by replace (C' ∪ {[j]}) with (P ∪ {[j]}) by (apply set_eq; intros x; by rewrite HCP). }
    destruct (Hl2 i j Hi Hj Hij Hna) as (C' & [Hin|Hin]); [by apply (Hst i j C')|].
    intros Hr. apply (Hst j i C' Hin); [intros x; rewrite HP; tauto|]. apply mreach_sym; [by apply gmix_simple| |done]. rewrite HP. tauto.
  - intros Hall i j C Hin. destruct (Hl1 i j C Hin) as (Hi & Hj & Hij & _ & HiC & HC). pose proof (Htrue i j C Hin) as Ht.
    assert (∀ f, gok f → msepd (gmix f) {[i]} {[j]} C ↔ msepd (gmix f) {[i]} {[j]} (C ∖ {[j]})) as Hend.
    { intros f Hf. rewrite !Hms by (done || clear -HiC; set_solver).
      assert (mreach (gmix f) C i j ↔ mreach (gmix f) (C ∖ {[j]}) i j) as Hm.
      { destruct (decide (j ∈ C)) as [HjC|HjC].
        - rewrite <-(mreach_endpoint _ (C ∖ {[j]})). by replace (C ∖ {[j]} ∪ {[j]}) with C by (rewrite difference_union_L; clear -HjC; set_solver).
        - by replace (C ∖ {[j]}) with C by (clear -HjC; set_solver). }
      split; intros H a b2 ->%elem_of_singleton ->%elem_of_singleton Hr; (apply (H i j); [by apply elem_of_singleton..|by apply Hm]). }
    apply Hend; [done|]. apply Hall; [|clear -HiC; set_solver|clear; set_solver|by apply Hend].
    assert (C ⊆ g_nodes g) as HCN; [|clear -Hi Hj HCN; set_solver].
    intros x Hx. apply HC in Hx as [Hx|[Hx _]]; apply (tc_over _ _ _ _ (gok_dirN _ Hg) Hx).
Qed.
Example C73_is_imap_example :
  ag_wf ch_ag ∧ ancestral (gmix ch_ag) ∧ ag_wf ms_ag ∧ g_un ch_ag = ∅ ∧
  mag_is_imap ch_ag ch_ag oracle0 popper0 (λ _, false) = Ok true ∧
  mag_is_imap ch_ag (ag_new ∅ [(1, 2); (3, 2)] [] []).1 oracle0 popper0 (λ _, false) = Ok false ∧
  mag_is_imap nm_ag ch_ag oracle0 popper0 (λ _, false) = Raise RuntimeError.
Proof.
  split; [apply ch_wf|]. split; [apply ch_anc|]. split; [apply ms_wf|]. split; [by apply (bool_decide_unpack _); vm_compute|].
  split; [by vm_compute|]. split; by vm_compute.
Qed.
(** With undirected edges the graph 1 - 2 - 3 is reported not to be an I-map of
    itself. *)
Theorem C73_reflexive_refuted :
  ∃ g o p flip, ag_wf g ∧ ancestral (gmix g) ∧ maximal (g_nodes g) (gmix g) ∧ mag_is_imap g g o p flip = Ok false.
Proof.
  exists un_ag, oracle0, popper0, (λ _, false). split; [apply un_wf|]. split; [apply un_anc|].
  split; [apply is_maximal_maximal; [apply un_wf|apply un_anc|by vm_compute]|]. by vm_compute.
Qed.

Print Assumptions C41_district_of.
Print Assumptions C41_c_components.
Print Assumptions C41_chain_components.
Print Assumptions C41_chain_components_cover_refuted.
Print Assumptions C70_to_maximal.
Print Assumptions C70_to_maximal_old.
Print Assumptions C70_variants_agree.
Print Assumptions C71_is_maximal.
Print Assumptions C56_pairwise_shape.
Print Assumptions C56_pairwise_true.
Print Assumptions C56_disjoint_refuted.
Print Assumptions C56_undirected_refuted.
Print Assumptions C72_markov_blanket.
Print Assumptions C72_blanket_separates.
Print Assumptions C72_blanket_with_children_refuted.
Print Assumptions C73_is_imap.
Print Assumptions C73_reflexive_refuted.
