(** Final theorems about the cliques of [PDAG]: C126. *)
From Verif Require Import Py Spec SpecDsep SpecMec SpecMixed SpecDct SpecClique DagModel DsepModel UGraphModel PdagModel InterveneModel AncestralModel MsepModel MagModel CliqueModel
  TopoProofs StateProofs ReachProofs OrderProofs QueryProofs UGraphProofs MarkovProofs ImapProofs PdagProofs ProtProofs CpdagProofs EquivProofs MeekProofs MecProofs
  AncestralState CliqueProofs PropertiesDag PropertiesMec PropertiesEnum PropertiesMag.

(** ** Edges of a graph *)
Section graph.
  Context (g : pdag) (Hg : pdag_wf g).
  Lemma und_joined x y : PropertiesMag.und g x y ↔ joined (p_edges g) x y.
  Proof using Hg. apply pok_pdag_wf in Hg as Hok. apply upair_in_lt. intros a b H. by apply (pok_edge g Hok) in H. Qed.
  Lemma edges_no_loops : no_loops (p_edges g).
  Proof using Hg. apply pok_pdag_wf in Hg as Hok. intros x H. apply (pok_edge g Hok) in H. cbn in H. lia. Qed.
  Lemma edges_nodes : nodes_of (p_edges g) ⊆ p_nodes g.
  Proof using Hg.
    apply pok_pdag_wf in Hg as Hok. intros x [y H]%elem_of_nodes_of. destruct H as [H|H]; apply (proj2 (pok_over g Hok)) in H; tauto.
  Qed.
  Lemma arcs_ne x y : (x, y) ∈ p_arcs g → x ≠ y.
  Proof using Hg. apply pok_pdag_wf in Hg as Hok. intros H ->. by apply (pok_asym g Hok y y). Qed.
  Lemma edge_joined : p_edges g ≠ ∅ → ∃ x y, joined (p_edges g) x y ∧ x ≠ y.
  Proof using Hg.
    intros H. apply set_choose_L in H as [[x y] H]. exists x, y. split; [by left|]. intros ->. by apply (edges_no_loops y).
  Qed.
End graph.

Lemma rtc_und g x y : pdag_wf g → rtc (PropertiesMag.und g) x y ↔ rtc (joined (p_edges g)) x y.
Proof. intros Hg. apply rtc_iff. intros a b. by apply und_joined. Qed.

Lemma joined_rtc_sym E x y : rtc (joined E) x y → rtc (joined E) y x.
Proof. intros H. induction H as [|x y z Hxy _ IH]; [apply rtc_refl|]. eapply rtc_r; [exact IH|]. by apply joined_sym. Qed.

(** The components as [C41_chain_components] describes them. *)
Record components (g : pdag) (cs : list pdag) : Prop := {
  co_wf h : h ∈ cs → pdag_wf h;
  co_nodes h : h ∈ cs → p_nodes h ⊆ p_nodes g;
  co_two h : h ∈ cs → 1 < size (p_nodes h);
  co_arcs h x y : h ∈ cs → (x, y) ∈ p_arcs h ↔ (x, y) ∈ p_arcs g ∧ x ∈ p_nodes h ∧ y ∈ p_nodes h;
  co_edges h x y : h ∈ cs → joined (p_edges h) x y ↔ joined (p_edges g) x y ∧ x ∈ p_nodes h ∧ y ∈ p_nodes h;
  co_conn h x y : h ∈ cs → x ∈ p_nodes h → y ∈ p_nodes h ↔ rtc (joined (p_edges g)) x y;
  co_some x y : joined (p_edges g) x y → ∃ h, h ∈ cs ∧ x ∈ p_nodes h
}.
Lemma components_spec g o : pdag_wf g → ∃ cs, chain_components g o = Ok cs ∧ components g cs.
Proof.
  intros Hg. destruct (C41_chain_components g o Hg) as (cs & Hcs & H1 & H2 & H3). exists cs. split; [done|].
  constructor.
  - intros h Hh. by apply H1.
  - intros h Hh. by apply H1.
  - intros h Hh. by apply H1.
  - intros h x y Hh. by apply H1.
  - intros h x y Hh. destruct (H1 h Hh) as (Hw & _ & _ & _ & He). by rewrite <-!und_joined.
  - intros h x y Hh Hx. rewrite <-rtc_und by done. split.
    + intros Hy. destruct (decide (x = y)) as [->|Hne]; [apply rtc_refl|]. apply H3; [done|]. by exists h.
    + intros Hr. destruct (decide (x = y)) as [->|Hne]; [done|]. apply H3 in Hr as (h' & Hh' & Hx' & Hy'); [|done].
      apply elem_of_list_lookup in Hh as [i Hi]. apply elem_of_list_lookup in Hh' as [j Hj].
      destruct (decide (i = j)) as [->|Hij]; [congruence|]. pose proof (H2 i j h h' Hi Hj Hij) as Hd.
      exfalso. clear -Hd Hx Hx'. set_solver.
  - intros x y Hxy. assert (x ≠ y) as Hne by (intros ->; destruct Hxy; by apply (edges_no_loops g Hg y)).
    destruct (H3 x y Hne) as [_ H]. destruct H as (h & Hh & Hx & _); [|by exists h].
    apply rtc_once. by apply und_joined.
Qed.

Section comps.
  Context (g : pdag) (cs : list pdag) (Hg : pdag_wf g) (Hco : components g cs).

  Lemma comp_no_arcs h : chain_graph (p_arcs g) (p_edges g) → h ∈ cs → p_arcs h = ∅.
  Proof using All.
    intros Hch Hh. apply set_eq. intros [x y]. split; [|intros H; by apply not_elem_of_empty in H].
    intros H. apply (co_arcs g cs Hco h) in H as (H & Hx & Hy); [|done]. exfalso. apply (Hch x y H).
    by apply (co_conn g cs Hco h).
  Qed.
  Lemma comp_chordal h : chordal (p_edges g) → h ∈ cs → chordal (p_edges h).
  Proof using All. intros Hc Hh. apply (chordal_induced (p_edges g) _ (p_nodes h)); [done|]. intros x y. by apply (co_edges g cs Hco). Qed.
  Lemma comp_edge h : h ∈ cs → p_edges h ≠ ∅.
  Proof using All.
    intros Hh He. pose proof (co_two g cs Hco h Hh) as H2.
    assert (p_nodes h ≠ ∅) as Hn by (intros E; rewrite E, size_empty in H2; lia). apply set_choose_L in Hn as [x Hx].
    destruct (size_two (p_nodes h) x H2) as (y & Hy & Hne).
    pose proof (proj1 (co_conn g cs Hco h x y Hh Hx) Hy) as Hr. destruct (rtc_inv _ _ Hr) as [->|(z & Hxz & _)]; [done|].
    assert (joined (p_edges h) x z) as Hj.
    { apply (co_edges g cs Hco); [done|]. split; [done|]. split; [done|]. apply (co_conn g cs Hco h x z); [done..|]. by apply rtc_once. }
    rewrite He in Hj. by destruct Hj as [H|H]; apply not_elem_of_empty in H.
  Qed.
  (** A clique of at least two nodes lies in one component. *)
  Lemma clique_in_comp C : clique (p_edges g) C → 2 ≤ size C → ∃ h, h ∈ cs ∧ C ⊆ p_nodes h.
  Proof using All.
    intros HC Hs. assert (C ≠ ∅) as Hn by (intros E; rewrite E, size_empty in Hs; lia). apply set_choose_L in Hn as [x Hx].
    destruct (size_two C x Hs) as (y & Hy & Hne). destruct (co_some g cs Hco x y) as (h & Hh & Hxh); [by apply HC|].
    exists h. split; [done|]. intros z Hz. destruct (decide (x = z)) as [->|Hxz]; [done|].
    apply (co_conn g cs Hco h x z); [done..|]. apply rtc_once. by apply HC.
  Qed.
  Lemma clique_comp h C : h ∈ cs → C ⊆ p_nodes h → clique (p_edges h) C ↔ clique (p_edges g) C.
  Proof using All.
    intros Hh HC. split; intros H x y Hx Hy Hne.
    - apply (co_edges g cs Hco h x y); [done|]. by apply H.
    - apply (co_edges g cs Hco h x y); [done|]. split; [by apply H|]. split; by apply HC.
  Qed.
  Lemma maximal_comp C : maximal_clique (p_nodes g) (p_edges g) C ∧ 2 ≤ size C ↔
    ∃ h, h ∈ cs ∧ maximal_clique (p_nodes h) (p_edges h) C ∧ 2 ≤ size C.
  Proof using All.
    split.
    - intros [(Hne & Hsub & Hc & Hmax) Hs]. destruct (clique_in_comp C Hc Hs) as (h & Hh & HCh). exists h. split; [done|]. split; [|done].
      split_and!; [done|done|by apply clique_comp|]. intros C' HC' Hcl HCC'. apply Hmax; [|by apply (clique_comp h)|done].
      etrans; [exact HC'|]. by apply (co_nodes g cs Hco).
    - intros (h & Hh & (Hne & Hsub & Hc & Hmax) & Hs). split; [|done].
      split_and!; [done| |by apply (clique_comp h)|].
      { etrans; [exact Hsub|]. by apply (co_nodes g cs Hco). }
      intros C' HC' Hcl HCC'. assert (2 ≤ size C') as Hs' by (apply subseteq_size in HCC'; lia).
      assert (C' ⊆ p_nodes h) as Hin.
      { apply set_choose_L in Hne as [x Hx]. intros z Hz. destruct (decide (x = z)) as [->|Hxz]; [by apply Hsub|].
        apply (co_conn g cs Hco h x z); [done|by apply Hsub|]. apply rtc_once. apply Hcl; [by apply HCC'|done|done]. }
      apply Hmax; [done|by apply clique_comp|done].
  Qed.
End comps.

Lemma res_each_ok {A B} (f : A → res B) (P : A → B → Prop) l :
  (∀ x, x ∈ l → ∃ y, f x = Ok y ∧ P x y) → ∃ ys, res_each f l = Ok ys ∧ Forall2 P l ys.
Proof.
  induction l as [|x l IH]; intros H; cbn; [by exists []|]. destruct (H x) as (y & -> & Hy); [left|].
  destruct IH as (ys & -> & Hys); [intros z Hz; apply H; by right|]. cbn. exists (y :: ys). split; [done|]. by constructor.
Qed.
Lemma res_each_bad {A B} (f : A → res B) l x ys : x ∈ l → (∀ y, f x ≠ Ok y) → res_each f l ≠ Ok ys.
Proof.
  intros Hx Hf. revert ys. induction l as [|z l IH]; intros ys; [by apply elem_of_nil in Hx|]. cbn.
  apply elem_of_cons in Hx as [<-|Hx].
  - destruct (f x) as [y|e] eqn:E; cbn; [by destruct (Hf y)|done].
  - destruct (f z) as [y|e]; cbn; [|done]. destruct (res_each f l) as [ys'|e] eqn:E; cbn; [|done]. by destruct (IH Hx ys').
Qed.

(** ** Graphs without arcs *)
Lemma foldl_max_spec (cl : list nset) m : (-1 ≤ m)%Z →
  let r := foldl (λ m (C : nset), Z.max m (Z.of_nat (size C))) m cl in
  (m ≤ r)%Z ∧ (∀ C, C ∈ cl → (Z.of_nat (size C) ≤ r)%Z) ∧ (r = m ∨ ∃ C, C ∈ cl ∧ r = Z.of_nat (size C)).
Proof.
  revert m. induction cl as [|C cl IH]; intros m Hm; cbn.
  - split_and!; [lia| |by left]. intros C H. by apply elem_of_nil in H.
  - destruct (IH (Z.max m (Z.of_nat (size C)))) as (H1 & H2 & H3); [lia|]. split_and!.
    + lia.
    + intros C' [->|HC']%elem_of_cons; [lia|by apply H2].
    + destruct H3 as [H3|(C' & HC' & H3)].
      * rewrite H3. destruct (Z.max_spec m (Z.of_nat (size C))) as [[_ ->]|[_ ->]]; [right; exists C; split; [left|done]|by left].
      * right. exists C'. split; [by right|done].
Qed.

Section base.
  Context (nxc : nx_cliques) (Hnx : finds_cliques nxc) (o : oracle) (n : nat) (g : pdag) (Hg : pdag_wf g)
    (Harcs : p_arcs g = ∅) (Hch : chordal (p_edges g)).
  Lemma base_cliques : ∃ R, max_cliques nxc o (S n) g = Ok R ∧
    ∀ C, C ∈ R ↔ maximal_clique (p_nodes g) (p_edges g) C ∧ 2 ≤ size C.
  Proof using All.
    cbn [max_cliques]. rewrite decide_True by (by rewrite Harcs, size_empty). unfold p_to_nx. rewrite decide_True by done. cbn [res_bind].
    destruct (Hnx (p_edges g)) as (cl & -> & Hcl); [by apply edges_no_loops|done|]. cbn [res_bind]. exists (list_to_set cl). split; [done|].
    intros C. rewrite elem_of_list_to_set, Hcl. apply maximal_on_nodes; [by apply edges_nodes|by apply edges_no_loops].
  Qed.
  Lemma base_size : p_edges g ≠ ∅ → ∃ k, clique_size nxc o (S n) g = Ok (Z.of_nat k) ∧ largest (p_nodes g) (p_edges g) k ∧ 2 ≤ k.
  Proof using All.
    intros Hne. cbn [clique_size]. rewrite decide_True by (by rewrite Harcs, size_empty). unfold p_to_nx. rewrite decide_True by done. cbn [res_bind].
    unfold chordal_graph_treewidth. destruct (Hnx (p_edges g)) as (cl & -> & Hcl); [by apply edges_no_loops|done|]. cbn [res_bind].
    destruct (foldl_max_spec cl (-1)%Z) as (H1 & H2 & H3); [lia|]. cbv zeta in H1, H2, H3.
    set (r := foldl _ _ cl) in *. clearbody r.
    assert (∀ C, maximal_clique (p_nodes g) (p_edges g) C → 2 ≤ size C → (Z.of_nat (size C) ≤ r)%Z) as Hmax.
    { intros C HC Hs. apply H2, Hcl. apply (maximal_on_nodes (p_nodes g)); [by apply edges_nodes|by apply edges_no_loops|done]. }
    assert (∀ C, C ⊆ p_nodes g → clique (p_edges g) C → 2 ≤ size C → (Z.of_nat (size C) ≤ r)%Z) as Hall.
    { intros C HCN HC Hs. destruct (clique_extend (p_nodes g) (p_edges g) C) as (C' & HC' & Hin); [done| |done|].
      { intros E. rewrite E, size_empty in Hs. lia. }
      apply subseteq_size in Hin. specialize (Hmax C' HC'). lia. }
    destruct (edge_joined g Hg Hne) as (x & y & Hxy & Hxne).
    assert (2 ≤ r)%Z as Hr.
    { assert (size ({[x; y]} : nset) = 2) as Hs2 by (rewrite size_union, !size_singleton by (clear -Hxne; set_solver); done).
      assert (Z.of_nat (size ({[x; y]} : nset)) ≤ r)%Z as Hle; [|rewrite Hs2 in Hle; lia].
      apply Hall; [|by apply pair_clique|by rewrite Hs2].
      etrans; [|by apply edges_nodes]. intros z Hz. apply elem_of_nodes_of. apply elem_of_union in Hz. rewrite !elem_of_singleton in Hz.
      destruct Hz as [->| ->]; [by exists y|exists x; by apply joined_sym]. }
    destruct H3 as [->|(C & HC & ->)]; [lia|]. exists (size C). split; [f_equal; lia|]. split; [|lia].
    apply Hcl in HC. apply (maximal_on_nodes (p_nodes g)) in HC as [(_ & HCN & HCc & _) _]; [|by apply edges_nodes|by apply edges_no_loops].
    split; [by exists C|]. intros C' HC' Hcl'. destruct (decide (2 ≤ size C')) as [Hs|Hs]; [|lia]. specialize (Hall C' HC' Hcl' Hs). lia.
  Qed.
End base.

(** ** C126 *)

(** On a chain graph with chordal undirected part [max_cliques] returns the
    maximal cliques of the undirected edges, except those of single nodes. *)
Theorem C126_max_cliques nxc o n g :
  finds_cliques nxc → pdag_wf g → chain_graph (p_arcs g) (p_edges g) → chordal (p_edges g) → p_edges g ≠ ∅ →
  ∃ R, max_cliques nxc o (2 + n) g = Ok R ∧ ∀ C, C ∈ R ↔ maximal_clique (p_nodes g) (p_edges g) C ∧ 2 ≤ size C.
Proof.
  intros Hnx Hg Hchain Hch Hne. destruct (decide (p_arcs g = ∅)) as [Ha|Ha]; [by apply base_cliques|].
  change (2 + n) with (S (S n)). cbn [max_cliques]. rewrite decide_False by (by intros H%size_empty_inv; apply Ha; apply leibniz_equiv).
  destruct (components_spec g o Hg) as (cs & -> & Hco). cbn [res_bind].
  destruct (res_each_ok (max_cliques nxc o (S n)) (λ h X, ∀ C, C ∈ X ↔ maximal_clique (p_nodes h) (p_edges h) C ∧ 2 ≤ size C) cs) as (Cs & E & HCs).
  { intros h Hh. apply base_cliques; [done|by apply (co_wf g cs Hco)|by apply (comp_no_arcs g cs Hg Hco)|by apply (comp_chordal g cs Hg Hco)]. }
  cbn [max_cliques] in E. rewrite E. cbn [res_bind].
  destruct (edge_joined g Hg Hne) as (x & y & Hxy & _). destruct (co_some g cs Hco x y Hxy) as (h0 & Hh0 & _).
  destruct Cs as [|C0 Cs]; [apply Forall2_nil_inv_r in HCs as ->; by apply elem_of_nil in Hh0|].
  eexists. split; [reflexivity|]. intros C. rewrite (maximal_comp g cs Hg Hco), elem_of_union_list. split.
  - intros (X & HX & HC). apply elem_of_list_lookup in HX as [i Hi]. destruct (Forall2_lookup_r _ _ _ _ _ HCs Hi) as (h & Hh & HXh).
    exists h. split; [by eapply elem_of_list_lookup_2|]. by apply HXh.
  - intros (h & Hh & HC). apply elem_of_list_lookup in Hh as [i Hi]. destruct (Forall2_lookup_l _ _ _ _ _ HCs Hi) as (X & HX & HXh).
    exists X. split; [by eapply elem_of_list_lookup_2|]. by apply HXh.
Qed.

Lemma foldl_zmax (zs : list Z) z : let r := foldl Z.max z zs in (∀ w, w ∈ z :: zs → (w ≤ r)%Z) ∧ r ∈ z :: zs.
Proof.
  revert z. induction zs as [|a zs IH]; intros z; cbn.
  - split; [intros w Hw; apply elem_of_list_singleton in Hw; lia|left].
  - destruct (IH (Z.max z a)) as [H1 H2]. cbv zeta in H1, H2. split.
    + pose proof (H1 (Z.max z a)) as H. specialize (H ltac:(left)).
      intros w [->|[->|Hw]%elem_of_cons]%elem_of_cons; [lia|lia|]. apply H1. by right.
    + apply elem_of_cons in H2 as [H2|H2]; [|right; by right].
      rewrite H2. destruct (Z.max_spec z a) as [[_ ->]|[_ ->]]; [right; left|left].
Qed.

(** [clique_size] returns the largest number of nodes that are joined pairwise by
    undirected edges. *)
Theorem C126_clique_size nxc o n g :
  finds_cliques nxc → pdag_wf g → chain_graph (p_arcs g) (p_edges g) → chordal (p_edges g) → p_edges g ≠ ∅ →
  ∃ k, clique_size nxc o (2 + n) g = Ok (Z.of_nat k) ∧ largest (p_nodes g) (p_edges g) k.
Proof.
  intros Hnx Hg Hchain Hch Hne. destruct (decide (p_arcs g = ∅)) as [Ha|Ha].
  { destruct (base_size nxc Hnx o (S n) g Hg Ha Hch Hne) as (k & H1 & H2 & _). by exists k. }
  change (2 + n) with (S (S n)). cbn [clique_size]. rewrite decide_False by (by intros H%size_empty_inv; apply Ha; apply leibniz_equiv).
  destruct (components_spec g o Hg) as (cs & -> & Hco). cbn [res_bind].
  destruct (res_each_ok (clique_size nxc o (S n)) (λ h z, ∃ k, z = Z.of_nat k ∧ largest (p_nodes h) (p_edges h) k ∧ 2 ≤ k) cs) as (zs & E & Hzs).
  { intros h Hh. destruct (base_size nxc Hnx o n h) as (k & H1 & H2 & H3);
      [by apply (co_wf g cs Hco)|by apply (comp_no_arcs g cs Hg Hco)|by apply (comp_chordal g cs Hg Hco)|by apply (comp_edge g cs Hg Hco)|].
    exists (Z.of_nat k). split; [done|]. by exists k. }
  cbn [clique_size] in E. rewrite E. cbn [res_bind].
  destruct (edge_joined g Hg Hne) as (x & y & Hxy & _). destruct (co_some g cs Hco x y Hxy) as (h0 & Hh0 & _).
  destruct zs as [|z zs]; [apply Forall2_nil_inv_r in Hzs as ->; by apply elem_of_nil in Hh0|].
  destruct (foldl_zmax zs z) as [H1 H2]. cbv zeta in H1, H2. set (r := foldl Z.max z zs) in *. clearbody r.
  apply elem_of_list_lookup in H2 as [i Hi]. destruct (Forall2_lookup_r _ _ _ _ _ Hzs Hi) as (h & Hh & k & -> & [(C & HC & HCc & HCs) _] & Hk2).
  apply elem_of_list_lookup_2 in Hh. exists k. split; [done|]. split.
  - exists C. split; [etrans; [exact HC|]; by apply (co_nodes g cs Hco)|]. split; [by apply (clique_comp g cs Hg Hco h)|done].
  - intros C' HC' Hcl. destruct (decide (2 ≤ size C')) as [Hs|Hs]; [|lia].
    destruct (clique_in_comp g cs Hg Hco C' Hcl Hs) as (h' & Hh' & Hin). apply elem_of_list_lookup in Hh' as [j Hj].
    destruct (Forall2_lookup_l _ _ _ _ _ Hzs Hj) as (z' & Hz' & k' & -> & [_ Hmax] & _).
    apply elem_of_list_lookup_2 in Hz'. apply H1 in Hz'. apply elem_of_list_lookup_2 in Hj.
    assert (size C' ≤ k') by (apply Hmax; [done|by apply (clique_comp g cs Hg Hco h')]). lia.
Qed.

(** An essential graph, also after interventions, is a chain graph and its
    undirected part is chordal. *)
Lemma closed_form_chain N E Is K0 g : acyclic E → over N E → known_spec E Is K0 → closed_form N E K0 g →
  pdag_wf g ∧ chain_graph (p_arcs g) (p_edges g) ∧ chordal (p_edges g).
Proof.
  intros Hac Ho HK Hcf. pose proof (known_sub _ _ _ HK) as Hsub. pose proof (known_vs _ _ _ HK) as HV.
  pose proof (known_closed _ _ _ Hac HK (p_arcs g) (cf_arcs _ _ _ _ Hcf)) as HL.
  assert (pdag_wf g) as Hg. { apply pok_pdag_wf. apply (cf_shows _ _ _ _ Hcf). }
  destruct (closed_form_directs _ _ _ _ Hac Hcf) as (_ & _ & _ & He).
  assert (∀ x y, joined (p_edges g) x y ↔ MeekProofs.und E (p_arcs g) x y) as Hj.
  { intros x y. rewrite <-und_joined by done. unfold PropertiesMag.und. rewrite <-has_edge_true, He. done. }
  split; [done|]. split.
  - intros x y Hxy Hr. apply joined_rtc_sym in Hr.
    assert ((x, x) ∈ p_arcs g) as Hxx; [|by apply (arcs_ne g Hg) in Hxx].
    clear -Hr Hxy Hac Hsub HV HL Hj Hcf. assert (∀ z, rtc (joined (p_edges g)) y z → (x, z) ∈ p_arcs g) as H; [|by apply H].
    clear Hr. intros z Hr. induction Hr as [|y w z Hyw _ IH]; [done|]. apply IH. apply Hj in Hyw.
    by apply (K_und E K0 (p_arcs g) Hac Hsub HV (cf_arcs _ _ _ _ Hcf) HL x y w).
  - destruct (exists_topo N E Hac Ho) as [l Hl]. pose proof (und_good N E K0 (p_arcs g) Hac Ho Hsub HV (cf_arcs _ _ _ _ Hcf) HL l Hl) as Hgood.
    destruct Hl as (Hnd & HN & _). apply (order_chordal _ l); [done| |].
    + intros x y H. apply HN. apply Hj in H as ([H|H] & _); apply Ho in H; tauto.
    + intros l1 v l2 Heq a b [Ha Hav] [Hb Hbv] Hne. apply Hj. apply (Hgood l1 v l2 Heq); [|split; [done|by apply Hj]|done]. split; [done|by apply Hj].
Qed.
Theorem C126_essential d o o' Is c :
  views_agree d → acyclic (d_arcs d) → cpdag d o = Ok c →
  (pdag_wf c ∧ chain_graph (p_arcs c) (p_edges c) ∧ chordal (p_edges c)) ∧
  ∃ g, interventional_cpdag d o' Is c = Ok g ∧ pdag_wf g ∧ chain_graph (p_arcs g) (p_edges g) ∧ chordal (p_edges g).
Proof.
  rewrite <-wf_views_agree. intros Hwf Hac Hc. split.
  - destruct (cpdag_spec d Hwf Hac o) as (c' & Hc' & Hcf & _). rewrite Hc in Hc'. injection Hc' as <-.
    apply (closed_form_chain (d_nodes d) (d_arcs d) [] (arcs_in_vstructures d)); [done|apply Hwf|by apply vs_known_spec|done].
  - destruct (interventional_cpdag_spec d Hwf Hac o' o Is c Hc) as (g & Hg & Hgf). exists g. split; [done|].
    apply (closed_form_chain (d_nodes d) (d_arcs d) Is (cut_arcs d Is ∪ arcs_in_vstructures d)); [done|apply Hwf|by apply icut_known_spec|done].
Qed.

(** So both methods answer as they should on every essential graph that has an
    undirected edge. *)
Theorem C126_cpdag nxc d o o' n c :
  finds_cliques nxc → views_agree d → acyclic (d_arcs d) → cpdag d o = Ok c → p_edges c ≠ ∅ →
  (∃ R, max_cliques nxc o' (2 + n) c = Ok R ∧ ∀ C, C ∈ R ↔ maximal_clique (p_nodes c) (p_edges c) C ∧ 2 ≤ size C) ∧
  ∃ k, clique_size nxc o' (2 + n) c = Ok (Z.of_nat k) ∧ largest (p_nodes c) (p_edges c) k.
Proof.
  intros Hnx Hd Hac Hc Hne. destruct (C126_essential d o o' [] c Hd Hac Hc) as [(H1 & H2 & H3) _].
  split; [by apply C126_max_cliques|by apply C126_clique_size].
Qed.

(** Without undirected edges: both raise an error if there is an arc; otherwise no
    clique is returned and the size is -1. *)
Theorem C126_no_edges nxc o n g :
  finds_cliques nxc → pdag_wf g → p_edges g = ∅ →
  if decide (p_arcs g = ∅) then max_cliques nxc o (1 + n) g = Ok ∅ ∧ clique_size nxc o (1 + n) g = Ok (-1)%Z
  else max_cliques nxc o (1 + n) g = Raise TypeError ∧ clique_size nxc o (1 + n) g = Raise ValueError.
Proof.
  intros Hnx Hg He. change (1 + n) with (S n). cbn [max_cliques clique_size]. case_decide as Ha.
  - rewrite !decide_True by (by rewrite Ha, size_empty). unfold p_to_nx. rewrite decide_True by done. cbn [res_bind].
    unfold chordal_graph_treewidth. rewrite He. destruct (Hnx ∅) as (cl & -> & Hcl).
    + intros x Hx. by apply not_elem_of_empty in Hx.
    + intros c [_ Hc] Hlen. exfalso. destruct (lookup_lt_is_Some_2 c 0) as [x Hx]; [lia|]. destruct (cycle_next c 0 x Hx) as [y Hy].
      destruct (Hc 0 x y Hx Hy) as [H|H]; by apply not_elem_of_empty in H.
    + assert (cl = []) as ->; [|done]. destruct cl as [|C cl]; [done|]. exfalso.
      destruct (proj1 (Hcl C)) as (Hne & Hsub & _); [left|]. apply set_choose_L in Hne as [x Hx]. apply Hsub, elem_of_nodes_of in Hx as [y [H|H]];
        by apply not_elem_of_empty in H.
  - rewrite !decide_False by (by intros H%size_empty_inv; apply Ha; apply leibniz_equiv).
    destruct (components_spec g o Hg) as (cs & -> & Hco). cbn [res_bind].
    assert (cs = []) as ->; [|done]. destruct cs as [|h cs]; [done|]. exfalso.
    apply (comp_edge g (h :: cs) Hg Hco h); [left|]. apply set_eq. intros [x y]. split; [|intros H; by apply not_elem_of_empty in H].
    intros H. destruct (proj1 (co_edges g (h :: cs) Hco h x y ltac:(left))) as ([H'|H'] & _); [by left|..]; rewrite He in H'; by apply not_elem_of_empty in H'.
Qed.

(** If an arc joins two nodes that are connected by undirected edges, neither
    method returns: the calls on the component go on for ever. *)
Theorem C126_unending nxc o n g x y :
  pdag_wf g → (x, y) ∈ p_arcs g → rtc (joined (p_edges g)) x y →
  (∀ R, max_cliques nxc o n g ≠ Ok R) ∧ (∀ z, clique_size nxc o n g ≠ Ok z).
Proof.
  revert g. induction n as [|n IH]; intros g Hg Hxy Hr; [done|]. cbn [max_cliques clique_size].
  assert (size (p_arcs g) ≠ 0) as Hs by (intros H%size_empty_inv; by apply H in Hxy; apply not_elem_of_empty in Hxy).
  rewrite !decide_False by done.
  destruct (components_spec g o Hg) as (cs & -> & Hco). cbn [res_bind].
  destruct (rtc_inv _ _ Hr) as [->|(z & Hxz & _)]; [by apply (arcs_ne g Hg) in Hxy|].
  destruct (co_some g cs Hco x z Hxz) as (h & Hh & Hxh).
  assert (∀ w, rtc (joined (p_edges g)) x w → rtc (joined (p_edges h)) x w) as Hrh.
  { apply rtc_ind_r; [apply rtc_refl|]. intros u w Hu Huw IHw. eapply rtc_r; [exact IHw|].
    apply (co_edges g cs Hco h u w Hh). split; [done|]. split; apply (co_conn g cs Hco h x _ Hh Hxh); [done|by eapply rtc_r]. }
  destruct (IH h) as [H1 H2]; [by apply (co_wf g cs Hco)| |by apply Hrh|].
  { apply (co_arcs g cs Hco h x y Hh). split; [done|]. split; [done|]. by apply (co_conn g cs Hco h x y Hh Hxh). }
  split.
  - intros R. destruct (res_each (max_cliques nxc o n) cs) as [Cs|e] eqn:E; cbn [res_bind]; [|done]. by apply (res_each_bad _ _ h) in E.
  - intros w. destruct (res_each (clique_size nxc o n) cs) as [zs|e] eqn:E; cbn [res_bind]; [|done]. by apply (res_each_bad _ _ h) in E.
Qed.

(** ** Examples *)

(** A function that finds all maximal cliques by trying all sets. *)
Fixpoint sublists (l : list node) : list (list node) :=
  match l with [] => [[]] | x :: l' => sublists l' ++ (cons x <$> sublists l') end.
Definition is_max (E : arcset) (C : nset) : Prop :=
  C ≠ ∅ ∧ set_Forall (λ x, set_Forall (λ y, x = y ∨ joined E x y) C) C ∧
  set_Forall (λ v, ¬ set_Forall (λ x, joined E v x) C) (nodes_of E ∖ C).
Global Instance is_max_decision E C : Decision (is_max E C).
Proof. unfold is_max. apply _. Defined.
Definition try_all (E : arcset) : res (list nset) :=
  Ok (filter (is_max E) (list_to_set <$> sublists (elements (nodes_of E)))).
Lemma sublists_spec l (C : nset) : (∃ k, k ∈ sublists l ∧ C = list_to_set k) ↔ ∀ x, x ∈ C → x ∈ l.
Proof.
  revert C. induction l as [|a l IH]; intros C; cbn.
  - split.
    + intros (k & ->%elem_of_list_singleton & ->) x Hx. by apply not_elem_of_empty in Hx.
    + intros H. exists []. split; [left|]. apply set_eq. intros x. split; intros Hx; [by apply H, elem_of_nil in Hx|by apply not_elem_of_empty in Hx].
  - split.
    + intros (k & Hk & ->) x Hx. apply elem_of_app in Hk as [Hk|(k' & -> & Hk)%elem_of_list_fmap].
      * right. by apply (proj1 (IH (list_to_set k))); [by exists k|].
      * cbn in Hx. apply elem_of_union in Hx as [->%elem_of_singleton|Hx]; [left|]. right. by apply (proj1 (IH (list_to_set k'))); [by exists k'|].
    + intros H. destruct (decide (a ∈ C)) as [Ha|Ha].
      * destruct (proj2 (IH (C ∖ {[a]}))) as (k & Hk & HC).
        { intros x Hx. apply elem_of_difference in Hx as [Hx Hxa]. apply H, elem_of_cons in Hx as [->|]; [clear -Hxa; set_solver|done]. }
        exists (a :: k). split; [apply elem_of_app; right; by apply elem_of_list_fmap_1|]. cbn. rewrite <-HC. apply set_eq. intros x.
        destruct (decide (x = a)) as [->|Hxa]; [clear -Ha; set_solver|]. clear -Hxa; set_solver.
      * destruct (proj2 (IH C)) as (k & Hk & HC); [|exists k; split; [apply elem_of_app; by left|done]].
        intros x Hx. pose proof (H x Hx) as [->|]%elem_of_cons; done.
Qed.
Lemma try_all_finds : finds_cliques try_all.
Proof.
  intros E HL _. eexists. split; [reflexivity|]. intros C. rewrite elem_of_list_filter, elem_of_list_fmap.
  assert ((∃ k, C = list_to_set k ∧ k ∈ sublists (elements (nodes_of E))) ↔ C ⊆ nodes_of E) as ->.
  { transitivity (∃ k, k ∈ sublists (elements (nodes_of E)) ∧ C = list_to_set k); [split; intros (k & ? & ?); by exists k|].
    rewrite sublists_spec. split; intros H x Hx; [by apply elem_of_elements, H|by apply elem_of_elements, H]. }
  unfold is_max, maximal_clique. split.
  - intros [(H1 & H2 & H3) H4]. split_and!; [done|done| |].
    + intros x y Hx Hy Hne. by destruct (H2 x Hx y Hy).
    + intros C' HC' Hcl HCC' v Hv. destruct (decide (v ∈ C)) as [|HvC]; [done|]. destruct (H3 v); [by apply elem_of_difference; auto|].
      intros x Hx. apply Hcl; [done|by apply HCC'|by intros ->].
  - intros (H1 & H4 & H2 & H3). split; [|done]. split_and!; [done| |].
    + intros x Hx y Hy. destruct (decide (x = y)) as [|Hne]; [by left|]. right. by apply H2.
    + intros v Hv Hall. apply elem_of_difference in Hv as [HvN HvC]. apply HvC, (H3 ({[v]} ∪ C)); [clear -HvN H4; set_solver| |clear; set_solver|clear; set_solver].
      intros a b Ha Hb Hne. apply elem_of_union in Ha, Hb. rewrite !elem_of_singleton in Ha, Hb.
      destruct Ha as [->|Ha], Hb as [->|Hb]; [done|by apply Hall|apply joined_sym; by apply Hall|by apply H2].
Qed.

(** The essential graph of 1 -> 2 -> 3, 1 -> 3, 5 -> 4, 6 -> 4, 7 -> 8, 9: the triangle
    1 - 2 - 3 and the edge 7 - 8 are undirected. *)
Definition cl_dag : dag := dag_of {[9]} {[(1, 2); (2, 3); (1, 3); (5, 4); (6, 4); (7, 8)]}.
Lemma cl_ok : views_agree cl_dag ∧ acyclic (d_arcs cl_dag).
Proof. split; [apply wf_views_agree, dag_of_wf; by_vm|by_vm]. Qed.
Example C126_example :
  finds_cliques try_all ∧ views_agree cl_dag ∧ acyclic (d_arcs cl_dag) ∧
  match cpdag cl_dag oracle0 with
  | Ok c => bool_decide (p_edges c ≠ ∅) &&
            match max_cliques try_all oracle_rev 2 c with Ok R => bool_decide (R = {[{[1; 2; 3]}; {[7; 8]}]}) | _ => false end &&
            match clique_size try_all oracle_rev 2 c with Ok z => bool_decide (z = 3%Z) | _ => false end
  | _ => false end = true.
Proof. split; [apply try_all_finds|]. split; [apply cl_ok|]. split; [apply cl_ok|]. by_vm. Qed.

(** Single nodes are missing: 9 is a maximal clique of this graph. *)
Theorem C126_single_refuted :
  ∃ d c R, views_agree d ∧ acyclic (d_arcs d) ∧ cpdag d oracle0 = Ok c ∧ maximal_clique (p_nodes c) (p_edges c) {[9]} ∧
    finds_cliques try_all ∧ max_cliques try_all oracle0 2 c = Ok R ∧ {[9]} ∉ R.
Proof.
  destruct cl_ok as [H1 H2]. destruct (C18_cpdag cl_dag oracle0 H1 H2) as (c & Hc & (_ & HN & _) & _).
  assert (match cpdag cl_dag oracle0 with Ok c => bool_decide (p_edges c ≠ ∅ ∧ 9 ∉ nodes_of (p_edges c)) | _ => false end = true) as Hb by by_vm.
  rewrite Hc in Hb. apply bool_decide_eq_true in Hb as [Hne H9].
  assert (maximal_clique (p_nodes c) (p_edges c) {[9]}) as Hm.
  { rewrite HN. clear -H9. split_and!.
    - clear. set_solver.
    - by_vm.
    - intros x y ->%elem_of_singleton ->%elem_of_singleton Hxy. by destruct Hxy.
    - intros C' _ Hcl Hin v Hv. apply elem_of_singleton. destruct (decide (v = 9)) as [|Hv9]; [assumption|]. destruct H9. apply elem_of_nodes_of.
      exists v. apply Hcl; [clear -Hin; set_solver|assumption|clear -Hv9; congruence]. }
  destruct (C126_cpdag try_all cl_dag oracle0 oracle0 0 c try_all_finds H1 H2 Hc Hne) as [(R & HR & HC) _].
  exists cl_dag, c, R. split; [exact H1|]. split; [exact H2|]. split; [exact Hc|]. split; [exact Hm|]. split; [apply try_all_finds|].
  split; [exact HR|]. rewrite HC, size_singleton. clear. lia.
Qed.

(** Both methods raise an error on the essential graph of 1 -> 3 <- 2, whose largest
    cliques of undirected edges have one node. *)
Theorem C126_directed_refuted :
  ∃ d c, views_agree d ∧ acyclic (d_arcs d) ∧ cpdag d oracle0 = Ok c ∧ finds_cliques try_all ∧
    ∀ o n, max_cliques try_all o (1 + n) c = Raise TypeError ∧ clique_size try_all o (1 + n) c = Raise ValueError.
Proof.
  set (d := dag_of ∅ {[(1, 3); (2, 3)]}).
  assert (views_agree d) as H1 by (apply wf_views_agree, dag_of_wf; by_vm). assert (acyclic (d_arcs d)) as H2 by by_vm.
  destruct (C18_cpdag d oracle0 H1 H2) as (c & Hc & _).
  assert (match cpdag d oracle0 with Ok c => bool_decide (p_edges c = ∅ ∧ p_arcs c ≠ ∅) | _ => false end = true) as Hb by by_vm.
  rewrite Hc in Hb. apply bool_decide_eq_true in Hb as [He Ha]. exists d, c. split_and!; [done..|apply try_all_finds|].
  intros o n. destruct (C126_essential d oracle0 o [] c H1 H2 Hc) as [(Hw & _) _].
  pose proof (C126_no_edges try_all o n c try_all_finds Hw He) as H. by rewrite decide_False in H.
Qed.

(** 1 - 2 - 3 with 1 -> 3. *)
Definition loop_pdag : pdag := pdag_make oracle0 ∅ {[(1, 3)]} {[(1, 2); (2, 3)]} ∅.
Example C126_unending_example :
  pdag_wf loop_pdag ∧ (1, 3) ∈ p_arcs loop_pdag ∧ rtc (joined (p_edges loop_pdag)) 1 3 ∧
  match max_cliques try_all oracle0 50 loop_pdag with Raise OutOfFuel => true | _ => false end = true.
Proof.
  split.
  { apply pok_pdag_wf. apply pdag_make_ok.
    - intros x y. rewrite !elem_of_singleton. congruence.
    - intros x. clear. set_solver.
    - intros x y. unfold adjacent. rewrite elem_of_union, !elem_of_singleton. intros Ha Hb; destruct Ha as [Ha|Ha], Hb as [Hb|Hb]; congruence. }
  split; [by_vm|]. split; [|by vm_compute]. apply (rtc_l _ 1 2 3); [left; by_vm|]. apply rtc_once. left. by_vm.
Qed.

Print Assumptions C126_max_cliques.
Print Assumptions C126_clique_size.
Print Assumptions C126_essential.
Print Assumptions C126_cpdag.
Print Assumptions C126_no_edges.
Print Assumptions C126_unending.
Print Assumptions C126_single_refuted.
Print Assumptions C126_directed_refuted.
