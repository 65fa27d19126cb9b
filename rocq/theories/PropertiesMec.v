(** Final theorems about equivalence classes: C17-C24. *)
From Verif Require Import Py Spec SpecDsep SpecMec DagModel DsepModel UGraphModel PdagModel TopoProofs StateProofs ReachProofs OrderProofs
  QueryProofs DsepProofs MarkovProofs ImapProofs UGraphProofs PdagProofs ProtProofs CpdagProofs EquivProofs MeekProofs MecProofs
  PropertiesDag PropertiesDsep.

(** The maps of a PDAG agree with its arcs and edges; no pair is joined twice. *)
Definition pdag_views_agree (g : pdag) : Prop :=
  (∀ x y, (x, y) ∈ p_arcs g → x ∈ p_nodes g ∧ y ∈ p_nodes g) ∧
  (∀ x y, has_edge g x y = true → x ≠ y ∧ x ∈ p_nodes g ∧ y ∈ p_nodes g) ∧
  (∀ x y, x ∈ p_parents g y ↔ (x, y) ∈ p_arcs g) ∧
  (∀ x y, y ∈ p_children g x ↔ (x, y) ∈ p_arcs g) ∧
  (∀ x y, y ∈ p_unbrs g x ↔ has_edge g x y = true) ∧
  (∀ x y, y ∈ p_neighbors g x ↔ adjacent (p_arcs g) x y ∨ has_edge g x y = true) ∧
  (∀ x y, (x, y) ∈ p_arcs g → (y, x) ∉ p_arcs g ∧ has_edge g x y = false).

Lemma pok_views g : pok g → pdag_views_agree g.
Proof.
  intros H. assert (∀ x y, has_edge g x y = true ↔ upair x y ∈ p_edges g) as He by (intros; apply has_edge_true).
  unfold pdag_views_agree. setoid_rewrite He. pose proof (pok_over g H) as [Ho1 Ho2]. split_and!.
  - exact Ho1.
  - intros x y Hxy. split; [by eapply upair_edge_ne|]. by eapply over_upair.
  - apply (pok_par g H).
  - apply (pok_chi g H).
  - intros x y. rewrite (pok_unb g H). split; [by intros []|]. intros Hxy. split; [by eapply upair_edge_ne|done].
  - intros x y. rewrite (pok_nbr g H), (pok_unb g H). unfold adjacent. assert (upair x y ∈ p_edges g → x ≠ y) by by apply upair_edge_ne. tauto.
  - intros x y Hxy. split; [by apply (pok_asym g H)|]. unfold has_edge. apply bool_decide_eq_false. by apply (pok_disj g H).
Qed.

(** What a PDAG shows of a graph: same nodes, same adjacencies, no wrong arc. *)
Definition partially_directs (N : nset) (E : arcset) (g : pdag) : Prop :=
  pdag_views_agree g ∧ p_nodes g = N ∧ p_arcs g ⊆ E ∧
  (∀ x y, has_edge g x y = true ↔ adjacent E x y ∧ (x, y) ∉ p_arcs g ∧ (y, x) ∉ p_arcs g).

Lemma closed_form_directs N E K0 g : acyclic E → closed_form N E K0 g → partially_directs N E g.
Proof.
  intros Hac [Hg HN HA]. pose proof (sh_sub E g Hg) as Hsub. split; [apply pok_views, Hg|]. split; [done|]. split; [done|].
  intros x y. rewrite has_edge_true, (sh_edge E g Hg). unfold adjacent. rewrite !elem_of_difference.
  pose proof (acyclic_asym E x y Hac). pose proof (acyclic_asym E y x Hac).
  assert ((x, y) ∈ p_arcs g → (x, y) ∈ E) by apply Hsub. assert ((y, x) ∈ p_arcs g → (y, x) ∈ E) by apply Hsub. tauto.
Qed.

Definition ex2_arcs : arcset := {[(1, 2); (2, 4); (3, 4); (4, 5); (3, 5)]}.
Definition ex2_dag : dag := dag_of {[6]} ex2_arcs.
Lemma ex2_acyclic : acyclic ex2_arcs. Proof. by_vm. Qed.
Lemma ex2_ok : views_agree ex2_dag ∧ acyclic (d_arcs ex2_dag).
Proof. split; [apply wf_views_agree, dag_of_wf|]. unfold ex2_dag. rewrite dag_of_arcs by apply ex2_acyclic. apply ex2_acyclic. Qed.

(** ** C20: [markov_equivalent] *)

Theorem C20_markov_equivalent d1 d2 o o' :
  views_agree d1 → acyclic (d_arcs d1) → views_agree d2 → acyclic (d_arcs d2) →
  ∃ b, markov_equivalent d1 d2 o o' None = Ok b ∧
    (b = true ↔ d_nodes d1 = d_nodes d2 ∧ same_skeleton (d_arcs d1) (d_arcs d2) ∧ same_vstructs (d_arcs d1) (d_arcs d2)).
Proof.
  rewrite <-!wf_views_agree. intros H1 H2 H3 H4. destruct (markov_equivalent_spec d1 d2 H1 H2 H3 H4 o o' None) as (b & Hb & Hspec).
  exists b. split; [done|]. rewrite Hspec. cbn. by rewrite equivalent_nil.
Qed.

(** In particular it is an equivalence relation. *)
Corollary C20_equivalence_relation d1 d2 d3 o o' :
  views_agree d1 → acyclic (d_arcs d1) → views_agree d2 → acyclic (d_arcs d2) → views_agree d3 → acyclic (d_arcs d3) →
  markov_equivalent d1 d1 o o' None = Ok true ∧
  (markov_equivalent d1 d2 o o' None = Ok true → markov_equivalent d2 d1 o o' None = Ok true) ∧
  (markov_equivalent d1 d2 o o' None = Ok true → markov_equivalent d2 d3 o o' None = Ok true →
   markov_equivalent d1 d3 o o' None = Ok true).
Proof.
  intros H1 H2 H3 H4 H5 H6.
  assert (∀ d d', views_agree d → acyclic (d_arcs d) → views_agree d' → acyclic (d_arcs d') →
    markov_equivalent d d' o o' None = Ok true ↔ d_nodes d = d_nodes d' ∧ equivalent (d_arcs d) (d_arcs d')) as H.
  { intros d d' ? ? ? ?. destruct (C20_markov_equivalent d d' o o') as (b & -> & Hb); [done..|]. unfold equivalent. rewrite <-Hb. split; congruence. }
  rewrite !H by done. split; [split; [done|apply equivalent_refl]|]. split.
  - intros [-> ?]. split; [done|by apply equivalent_sym].
  - intros [-> ?] [-> ?]. split; [done|by eapply equivalent_trans].
Qed.

(** A chain is equivalent to the reversed chain, not to the collider. *)
Example C20_example :
  let d1 := dag_of ∅ {[(0, 1); (1, 2)]} in let d2 := dag_of ∅ {[(2, 1); (1, 0)]} in let d3 := dag_of ∅ {[(0, 1); (2, 1)]} in
  markov_equivalent d1 d2 oracle0 oracle_rev None = Ok true ∧ markov_equivalent d1 d3 oracle0 oracle_rev None = Ok false.
Proof. cbn zeta. split; by_vm. Qed.

(** ** C17: covered arcs *)

Theorem C17_reversible d o o' ign chk i j :
  views_agree d → acyclic (d_arcs d) → (i, j) ∈ reversible_arcs d →
  let r := reverse_arc o i j ign chk d in
  r.2 = Ok tt ∧ views_agree r.1 ∧ d_nodes r.1 = d_nodes d ∧
  d_arcs r.1 = {[(j, i)]} ∪ d_arcs d ∖ {[(i, j)]} ∧ acyclic (d_arcs r.1) ∧
  same_skeleton (d_arcs d) (d_arcs r.1) ∧ same_vstructs (d_arcs d) (d_arcs r.1) ∧
  markov_equivalent d r.1 o o' None = Ok true.
Proof.
  intros Hv. pose proof Hv as Hwf. rewrite <-wf_views_agree in Hwf. intros Hac Hr. cbn zeta.
  apply reversible_arcs_spec in Hr as [Hij Hc]; [|done].
  assert (covered (d_arcs d) i j) as Hcov by done.
  pose proof (covered_ne _ Hac _ _ Hcov) as Hne. pose proof (flip_acyclic _ Hac _ _ Hcov) as Hac'.
  pose proof (flip_equivalent _ Hac _ _ Hcov) as [Hs Hvs].
  destruct (reverse_arc_spec o i j ign chk d Hwf (acyclic_oriented _ Hac) Hne) as (Hwf' & _ & Hcases).
  destruct (reverse_arc o i j ign chk d) as [d' r]. cbn [fst snd] in *.
  destruct Hcases as [(_ & _ & Hn & _)|[(-> & HN & HA & _)|(w & _ & _ & _ & Hn & _)]]; [done| |by destruct Hn].
  assert (d_nodes d' = d_nodes d) as HN'. { rewrite HN. apply (wf_over _ Hwf) in Hij as [H1 H2]. clear -H1 H2. set_solver. }
  unfold flip_arc in *. rewrite HA. assert (views_agree d') as Hv' by by apply wf_views_agree. do 7 (split; [done|]).
  destruct (C20_markov_equivalent d d' o o') as (b & -> & Hb); [done|done|done|by rewrite HA|]. f_equal. apply Hb. by rewrite HA.
Qed.

(** [is_reversible] on an arc is membership in [reversible_arcs]. *)
Theorem C17_is_reversible d i j : (i, j) ∈ d_arcs d → is_reversible d i j = true ↔ (i, j) ∈ reversible_arcs d.
Proof. intros H. unfold is_reversible, reversible_arcs. rewrite bool_decide_eq_true, elem_of_filter. cbn. tauto. Qed.

Example C17_example :
  let d := dag_of ∅ {[(1, 2); (1, 3); (2, 3); (3, 4)]} in
  (2, 3) ∈ reversible_arcs d ∧ (3, 4) ∉ reversible_arcs d ∧
  (reverse_arc oracle0 2 3 false true d).2 = Ok tt.
Proof. cbn zeta. split_and!; by_vm. Qed.

(** ** C18: [cpdag] *)

Theorem C18_cpdag d o :
  views_agree d → acyclic (d_arcs d) →
  ∃ c, cpdag d o = Ok c ∧ partially_directs (d_nodes d) (d_arcs d) c ∧
    (∀ x z y, vstruct (d_arcs d) x z y → (x, z) ∈ p_arcs c) ∧
    (∀ o' c', cpdag d o' = Ok c' → p_nodes c' = p_nodes c ∧ p_arcs c' = p_arcs c ∧ p_edges c' = p_edges c).
Proof.
  rewrite <-wf_views_agree. intros Hwf Hac. destruct (cpdag_spec d Hwf Hac o) as (c & Hc & Hcf & Hk). exists c.
  split; [done|]. split; [by eapply closed_form_directs|]. split.
  - intros x z y Hv. apply (cf_arcs _ _ _ _ Hcf). apply prot_known. apply arcs_in_vstructures_spec; [done|]. by exists y.
  - intros o' c' Hc'. destruct (cpdag_spec d Hwf Hac o') as (c'' & Hc'' & Hcf' & _). rewrite Hc' in Hc''. injection Hc'' as <-.
    assert (pdag_eqb c c' = true) as Heq.
    { eapply closed_form_equiv; [done|done|by apply vs_known_spec|by apply vs_known_spec|done|done|]. split; [done|].
      apply equivalent_nil, equivalent_refl. }
    unfold pdag_eqb in Heq. rewrite !andb_true_iff, !bool_decide_eq_true in Heq. naive_solver.
Qed.

Example C18_example :
  views_agree ex2_dag ∧ acyclic (d_arcs ex2_dag) ∧
  match cpdag ex2_dag oracle_rev with
  | Ok c => bool_decide (p_arcs c = {[(2, 4); (3, 4); (4, 5); (3, 5)]} ∧ p_edges c = {[(1, 2)]}) | Raise _ => false end = true.
Proof. split; [apply ex2_ok|]. split; [apply ex2_ok|]. by_vm. Qed.

(** ** C19, C22: directed arcs are exactly the compelled ones *)

Theorem C19_directed_compelled d o c i j E' :
  views_agree d → acyclic (d_arcs d) → cpdag d o = Ok c → (i, j) ∈ p_arcs c →
  acyclic E' → same_skeleton (d_arcs d) E' → same_vstructs (d_arcs d) E' → (i, j) ∈ E'.
Proof.
  rewrite <-wf_views_agree. intros Hwf Hac Hc Hij Hac' Hs Hv.
  destruct (cpdag_spec d Hwf Hac o) as (c' & Hc' & Hcf & _). rewrite Hc in Hc'. injection Hc' as <-.
  apply (cf_arcs _ _ _ _ Hcf) in Hij. pose proof (vs_known_spec d Hwf) as HK.
  assert (arcs_in_vstructures d ⊆ E') as Hsub.
  { intros [x z] Hxz. apply HK in Hxz as [_ [(y & Hy)|(I & HI & _)]]; [|by apply elem_of_nil in HI]. by apply Hv in Hy as []. }
  apply (prot_sub E' (arcs_in_vstructures d) i j Hsub).
  by apply (prot_equiv (d_arcs d) E' (arcs_in_vstructures d)); [| | |apply (known_sub _ _ _ HK)|..].
Qed.

Theorem C22_undirected_reversible d o c i j :
  views_agree d → acyclic (d_arcs d) → cpdag d o = Ok c → has_edge c i j = true →
  (∃ E', acyclic E' ∧ same_skeleton (d_arcs d) E' ∧ same_vstructs (d_arcs d) E' ∧ (i, j) ∈ E') ∧
  (∃ E', acyclic E' ∧ same_skeleton (d_arcs d) E' ∧ same_vstructs (d_arcs d) E' ∧ (j, i) ∈ E').
Proof.
  rewrite <-wf_views_agree. intros Hwf Hac Hc He.
  destruct (cpdag_spec d Hwf Hac o) as (c' & Hc' & Hcf & _). rewrite Hc in Hc'. injection Hc' as <-.
  destruct (closed_form_directs _ _ _ _ Hac Hcf) as (_ & _ & _ & He'). apply He' in He as (Hadj & Hn1 & Hn2).
  pose proof (vs_known_spec d Hwf) as HK.
  assert (∀ i j, (i, j) ∈ d_arcs d → (i, j) ∉ p_arcs c → ∃ E', acyclic E' ∧ equivalent (d_arcs d) E' ∧ (j, i) ∈ E') as Hrev.
  { intros x y Hxy Hn. destruct (meek_complete (d_nodes d) (d_arcs d) (arcs_in_vstructures d) (p_arcs c) x y Hac) as (E' & H1 & H2 & _ & H3);
      [apply Hwf|by apply (known_sub _ _ _ HK)|by apply (known_vs _ _ _ HK)|apply (cf_arcs _ _ _ _ Hcf)| |done|done|].
    - by apply (known_closed _ _ _ Hac HK), (cf_arcs _ _ _ _ Hcf).
    - by exists E'. }
  destruct Hadj as [Hij|Hji].
  - split; [by exists (d_arcs d)|]. destruct (Hrev i j Hij Hn1) as (E' & ? & [? ?] & ?). by exists E'.
  - split; [|by exists (d_arcs d)]. destruct (Hrev j i Hji Hn2) as (E' & ? & [? ?] & ?). by exists E'.
Qed.

Example C19_C22_example :
  match cpdag ex2_dag oracle0 with
  | Ok c => bool_decide ((4, 5) ∈ p_arcs c) && has_edge c 1 2 | Raise _ => false end = true ∧
  let E' := {[(2, 1); (2, 4); (3, 4); (4, 5); (3, 5)]} : arcset in acyclic E' ∧ E' ≠ d_arcs ex2_dag.
Proof. cbn zeta. split_and!; by_vm. Qed.

(** ** C21: [markov_equivalent] and [dsep] *)

Theorem C21_same_separations d1 d2 o o' :
  views_agree d1 → acyclic (d_arcs d1) → views_agree d2 → acyclic (d_arcs d2) → d_nodes d1 = d_nodes d2 →
  markov_equivalent d1 d2 o o' None = Ok true ↔ same_seps (d_nodes d1) (d_arcs d1) (d_arcs d2).
Proof.
  intros H1 H2 H3 H4 HN. destruct (C20_markov_equivalent d1 d2 o o') as (b & -> & Hb); [done..|].
  apply wf_views_agree in H1 as Hwf1, H3 as Hwf2.
  trans (equivalent (d_arcs d1) (d_arcs d2)).
  - unfold equivalent. split; [intros [= ->]; by apply Hb|]. intros H. f_equal. by apply Hb.
  - split.
    + intros H. apply equivalent_seps; [done..|apply Hwf1|done].
    + intros H. eapply (seps_equivalent (d_nodes d1)); [done..|apply Hwf1|rewrite HN; apply Hwf2|done].
Qed.

(** The same with the answers of [dsep]. *)
Theorem C21_same_dsep_answers d1 d2 o o' p p' :
  views_agree d1 → acyclic (d_arcs d1) → views_agree d2 → acyclic (d_arcs d2) → d_nodes d1 = d_nodes d2 →
  markov_equivalent d1 d2 o o' None = Ok true ↔
  ∀ A B C, A ⊆ d_nodes d1 → B ⊆ d_nodes d1 → C ⊆ d_nodes d1 → disjoint3 A B C → dsep d1 o p A B C = dsep d2 o' p' A B C.
Proof.
  intros H1 H2 H3 H4 HN. rewrite C21_same_separations by done. unfold same_seps.
  split; intros H A B C HA HB HC Hd; specialize (H A B C HA HB HC Hd);
    (destruct (C09_dsep_decides d1 o p A B C) as (b & Hb1 & Hb); [done|done|apply Hd|]);
    (destruct (C09_dsep_decides d2 o' p' A B C) as (b' & Hb1' & Hb'); [done|done|apply Hd|]).
  - rewrite Hb1, Hb1'. f_equal. apply eq_true_iff_eq. by rewrite Hb, Hb'.
  - rewrite Hb1, Hb1' in H. injection H as ->. by rewrite <-Hb, <-Hb'.
Qed.

Example C21_example :
  let d1 := dag_of {[5]} {[(0, 1); (1, 2); (2, 3)]} in let d2 := dag_of {[5]} {[(2, 1); (1, 0); (2, 3)]} in
  d_nodes d1 = d_nodes d2 ∧ markov_equivalent d1 d2 oracle0 oracle_rev None = Ok true ∧ d_arcs d1 ≠ d_arcs d2.
Proof. cbn zeta. split_and!; by_vm. Qed.

(** ** C23: [interventional_cpdag] *)

Theorem C23_interventional_cpdag d o o' Is c :
  views_agree d → acyclic (d_arcs d) → cpdag d o' = Ok c →
  ∃ g, interventional_cpdag d o Is c = Ok g ∧ partially_directs (d_nodes d) (d_arcs d) g ∧
    p_arcs c ⊆ p_arcs g ∧
    (∀ I i j, I ∈ Is → cut I i j → (i, j) ∈ d_arcs d → (i, j) ∈ p_arcs g) ∧
    (** directed arcs are the same in every interventionally equivalent graph ... *)
    (∀ i j E', (i, j) ∈ p_arcs g → acyclic E' → i_equivalent Is (d_arcs d) E' → (i, j) ∈ E') ∧
    (** ... and undirected edges are not *)
    (∀ i j, has_edge g i j = true → ∃ E', acyclic E' ∧ i_equivalent Is (d_arcs d) E' ∧ (i, j) ∈ E').
Proof.
  rewrite <-wf_views_agree. intros Hwf Hac Hc. destruct (cpdag_spec d Hwf Hac o') as (c' & Hc' & Hcf & _).
  rewrite Hc in Hc'. injection Hc' as <-. destruct (interventional_cpdag_spec d Hwf Hac o o' Is c Hc) as (g & Hg & Hgf).
  exists g. split; [done|]. pose proof (closed_form_directs _ _ _ _ Hac Hgf) as Hdir. split; [done|].
  pose proof (icut_known_spec d Hwf Hac Is) as HK. pose proof (known_sub _ _ _ HK) as Hsub.
  assert (∀ I i j, I ∈ Is → cut I i j → (i, j) ∈ d_arcs d → (i, j) ∈ p_arcs g) as Hcut.
  { intros I i j HI Hcut Hij. apply (cf_arcs _ _ _ _ Hgf), prot_known, HK. split; [done|]. right. by exists I. }
  split_and!; [|done|..].
  - intros [i j] Hij. apply (cf_arcs _ _ _ _ Hgf). apply (cf_arcs _ _ _ _ Hcf) in Hij.
    apply (prot_equiv (d_arcs d) (d_arcs d) (arcs_in_vstructures d)); [done|done|apply equivalent_refl| |clear; set_solver|done|done].
    apply (known_sub _ _ _ (vs_known_spec d Hwf)).
  - intros i j E' Hij Hac' [[Hs Hv] HcE]. apply (cf_arcs _ _ _ _ Hgf) in Hij. set (K0 := cut_arcs d Is ∪ arcs_in_vstructures d) in *.
    assert (K0 ⊆ E') as HKE.
    { intros [x z] Hxz. apply HK in Hxz as [HxzE [(y & Hy)|(I & HI & Hxz)]]; [by apply Hv in Hy as []|]. by apply (HcE I). }
    apply (prot_sub E' K0 i j HKE). by apply (prot_equiv (d_arcs d) E' K0).
  - assert (∀ i j, (i, j) ∈ d_arcs d → (i, j) ∉ p_arcs g → ∃ E', acyclic E' ∧ i_equivalent Is (d_arcs d) E' ∧ (j, i) ∈ E') as Hrev.
    { intros x y Hxy Hn. destruct (meek_complete (d_nodes d) (d_arcs d) (cut_arcs d Is ∪ arcs_in_vstructures d) (p_arcs g) x y Hac) as (E' & H1 & H2 & H3 & H4);
        [apply Hwf|done|by apply (known_vs _ _ _ HK)|apply (cf_arcs _ _ _ _ Hgf)| |done|done|].
      - by apply (known_closed _ _ _ Hac HK), (cf_arcs _ _ _ _ Hgf).
      - exists E'. split; [done|]. split; [|done]. split; [done|]. intros I i j HI Hcij. split; intros Hij.
        + apply H3. by apply (Hcut I).
        + assert (adjacent (d_arcs d) i j) as [?|Hji] by (apply H2; by left); [done|].
          assert ((j, i) ∈ E') as Hji' by (apply H3; apply (Hcut I); [done|by apply cut_sym|done]).
          exfalso. by apply (acyclic_asym E' i j). }
    destruct Hdir as (_ & _ & _ & He). intros i j Hij. apply He in Hij as (Hadj & Hn1 & Hn2).
    destruct Hadj as [Hij|Hji]; [|by apply Hrev]. exists (d_arcs d). split; [done|]. split; [|done]. split; [apply equivalent_refl|done].
Qed.

Theorem C23_interventional_equivalence d1 d2 o o' Is :
  views_agree d1 → acyclic (d_arcs d1) → views_agree d2 → acyclic (d_arcs d2) →
  ∃ b, markov_equivalent d1 d2 o o' (Some Is) = Ok b ∧
    (b = true ↔ d_nodes d1 = d_nodes d2 ∧ same_skeleton (d_arcs d1) (d_arcs d2) ∧ same_vstructs (d_arcs d1) (d_arcs d2) ∧
       ∀ I i j, I ∈ Is → cut I i j → (i, j) ∈ d_arcs d1 ↔ (i, j) ∈ d_arcs d2).
Proof.
  rewrite <-!wf_views_agree. intros H1 H2 H3 H4. destruct (markov_equivalent_spec d1 d2 H1 H2 H3 H4 o o' (Some Is)) as (b & Hb & Hspec).
  exists b. split; [done|]. rewrite Hspec. cbn. unfold i_equivalent, equivalent. tauto.
Qed.

(** The examples of the docstring, dag.py:1250-1258, and an intervention on both
    ends of an edge, which does not cut it. *)
Example C23_example :
  let d1 := dag_of ∅ {[(0, 1); (1, 2)]} in let d2 := dag_of ∅ {[(2, 1); (1, 0)]} in let d4 := dag_of ∅ {[(1, 0); (1, 2)]} in
  markov_equivalent d1 d2 oracle0 oracle_rev (Some [{[2]}]) = Ok false ∧
  markov_equivalent d1 d4 oracle0 oracle_rev (Some [{[2]}]) = Ok true ∧
  markov_equivalent d1 d4 oracle0 oracle_rev (Some [{[0; 1; 5]}]) = Ok true.
Proof. cbn zeta. split_and!; by_vm. Qed.

(** ** C24: [cpdag_new] *)

(** Missing: [new=True], refuted below. *)
Theorem C24_cpdag_new_partial d o o' c :
  views_agree d → acyclic (d_arcs d) → cpdag d o = Ok c →
  ∃ c', cpdag_new d o' false = Ok c' ∧ pdag_views_agree c' ∧
    p_nodes c' = p_nodes c ∧ p_arcs c' = p_arcs c ∧ p_edges c' = p_edges c ∧ pdag_eqb c' c = true.
Proof.
  rewrite <-wf_views_agree. intros Hwf Hac Hc. destruct (cpdag_spec d Hwf Hac o) as (c0 & Hc0 & Hcf & _).
  rewrite Hc in Hc0. injection Hc0 as <-. destruct (cpdag_new_spec d Hwf Hac o') as (c' & Hc' & Hcf').
  exists c'. split; [done|]. split; [apply pok_views, Hcf'|].
  assert (pdag_eqb c' c = true) as Heq.
  { eapply closed_form_equiv; [done|done|by apply vs_known_spec|by apply vs_known_spec|done|done|]. split; [done|].
    apply equivalent_nil, equivalent_refl. }
  rewrite Heq. unfold pdag_eqb in Heq. rewrite !andb_true_iff, !bool_decide_eq_true in Heq. naive_solver.
Qed.

Example C24_example :
  match cpdag ex2_dag oracle0, cpdag_new ex2_dag oracle_rev false with
  | Ok c, Ok c' => pdag_eqb c c' | _, _ => false end = true.
Proof. by_vm. Qed.

(** 1->3<-2, 3->4: [cpdag_new(new=True)] leaves 3 - 4 undirected. *)
Theorem C24_cpdag_new_refuted :
  ∃ d o, views_agree d ∧ acyclic (d_arcs d) ∧
    match cpdag d o, cpdag_new d o true with Ok c, Ok c' => pdag_eqb c c' | _, _ => true end = false.
Proof.
  exists (dag_of ∅ {[(1, 3); (2, 3); (3, 4)]}), oracle0. split; [apply wf_views_agree, dag_of_wf|]. split; by_vm.
Qed.

Print Assumptions C17_reversible.
Print Assumptions C17_is_reversible.
Print Assumptions C18_cpdag.
Print Assumptions C19_directed_compelled.
Print Assumptions C20_markov_equivalent.
Print Assumptions C20_equivalence_relation.
Print Assumptions C21_same_separations.
Print Assumptions C21_same_dsep_answers.
Print Assumptions C22_undirected_reversible.
Print Assumptions C23_interventional_cpdag.
Print Assumptions C23_interventional_equivalence.
Print Assumptions C24_cpdag_new_partial.
Print Assumptions C24_cpdag_new_refuted.
