(** The CPDAG as a canonical form of the equivalence class: C139. *)
From Verif Require Import Py Spec SpecDsep SpecMec SpecCompare DagModel DsepModel UGraphModel PdagModel EnumModel CompareModel TopoProofs StateProofs ReachProofs
  OrderProofs QueryProofs MarkovProofs UGraphProofs PdagProofs ProtProofs CpdagProofs EquivProofs MecProofs ShdProofs CompareProofs ToDagProofs
  PropertiesDag PropertiesMec PropertiesEnum.
#[local] Open Scope nat_scope.

(** The arcs of the CPDAG are those that all equivalent DAGs have, its edges the other
    adjacent pairs. *)
Theorem C139_arcs d o c : views_agree d → acyclic (d_arcs d) → cpdag d o = Ok c →
  (∀ i j, (i, j) ∈ p_arcs c ↔ ∀ E', acyclic E' → same_skeleton (d_arcs d) E' → same_vstructs (d_arcs d) E' → (i, j) ∈ E') ∧
  (∀ i j, has_edge c i j = true ↔ adjacent (d_arcs d) i j ∧ (i, j) ∉ p_arcs c ∧ (j, i) ∉ p_arcs c).
Proof.
  intros Hv Hac Hc. destruct (C18_cpdag d o Hv Hac) as (c' & Hc' & Hd & _ & _). rewrite Hc in Hc'. injection Hc' as <-.
  destruct Hd as (_ & _ & _ & He). split; [|done]. intros i j. split; [intros H E' H1 H2 H3; by apply (C19_directed_compelled d o c i j E')|].
  intros Hall. destruct (decide ((i, j) ∈ p_arcs c)) as [|Hn]; [done|exfalso].
  assert ((i, j) ∈ d_arcs d) as Hij by (apply Hall; [done|by intros ??|by intros ???]).
  destruct (decide ((j, i) ∈ p_arcs c)) as [Hji|Hnj].
  - apply (C19_directed_compelled d o c j i (d_arcs d) Hv Hac Hc) in Hji; [|done|by intros ??|by intros ???]. by apply (acyclic_asym _ i j Hac).
  - destruct (C22_undirected_reversible d o c i j Hv Hac Hc) as [_ (E' & H1 & H2 & H3 & H4)].
    + apply He. split; [by left|done].
    + pose proof (Hall E' H1 H2 H3) as H5. by apply (acyclic_asym _ i j H1).
Qed.

(** Two DAGs have the same CPDAG, as graphs with arcs and edges, exactly if they have
    the same skeleton and v-structures; [PDAG.shd] of the CPDAGs is then 0. *)
Theorem C139_canonical d1 d2 o1 o2 c1 c2 :
  views_agree d1 → acyclic (d_arcs d1) → views_agree d2 → acyclic (d_arcs d2) → cpdag d1 o1 = Ok c1 → cpdag d2 o2 = Ok c2 →
  (p_arcs c1 = p_arcs c2 ∧ p_edges c1 = p_edges c2 ↔ same_skeleton (d_arcs d1) (d_arcs d2) ∧ same_vstructs (d_arcs d1) (d_arcs d2)) ∧
  (p_shd c1 c2 = 0 ↔ same_skeleton (d_arcs d1) (d_arcs d2) ∧ same_vstructs (d_arcs d1) (d_arcs d2)).
Proof.
  intros Hv1 Hac1 Hv2 Hac2 Hc1 Hc2. apply wf_views_agree in Hv1 as Hwf1, Hv2 as Hwf2.
  destruct (cpdag_class d1 o1 c1 (d_arcs d1) Hwf1 Hac1 Hc1) as (Hok1 & _ & Hcl1).
  destruct (cpdag_class d2 o2 c2 (d_arcs d1) Hwf2 Hac2 Hc2) as (Hok2 & _ & Hcl2).
  assert (p_arcs c1 = p_arcs c2 ∧ p_edges c1 = p_edges c2 ↔ same_skeleton (d_arcs d1) (d_arcs d2) ∧ same_vstructs (d_arcs d1) (d_arcs d2)) as Hmain.
  2:{ split; [done|]. by rewrite p_shd_zero. }
  destruct (C139_arcs d1 o1 c1 Hv1 Hac1 Hc1) as [HA1 HE1]. destruct (C139_arcs d2 o2 c2 Hv2 Hac2 Hc2) as [HA2 HE2].
  split.
  - intros [HA HE]. assert (equivalent (d_arcs d2) (d_arcs d1)) as [H1 H2].
    { apply Hcl2. unfold pext, und. rewrite <-HA, <-HE. apply Hcl1. split; [done|apply equivalent_refl]. }
    split; [intros x y; by rewrite (H1 x y)|intros x z y; by rewrite (H2 x z y)].
  - intros [Hs Hvs]. assert (p_arcs c1 = p_arcs c2) as HA.
    { apply set_eq. intros [i j]. rewrite HA1, HA2. split; intros H E' H1 H2 H3; apply H; try done.
      - intros x y. by rewrite (Hs x y).
      - intros x z y. by rewrite (Hvs x z y).
      - intros x y. by rewrite <-(Hs x y).
      - intros x z y. by rewrite <-(Hvs x z y). }
    split; [done|]. assert (∀ i j, has_edge c1 i j = true ↔ has_edge c2 i j = true) as HE.
    { intros i j. by rewrite HE1, HE2, HA, (Hs i j). }
    apply set_eq. intros [i j]. assert (∀ c, pok c → (i, j) ∈ p_edges c ↔ i < j ∧ has_edge c i j = true) as Hp.
    { intros c Hok. rewrite has_edge_true. split.
      - intros H. pose proof (pok_edge c Hok _ H) as Hlt. cbn in Hlt. split; [done|]. unfold upair. by rewrite Nat.min_l, Nat.max_r by lia.
      - intros [Hlt H]. unfold upair in H. by rewrite Nat.min_l, Nat.max_r in H by lia. }
    by rewrite !Hp, HE.
Qed.

(** Going to a DAG and back gives the CPDAG again, for all iteration orders. *)
Theorem C139_round_trip d o1 o2 o3 c :
  views_agree d → acyclic (d_arcs d) → cpdag d o1 = Ok c →
  ∃ d' c', to_dag c o2 = Ok d' ∧ cpdag d' o3 = Ok c' ∧ p_arcs c' = p_arcs c ∧ p_edges c' = p_edges c ∧ p_shd c' c = 0.
Proof.
  intros Hv Hac Hc. destruct (C25_cpdag_to_dag_partial d o1 o2 c Hv Hac Hc) as (d' & Hd' & Hv' & Hac' & Hs & Hvs & _).
  destruct (C18_cpdag d' o3 Hv' Hac') as (c' & Hc' & _). exists d', c'. split; [done|]. split; [done|].
  destruct (C139_canonical d' d o3 o1 c' c Hv' Hac' Hv Hac Hc' Hc) as [H1 H2].
  assert (same_skeleton (d_arcs d') (d_arcs d) ∧ same_vstructs (d_arcs d') (d_arcs d)) as Heq.
  { split; [intros x y; by rewrite (Hs x y)|intros x z y; by rewrite (Hvs x z y)]. }
  pose proof (proj2 H1 Heq) as [HA HE]. split; [done|]. split; [done|]. by apply H2.
Qed.

(** Reversing a reversible arc does not change the CPDAG. *)
Theorem C139_reverse d o o1 o2 ign chk i j c c' :
  views_agree d → acyclic (d_arcs d) → (i, j) ∈ reversible_arcs d →
  cpdag d o1 = Ok c → cpdag (reverse_arc o i j ign chk d).1 o2 = Ok c' → p_arcs c' = p_arcs c ∧ p_edges c' = p_edges c ∧ p_nodes c' = p_nodes c ∧ has_edge c i j = true.
Proof.
  intros Hv Hac Hr Hc Hc'. destruct (C17_reversible d o o ign chk i j Hv Hac Hr) as (_ & Hv' & HN & HA & Hac' & Hs & Hvs & _).
  set (d' := (reverse_arc o i j ign chk d).1) in *. clearbody d'.
  destruct (C139_canonical d d' o1 o2 c c' Hv Hac Hv' Hac' Hc Hc') as [[_ H] _]. destruct (H (conj Hs Hvs)) as [H1 H2]. split; [done|]. split; [done|]. split.
  - apply wf_views_agree in Hv as Hwf, Hv' as Hwf'. destruct (cpdag_class d o1 c (d_arcs d) Hwf Hac Hc) as (_ & -> & _).
    by destruct (cpdag_class d' o2 c' (d_arcs d) Hwf' Hac' Hc') as (_ & -> & _).
  - apply (C139_arcs d o1 c Hv Hac Hc). assert ((i, j) ∈ d_arcs d) as Hij by (unfold reversible_arcs in Hr; by apply elem_of_filter in Hr as [_ Hr]).
    assert ((j, i) ∈ d_arcs d') as Hji by (rewrite HA; set_solver). split; [by left|]. split; intros Hin.
    + apply (C19_directed_compelled d o1 c i j (d_arcs d') Hv Hac Hc) in Hin; [|done..]. by apply (acyclic_asym _ i j Hac').
    + apply (C19_directed_compelled d o1 c j i (d_arcs d) Hv Hac Hc) in Hin; [|done|by intros ??|by intros ???]. by apply (acyclic_asym _ i j Hac).
Qed.

(** 1 -> 2 -> 4 <- 3, 4 -> 5, 3 -> 5 and the same graph with 1 -> 2 reversed. *)
Example C139_example :
  views_agree ex2_dag ∧ acyclic (d_arcs ex2_dag) ∧ (1, 2) ∈ reversible_arcs ex2_dag ∧
  match cpdag ex2_dag oracle0, cpdag (reverse_arc oracle0 1 2 false true ex2_dag).1 oracle_rev with
  | Ok c, Ok c' => bool_decide (p_arcs c' = p_arcs c ∧ p_edges c' = {[(1, 2)]} ∧ p_shd c c' = 0) | _, _ => false end = true.
Proof. split; [apply ex2_ok|]. split; [apply ex2_ok|]. split; [by_vm|]. vm_compute. reflexivity. Qed.

Print Assumptions C139_arcs.
Print Assumptions C139_canonical.
Print Assumptions C139_round_trip.
Print Assumptions C139_reverse.
