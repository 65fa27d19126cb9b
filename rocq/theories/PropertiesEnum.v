(** Final theorems about extensions and enumeration of equivalence classes: C25-C27, C54, C55. *)
From Verif Require Import Py Spec SpecDsep SpecMec SpecEnum DagModel DsepModel UGraphModel PdagModel EnumModel TopoProofs StateProofs ReachProofs
  OrderProofs QueryProofs DsepProofs MarkovProofs ImapProofs UGraphProofs PdagProofs ProtProofs CpdagProofs EquivProofs MeekProofs MecProofs
  ToDagProofs AllDagsProofs ImsetProofs PropertiesDag PropertiesDsep PropertiesMec.

(** The graph a [PDAG] object stands for is well formed: the views agree and every
    element of [_edges] is a frozenset of two different nodes. *)
Definition pdag_wf (g : pdag) : Prop :=
  pdag_views_agree g ∧ ∀ e, e ∈ p_edges g → ∃ i j, i ≠ j ∧ e = upair i j.

Lemma pok_pdag_wf g : pok g ↔ pdag_wf g.
Proof.
  split.
  - intros Hg. split; [by apply pok_views|]. intros [x y] He. pose proof (pok_edge g Hg _ He) as Hlt. cbn in Hlt.
    exists x, y. split; [lia|]. unfold upair. by rewrite Nat.min_l, Nat.max_r by lia.
  - intros [(H1 & H2 & H3 & H4 & H5 & H6 & H7) He]. setoid_rewrite has_edge_true in H2. setoid_rewrite has_edge_true in H5.
    setoid_rewrite has_edge_true in H6.
    assert (∀ e, e ∈ p_edges g → e.1 < e.2) as Hlt.
    { intros e Hin. apply He in Hin as (i & j & Hne & ->). unfold upair. cbn. lia. }
    constructor; [done|done| | |done| | |split; [done|]].
    + intros x y. rewrite H5. split; [|by intros []]. intros H. split; [by apply H2|done].
    + intros x y. rewrite H6, H5. unfold adjacent. tauto.
    + intros x y Hxy. by apply H7.
    + intros x y Hxy. apply H7 in Hxy as [_ Hxy]. rewrite <-has_edge_true. congruence.
    + intros x y Hxy. pose proof (Hlt _ Hxy) as Hl. cbn in Hl. assert (upair x y = (x, y)) as Hu.
      { unfold upair. by rewrite Nat.min_l, Nat.max_r by lia. }
      rewrite <-Hu in Hxy. apply H2 in Hxy. tauto.
Qed.

(** [E] is a DAG with the adjacencies, the arcs and the unshielded colliders of [g]. *)
Definition consistent_extension (g : pdag) (E : arcset) : Prop := extends (p_arcs g) (λ x y, has_edge g x y = true) E.
Lemma pext_consistent g E : pext g E ↔ consistent_extension g E.
Proof. unfold pext, consistent_extension, extends, und. by setoid_rewrite has_edge_true. Qed.

(** The DAGs a CPDAG stands for. *)
Lemma cpdag_class d o c X : wf d → acyclic (d_arcs d) → cpdag d o = Ok c →
  pok c ∧ p_nodes c = d_nodes d ∧ (pext c X ↔ acyclic X ∧ equivalent (d_arcs d) X).
Proof.
  intros Hwf Hac Hc. pose proof Hwf as Hv. rewrite wf_views_agree in Hv.
  destruct (C18_cpdag d o Hv Hac) as (c' & Hc' & (_ & HN & Hsub & Hedge) & Hvs & _). rewrite Hc in Hc'. injection Hc' as <-.
  destruct (cpdag_spec d Hwf Hac o) as (c' & Hc' & Hcf & _). rewrite Hc in Hc'. injection Hc' as <-.
  pose proof (sh_ok _ _ (cf_shows _ _ _ _ Hcf)) as Hok. split; [done|]. split; [done|].
  assert (∀ x y, adjacent (d_arcs d) x y ↔ adjacent (p_arcs c) x y ∨ und c x y) as Hadj.
  { intros x y. unfold und. rewrite <-has_edge_true, Hedge. unfold adjacent.
    pose proof (Hsub (x, y)). pose proof (Hsub (y, x)).
    destruct (decide ((x, y) ∈ p_arcs c)), (decide ((y, x) ∈ p_arcs c)); tauto. }
  assert (∀ x z y, vstruct (d_arcs d) x z y ↔ (x, z) ∈ p_arcs c ∧ (y, z) ∈ p_arcs c ∧ x ≠ y ∧ ¬ adjacent (d_arcs d) x y) as Hvd.
  { intros x z y. split.
    - intros Hxy. pose proof Hxy as (H1 & H2 & H3 & H4). split; [by eapply Hvs|]. split; [|done].
      apply (Hvs y z x). split; [done|]. split; [done|]. split; [done|]. unfold adjacent in *. tauto.
    - intros (H1 & H2 & H3 & H4). split; [by apply Hsub|]. split; [by apply Hsub|]. done. }
  split.
  - intros (H1 & H2 & H3 & H4). split; [done|]. split.
    + intros x y. by rewrite Hadj, H3.
    + intros x z y. rewrite Hvd, H4, Hadj, H3. done.
  - intros [H1 [H2 H3]]. split; [done|]. split; [|split].
    + intros [x y] Hxy. by eapply (C19_directed_compelled d o c x y X).
    + intros x y. by rewrite <-(H2 x y), Hadj.
    + intros x z y. by rewrite <-(H3 x z y), Hvd, <-(H2 x y).
Qed.

(** ** C25: [to_dag] *)

(** Missing from the claim: nodes without neighbours are dropped, see [C25_nodes_refuted]. *)
Theorem C25_to_dag_partial g o :
  pdag_wf g → (∃ E, consistent_extension g E) →
  ∃ d, to_dag g o = Ok d ∧ views_agree d ∧ consistent_extension g (d_arcs d) ∧
    (∀ x, x ∈ d_nodes d ↔ ∃ y, y ∈ p_neighbors g x).
Proof.
  rewrite <-pok_pdag_wf. setoid_rewrite <-pext_consistent. intros Hg HE. destruct (to_dag_ok g o Hg HE) as (d & Hd & Hwf & Hext & Hn).
  exists d. split; [done|]. split; [by apply wf_views_agree|]. split; [done|]. intros x. rewrite Hn.
  split; intros [y Hy]; exists y; by apply (nbr_adj g (d_arcs d) x y Hg Hext).
Qed.

(** In particular for a CPDAG the result is Markov equivalent, if every node has a neighbour. *)
Theorem C25_cpdag_to_dag_partial d o o' c :
  views_agree d → acyclic (d_arcs d) → cpdag d o = Ok c →
  ∃ d', to_dag c o' = Ok d' ∧ views_agree d' ∧ acyclic (d_arcs d') ∧
    same_skeleton (d_arcs d) (d_arcs d') ∧ same_vstructs (d_arcs d) (d_arcs d') ∧
    ((∀ x, x ∈ d_nodes d → ∃ y, y ∈ nbrs d x) → ∀ o1 o2, markov_equivalent d d' o1 o2 None = Ok true).
Proof.
  rewrite <-wf_views_agree. intros Hwf Hac Hc. destruct (cpdag_class d o c (d_arcs d) Hwf Hac Hc) as (Hok & HN & Hcl).
  destruct (to_dag_ok c o' Hok) as (d' & Hd' & Hwf' & Hext & Hn).
  { exists (d_arcs d). apply Hcl. split; [done|apply equivalent_refl]. }
  exists d'. destruct (cpdag_class d o c (d_arcs d') Hwf Hac Hc) as (_ & _ & Hcl'). apply Hcl' in Hext as [Hac' [Hs Hv]].
  split; [done|]. split; [by apply wf_views_agree|]. split; [done|]. split; [done|]. split; [done|].
  intros Hiso o1 o2. destruct (C20_markov_equivalent d d' o1 o2) as (b & -> & Hb); [by apply wf_views_agree|done|by apply wf_views_agree|done|].
  f_equal. apply Hb. split; [|done]. apply set_eq. intros x. rewrite Hn. split.
  - intros Hx. destruct (Hiso x Hx) as [y Hy]. exists y. apply (Hs x y). by apply (wf_nbr d Hwf).
  - intros [y Hy]. apply (Hs x y) in Hy as [Hy|Hy]; by apply (wf_over d Hwf) in Hy as [].
Qed.

Example C25_example :
  match cpdag ex2_dag oracle0 with Ok c => match to_dag c oracle_rev with Ok d' => bool_decide (d_arcs d' = ex2_arcs ∧ p_edges c = {[(1, 2)]} ∧ d_nodes d' = {[1; 2; 3; 4; 5]}) | _ => false end | _ => false end = true.
Proof. vm_compute. reflexivity. Qed.

(** Nodes without neighbours are lost. *)
Theorem C25_nodes_refuted :
  ∃ d o c d', views_agree d ∧ acyclic (d_arcs d) ∧ cpdag d o = Ok c ∧ to_dag c o = Ok d' ∧
    d_nodes d' ≠ d_nodes d ∧ markov_equivalent d d' o o None = Ok false.
Proof.
  pose (d := dag_of {[3]} {[(1, 2)]}). assert (views_agree d) as Hv by apply wf_views_agree, dag_of_wf.
  assert (acyclic (d_arcs d)) as Hac by by_vm.
  destruct (C18_cpdag d oracle0 Hv Hac) as (c & Hc & _).
  destruct (C25_cpdag_to_dag_partial d oracle0 oracle0 c Hv Hac Hc) as (d' & Hd' & Hv' & Hac' & _).
  exists d, oracle0, c, d'. do 4 (split; [done|]).
  assert (match cpdag d oracle0 with Ok c => match to_dag c oracle0 with Ok d' => bool_decide (d_nodes d' ≠ d_nodes d) | _ => false end | _ => false end = true) as Hn
    by (vm_compute; reflexivity).
  rewrite Hc, Hd' in Hn. apply bool_decide_eq_true in Hn. split; [done|].
  destruct (C20_markov_equivalent d d' oracle0 oracle0 Hv Hac Hv' Hac') as (b & -> & Hb). f_equal.
  apply not_true_is_false. intros ->. destruct Hb as [Hb _]. destruct (Hb eq_refl) as [Hb' _]. exact (Hn (eq_sym Hb')).
Qed.

(** ** C26: [all_dags] *)

(** It terminates, and everything it returns is a consistent extension; the DAG
    found by [to_dag] is among the results.  Missing from the claim: that every
    extension is returned; see [C26_all_dags_complete_partial] and [C26_all_dags_refuted]. *)
Theorem C26_all_dags_sound_partial g o :
  pdag_wf g → (∃ E, consistent_extension g E) →
  ∃ n R d, (∀ fuel, n ≤ fuel → all_dags g o fuel = Ok R) ∧ to_dag g o = Ok d ∧ d_arcs d ∈ R ∧
    ∀ X, X ∈ R → consistent_extension g X.
Proof.
  rewrite <-pok_pdag_wf. setoid_rewrite <-pext_consistent. intros Hg HE.
  destruct (all_dags_spec g o Hg HE) as (n & R & d & Hd & HR & Hin & Hgood & _). by exists n, R, d.
Qed.

(** For the CPDAG of a DAG: only equivalent DAGs are returned, and all of them are
    if any two undirected edges of the CPDAG share a node. *)
Theorem C26_all_dags_complete_partial d o o' c :
  views_agree d → acyclic (d_arcs d) → cpdag d o = Ok c →
  ∃ n R, (∀ fuel, n ≤ fuel → all_dags c o' fuel = Ok R) ∧
    (∀ X, X ∈ R → acyclic X ∧ same_skeleton (d_arcs d) X ∧ same_vstructs (d_arcs d) X) ∧
    ((∀ i j x y, has_edge c i j = true → has_edge c x y = true → x = i ∨ x = j ∨ y = i ∨ y = j) →
     ∀ X, X ∈ R ↔ acyclic X ∧ same_skeleton (d_arcs d) X ∧ same_vstructs (d_arcs d) X).
Proof.
  rewrite <-wf_views_agree. intros Hwf Hac Hc. pose proof (λ X, cpdag_class d o c X Hwf Hac Hc) as Hcl.
  destruct (Hcl ∅) as (Hok & _ & _). assert (∀ X, pext c X ↔ acyclic X ∧ equivalent (d_arcs d) X) as Hcl' by apply Hcl. clear Hcl.
  destruct (all_dags_spec c o' Hok) as (n & R & d' & Hd' & HR & Hin & Hgood & Hclosed).
  { exists (d_arcs d). apply Hcl'. split; [done|apply equivalent_refl]. }
  exists n, R. split; [done|]. split; [intros X HX; by apply Hcl', Hgood|].
  intros Hshare X. split; [intros HX; by apply Hcl', Hgood|]. intros HX.
  assert (∀ A i j, pext c A → covered A i j → (i, j) ∉ p_arcs c → has_edge c i j = true) as Hedge.
  { intros A i j (HacA & Hsub & Hadj & _) [Hij _] Hn. apply has_edge_true.
    assert (adjacent A i j) as Ha by by left. apply Hadj in Ha as [[?|Hji]|?]; [done| |done].
    apply Hsub in Hji. by apply (acyclic_asym A i j HacA Hij) in Hji. }
  assert (hub c) as Hhub.
  { intros A i j a b HA Hij Hn Hab Hn'. assert (pext c (flip_arc A i j)) as HA' by by apply pext_flip.
    apply (Hshare i j a b); [exact (Hedge A i j HA Hij Hn)|exact (Hedge _ a b HA' Hab Hn')]. }
  specialize (Hclosed Hhub).
  assert (∀ E, acyclic E → equivalent E (d_arcs d') → (equivalent (d_arcs d) E → E ∈ R)) as Hall.
  { assert (pext c (d_arcs d')) as Hd0 by by apply Hgood. apply Hcl' in Hd0 as [Hac0 Heq0].
    apply (chickering (λ E, equivalent (d_arcs d) E → E ∈ R) (d_arcs d') Hac0); [done|].
    intros E x y HE Hxy IH HdE.
    assert (flip_arc E x y ∈ R) as Hfl.
    { apply IH. eapply equivalent_trans; [done|]. by apply flip_equivalent. }
    assert (covered (flip_arc E x y) y x) as Hyx by by apply flip_covered.
    assert (x ≠ y) as Hne by by eapply covered_ne. destruct Hxy as [Hxy0 Hxy1].
    assert ((y, x) ∉ E) as Hnyx by by apply acyclic_asym.
    assert (flip_arc (flip_arc E x y) y x = E) as Hback by by apply flip_back. rewrite <-Hback.
    destruct (Hclosed (flip_arc E x y) y x Hfl Hyx) as [?|?]; [|done|done].
    intros Hp. assert (pext c E) as (_ & Hsub & _) by (apply Hcl'; done). by apply Hsub in Hp. }
  destruct HX as (HacX & HsX & HvX). assert (equivalent (d_arcs d) X) as HeX by done.
  apply Hall; [done| |done]. assert (pext c (d_arcs d')) as Hd0 by by apply Hgood. apply Hcl' in Hd0 as [_ Heq0].
  eapply equivalent_trans; [apply equivalent_sym; exact HeX|done].
Qed.

(** More rounds than needed make no difference. *)
Lemma all_dags_fuel g o f m R : all_dags g o f = Ok R → f ≤ m → all_dags g o m = Ok R.
Proof.
  assert (∀ m f t q S, all_dags_loop g o f t q S = Ok R → f ≤ m → all_dags_loop g o m t q S = Ok R) as Hmono.
  { clear. induction m as [|m IH]; intros f t q S Hf Hle.
    - assert (f = 0) as -> by lia. done.
    - destruct q as [|s q]; [destruct f; done|]. destruct f as [|f]; [done|]. cbn [all_dags_loop] in *. eapply IH; [done|lia]. }
  unfold all_dags. destruct (to_dag g o) as [d|]; [|done]. cbn [res_bind]. apply Hmono.
Qed.

Example C26_example :
  match cpdag ex2_dag oracle0 with
  | Ok c => bool_decide (p_edges c = {[(1, 2)]}) &&
      match all_dags c oracle_rev 50 with Ok R => bool_decide (d_arcs ex2_dag ∈ R ∧ size R = 2) | _ => false end
  | _ => false end = true.
Proof. vm_compute. reflexivity. Qed.

(** Some equivalence classes are not enumerated completely: two four-cycles with
    one chord each, 100 equivalent DAGs, 99 of them returned when the set of
    reversible arcs happens to be enumerated in the following order. *)
Definition rank (seed : N) (t : nat) (a : arc) : N :=
  let x := ((seed + 7919 * N.of_nat t + 104729 * N.of_nat a.1 + 1299709 * N.of_nat a.2) mod 1000003)%N in
  ((x * x) mod 1000003)%N.
Definition rank_le (seed : N) (t : nat) : relation arc := λ a b, (rank seed t a ≤ rank seed t b)%N.
Global Instance rank_le_dec seed t : RelDecision (rank_le seed t).
Proof. intros a b. unfold rank_le. apply _. Defined.
Definition ranked_arcs (seed : N) (k : list nat) (X : arcset) : list arc :=
  match k with [52; t] => merge_sort (rank_le seed t) (elements X) | _ => elements X end.
Lemma ranked_arcs_perm seed k X : ranked_arcs seed k X ≡ₚ elements X.
Proof. unfold ranked_arcs. repeat case_match; try done. apply (merge_sort_Permutation _ _). Qed.
Lemma down_perm (k : list nat) (X : nset) : reverse (merge_sort le (elements X)) ≡ₚ elements X.
Proof. rewrite reverse_Permutation. apply (merge_sort_Permutation _ _). Qed.
Definition ranked (seed : N) : oracle :=
  Oracle (λ _ X, reverse (merge_sort le (elements X))) (ranked_arcs seed) down_perm (ranked_arcs_perm seed).

Definition ex3_arcs : arcset := {[(0, 1); (0, 2); (1, 2); (1, 3); (2, 3); (4, 5); (4, 6); (5, 6); (5, 7); (6, 7)]}.
Definition ex3_dag : dag := dag_of ∅ ex3_arcs.
Definition ex3_missing : arcset := {[(0, 1); (0, 2); (1, 3); (2, 1); (2, 3); (5, 4); (5, 6); (6, 4); (7, 5); (7, 6)]}.

Theorem C26_all_dags_refuted :
  ∃ d o c fuel R X, views_agree d ∧ acyclic (d_arcs d) ∧ cpdag d oracle0 = Ok c ∧ all_dags c o fuel = Ok R ∧
    acyclic X ∧ same_skeleton (d_arcs d) X ∧ same_vstructs (d_arcs d) X ∧ X ∉ R.
Proof.
  assert (acyclic ex3_arcs) as Ha by by_vm.
  assert (views_agree ex3_dag) as Hv by apply wf_views_agree, dag_of_wf.
  assert (acyclic (d_arcs ex3_dag)) as Hac by (unfold ex3_dag; by rewrite dag_of_arcs).
  destruct (C18_cpdag ex3_dag oracle0 Hv Hac) as (c & Hc & _).
  assert (match cpdag ex3_dag oracle0 with
    | Ok c => match all_dags c (ranked 142109) 1000, all_dags c oracle0 1000 with
              | Ok R, Ok R' => bool_decide (ex3_missing ∉ R ∧ ex3_missing ∈ R') | _, _ => false end
    | _ => false end = true) as Hrun by (vm_compute; reflexivity).
  rewrite Hc in Hrun.
  destruct (all_dags c (ranked 142109) 1000) as [R|] eqn:HR; [|done].
  destruct (all_dags c oracle0 1000) as [R'|] eqn:HR'; [|done]. apply bool_decide_eq_true in Hrun as [Hno Hyes].
  destruct (C26_all_dags_complete_partial ex3_dag oracle0 oracle0 c Hv Hac Hc) as (n & R0 & Hfuel & Hsound & _).
  assert (R' = R0) as ->.
  { eapply (all_dags_fuel c oracle0 1000 (max n 1000)) in HR'; [|lia]. rewrite Hfuel in HR' by lia. by injection HR'. }
  exists ex3_dag, (ranked 142109), c, 1000, R, ex3_missing. do 4 (split; [done|]). destruct (Hsound _ Hyes) as (Ha1 & Ha2 & Ha3). split; [exact Ha1|]. split; [exact Ha2|]. split; [exact Ha3|exact Hno].
Qed.

(** ** C27: [mec_size] *)

(** Missing from the claim: graphs without arcs, where the count is a formula that
    is wrong for some of them ([C27_mec_size_refuted]), and the completeness of
    [all_dags] in general. *)
Theorem C27_mec_size_partial (d : dag) (o o' : oracle) (c : pdag) (L : gset arcset) :
  views_agree d → acyclic (d_arcs d) → cpdag d o = Ok c → p_arcs c ≠ ∅ →
  (∀ X, X ∈ L ↔ acyclic X ∧ same_skeleton (d_arcs d) X ∧ same_vstructs (d_arcs d) X) →
  ∃ n k, (∀ fuel, n ≤ fuel → mec_size c o' fuel = Ok k) ∧ 0 < k ≤ size L ∧
    ((∀ i j x y, has_edge c i j = true → has_edge c x y = true → x = i ∨ x = j ∨ y = i ∨ y = j) → k = size L).
Proof.
  intros Hv Hac Hc Hne HL. destruct (C26_all_dags_complete_partial d o o' c Hv Hac Hc) as (n & R & HR & Hsound & Hcomp).
  assert (0 < size (p_arcs c)) as Hpos.
  { destruct (decide (0 < size (p_arcs c))); [done|]. exfalso. apply Hne. apply leibniz_equiv, size_empty_inv. lia. }
  exists n, (size R). split; [|split; [split|]].
  - intros fuel Hf. unfold mec_size. rewrite decide_True by done. by rewrite HR.
  - destruct (decide (0 < size R)) as [|Hz]; [done|]. exfalso.
    assert (R = ∅) as -> by (apply leibniz_equiv, size_empty_inv; lia).
    assert (pok c ∧ ∃ E, pext c E) as [Hok HE].
    { apply wf_views_agree in Hv. destruct (cpdag_class d o c (d_arcs d) Hv Hac Hc) as (? & _ & Hcl). split; [done|].
      exists (d_arcs d). apply Hcl. split; [done|apply equivalent_refl]. }
    destruct (all_dags_spec c o' Hok HE) as (n' & R' & d' & _ & HR' & Hin & _).
    specialize (HR (max n n')). specialize (HR' (max n n')). rewrite HR in HR' by lia. injection (HR' ltac:(lia)) as <-. set_solver.
  - apply subseteq_size. intros X HX. by apply HL, Hsound.
  - intros Hshare. f_equal. apply set_eq. intros X. rewrite (HL X). by apply Hcomp.
Qed.

Example C27_example :
  match cpdag ex2_dag oracle0 with
  | Ok c => bool_decide (p_arcs c ≠ ∅ ∧ p_edges c = {[(1, 2)]} ∧ mec_size c oracle0 50 = Ok 2)
  | _ => false end = true.
Proof. vm_compute. reflexivity. Qed.

(** A triangle and an isolated node: six DAGs, four are counted; no node at all: one DAG, none is counted. *)
Theorem C27_mec_size_refuted :
  (∃ d c (L : list arcset), views_agree d ∧ acyclic (d_arcs d) ∧ cpdag d oracle0 = Ok c ∧
    (∀ o fuel, mec_size c o fuel = Ok 4) ∧ NoDup L ∧ length L = 6 ∧
    ∀ X, X ∈ L → acyclic X ∧ same_skeleton (d_arcs d) X ∧ same_vstructs (d_arcs d) X) ∧
  (∃ d c, views_agree d ∧ acyclic (d_arcs d) ∧ cpdag d oracle0 = Ok c ∧ ∀ o fuel, mec_size c o fuel = Ok 0).
Proof.
  split.
  - pose (d := dag_of {[4]} {[(1, 2); (1, 3); (2, 3)]}).
    assert (views_agree d) as Hv by apply wf_views_agree, dag_of_wf. assert (acyclic (d_arcs d)) as Hac by by_vm.
    destruct (C18_cpdag d oracle0 Hv Hac) as (c & Hc & _).
    assert (match cpdag d oracle0 with
      | Ok c => match all_dags c oracle0 50 with
                | Ok R => bool_decide (size R = 6 ∧ size (p_nodes c) = 4 ∧ size (p_edges c) = 3 ∧ size (p_arcs c) = 0) | _ => false end
      | _ => false end = true) as Hrun by (vm_compute; reflexivity).
    rewrite Hc in Hrun. destruct (all_dags c oracle0 50) as [R|] eqn:HR; [|done]. apply bool_decide_eq_true in Hrun as (H1 & H2 & H3 & H4).
    assert (∀ X, X ∈ R → acyclic X ∧ same_skeleton (d_arcs d) X ∧ same_vstructs (d_arcs d) X) as Hsound.
    { destruct (C26_all_dags_complete_partial d oracle0 oracle0 c Hv Hac Hc) as (n & R0 & Hfuel & Hsound & _).
      replace R with R0; [done|]. eapply (all_dags_fuel c oracle0 50 (max n 50)) in HR; [|lia].
      rewrite Hfuel in HR by lia. by injection HR. }
    exists d, c, (elements R). do 3 (split; [done|]). split; [|split; [apply NoDup_elements|split; [done|]]].
    + intros o fuel. unfold mec_size. rewrite H2, H3, H4. reflexivity.
    + intros X HX. apply Hsound. by apply elem_of_elements.
  - pose (d := dag_of ∅ ∅). assert (views_agree d) as Hv by apply wf_views_agree, dag_of_wf. assert (acyclic (d_arcs d)) as Hac by by_vm.
    destruct (C18_cpdag d oracle0 Hv Hac) as (c & Hc & _). exists d, c. do 3 (split; [done|]). intros o fuel.
    assert (match cpdag d oracle0 with
      | Ok c => bool_decide (size (p_nodes c) = 0 ∧ size (p_edges c) = 0 ∧ size (p_arcs c) = 0) | _ => false end = true) as Hrun
      by (vm_compute; reflexivity).
    rewrite Hc in Hrun. apply bool_decide_eq_true in Hrun as (H1 & H2 & H3). unfold mec_size. by rewrite H1, H2, H3.
Qed.

(** ** C54: [resolved_sinks] *)
Theorem C54_resolved_sinks d1 d2 :
  views_agree d1 → views_agree d2 → acyclic (d_arcs d1) →
  ∃ R, resolved_sinks d1 d2 = Ok R ∧ common_sinks (d_nodes d1) (d_arcs d1) (d_arcs d2) R ∧
    ∀ X, common_sinks (d_nodes d1) (d_arcs d1) (d_arcs d2) X → X ⊆ R.
Proof. rewrite <-!wf_views_agree. intros H1 H2 Hac. by apply resolved_sinks_spec. Qed.

Example C54_example : resolved_sinks ex2_dag (dag_of {[6]} {[(2, 1); (2, 4); (3, 4); (4, 5); (3, 5)]}) = Ok {[3; 4; 5; 6]}.
Proof. by_vm. Qed.

(** ** C55: [get_standard_imset] *)

(** [t] lists the members of [S] once each. *)
Definition lists (t : list node) (S : nset) : Prop := NoDup t ∧ ∀ x, x ∈ t ↔ x ∈ S.

(** The returned dictionary is the standard imset: each set of non-zero value
    appears under exactly one tuple, and nothing else appears. *)
Theorem C55_standard_imset d o (ignored : nset) :
  views_agree d →
  (∀ t k, standard_imset d o ignored !! t = Some k →
     k ≠ 0%Z ∧ NoDup t ∧ imset_value (d_nodes d ∖ ignored) (d_arcs d) (list_to_set t) = k) ∧
  (∀ S : nset, imset_value (d_nodes d ∖ ignored) (d_arcs d) S ≠ 0%Z →
     ∃ t, lists t S ∧ standard_imset d o ignored !! t = Some (imset_value (d_nodes d ∖ ignored) (d_arcs d) S) ∧
       ∀ t', lists t' S → is_Some (standard_imset d o ignored !! t') → t' = t).
Proof.
  rewrite <-wf_views_agree. intros Hwf. split.
  - intros t k Ht. apply standard_imset_lookup in Ht as (Hk & S & -> & HS); [|done]. split; [done|]. split; [apply NoDup_on|].
    rewrite <-HS. f_equal. apply set_eq. intros x. by rewrite elem_of_list_to_set, elem_of_on.
  - intros S HS. exists (on o [57] S). split; [split; [apply NoDup_on|intros x; by rewrite elem_of_on]|]. split.
    + apply standard_imset_lookup; [done|]. split; [done|]. by exists S.
    + intros t' [_ Ht'] [k Hk]. apply standard_imset_lookup in Hk as (_ & S' & -> & _); [|done]. f_equal. apply set_eq.
      intros x. by rewrite <-Ht', elem_of_on.
Qed.

(** Markov equivalent DAGs have the same standard imset as a function of sets.
    The tuples used as keys depend on how each frozenset enumerates, so the
    dictionaries themselves are equal only if that is the same in both calls. *)
Theorem C55_invariant_partial d1 d2 o1 o2 :
  views_agree d1 → views_agree d2 → acyclic (d_arcs d1) → acyclic (d_arcs d2) →
  d_nodes d1 = d_nodes d2 → same_skeleton (d_arcs d1) (d_arcs d2) → same_vstructs (d_arcs d1) (d_arcs d2) →
  (∀ (S : nset) k, (∃ t, lists t S ∧ standard_imset d1 o1 ∅ !! t = Some k) ↔ (∃ t, lists t S ∧ standard_imset d2 o2 ∅ !! t = Some k)) ∧
  (∀ o, standard_imset d1 o ∅ = standard_imset d2 o ∅).
Proof.
  rewrite <-!wf_views_agree. intros H1 H2 Hac1 Hac2 HN Hs Hv.
  assert (∀ S, imset_value (d_nodes d1 ∖ ∅) (d_arcs d1) S = imset_value (d_nodes d2 ∖ ∅) (d_arcs d2) S) as Heq.
  { intros S. rewrite HN. apply imset_equivalent; [done|done| | |done]; intros x y Hxy.
    - apply (wf_over d1 H1) in Hxy. rewrite HN in Hxy. set_solver.
    - apply (wf_over d2 H2) in Hxy. set_solver. }
  assert (∀ d o S k, wf d → (∃ t, lists t S ∧ standard_imset d o ∅ !! t = Some k) ↔ k ≠ 0%Z ∧ imset_value (d_nodes d ∖ ∅) (d_arcs d) S = k) as Hkey.
  { clear. intros d o S k Hwf. split.
    - intros (t & [_ Ht] & Hk). apply standard_imset_lookup in Hk as (Hk & S' & -> & HS); [|done]. split; [done|].
      replace S with S'; [done|]. apply set_eq. intros x. by rewrite <-Ht, elem_of_on.
    - intros [Hk HS]. exists (on o [57] S). split; [split; [apply NoDup_on|intros x; by rewrite elem_of_on]|].
      apply standard_imset_lookup; [done|]. split; [done|]. by exists S. }
  split.
  - intros S k. rewrite !Hkey by done. by rewrite Heq.
  - intros o. apply map_eq. intros t. apply option_eq. intros k. rewrite !standard_imset_lookup by done. by setoid_rewrite Heq.
Qed.

(** The part of the claim about reversing one covered arc. *)
Theorem C55_covered_reversal d1 d2 o i j :
  views_agree d1 → views_agree d2 → acyclic (d_arcs d1) → covered (d_arcs d1) i j →
  d_nodes d1 = d_nodes d2 → d_arcs d2 = flip_arc (d_arcs d1) i j →
  standard_imset d1 o ∅ = standard_imset d2 o ∅.
Proof.
  intros H1 H2 Hac Hc HN HE.
  assert (acyclic (d_arcs d2)) as Hac2 by (rewrite HE; by apply flip_acyclic).
  assert (equivalent (d_arcs d1) (d_arcs d2)) as [Hs Hv] by (rewrite HE; by apply flip_equivalent).
  by apply (C55_invariant_partial d1 d2 o o H1 H2 Hac Hac2 HN Hs Hv).
Qed.

Example C55_example :
  let d1 := dag_of ∅ {[(1, 2); (2, 3)]} in let d2 := dag_of ∅ {[(2, 1); (2, 3)]} in
  standard_imset d1 oracle0 ∅ = standard_imset d2 oracle0 ∅ ∧
  standard_imset d1 oracle0 ∅ = {[ [1; 2] := 1%Z; [3; 2] := 1%Z; [2] := (-1)%Z; [] := (-1)%Z ]}.
Proof. cbv zeta; by_vm. Qed.

(** The dictionaries of equivalent DAGs (here even the same DAG) can differ in the
    order of their tuples. *)
Theorem C55_tuple_keys_refuted :
  ∃ d o1 o2, views_agree d ∧ acyclic (d_arcs d) ∧ standard_imset d o1 ∅ ≠ standard_imset d o2 ∅.
Proof.
  exists (dag_of ∅ {[(1, 2)]}), oracle0, oracle_rev. split; [apply wf_views_agree, dag_of_wf|]. split; by_vm.
Qed.

Print Assumptions C25_to_dag_partial.
Print Assumptions C25_cpdag_to_dag_partial.
Print Assumptions C25_nodes_refuted.
Print Assumptions C26_all_dags_sound_partial.
Print Assumptions C26_all_dags_complete_partial.
Print Assumptions C26_all_dags_refuted.
Print Assumptions C27_mec_size_partial.
Print Assumptions C27_mec_size_refuted.
Print Assumptions C54_resolved_sinks.
Print Assumptions C55_standard_imset.
Print Assumptions C55_invariant_partial.
Print Assumptions C55_covered_reversal.
Print Assumptions C55_tuple_keys_refuted.
