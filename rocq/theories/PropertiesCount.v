(** Counts and membership queries of [DAG], [PDAG] and [UndirectedGraph]: C112, C113. *)
From Verif Require Import Py Spec SpecCompare DagModel UGraphModel PdagModel CompareModel ConvModel.
From Verif Require Import TopoProofs StateProofs UGraphProofs PdagProofs ProtProofs ShdProofs.
From Verif Require Import PropertiesDag PropertiesEnum PropertiesConv.
#[local] Open Scope nat_scope.

(** A list with each element once has the length of the count. *)
Lemma count_list {A} `{Countable A} (X : gset A) (l : list A) : NoDup l → (∀ x, x ∈ l ↔ x ∈ X) → size X = length l.
Proof.
  intros Hnd Hl. assert (X = list_to_set l) as ->; [|by rewrite size_list_to_set].
  apply set_eq. intros x. by rewrite elem_of_list_to_set, Hl.
Qed.
Lemma size_as_edges (E : arcset) : (∀ x y, (x, y) ∈ E → (y, x) ∉ E) → size (as_edges E) = size E.
Proof.
  intros Hasym. unfold as_edges, set_map. rewrite size_list_to_set, fmap_length; [done|]. apply NoDup_fmap_2_strong; [|apply NoDup_elements].
  intros [a b] [a' b'] H1 H2. rewrite elem_of_elements in H1, H2. cbn. intros [[-> ->]|[-> ->]]%upair_inj; [done|]. by apply Hasym in H1.
Qed.
Lemma upair_sorted x y : x < y → upair x y = (x, y).
Proof. intros H. unfold upair. by rewrite Nat.min_l, Nat.max_r by lia. Qed.

(** [has_arc] agrees with [parents_of] and [children_of] and is true in one direction only. *)
Theorem C113_has_arc d i j : views_agree d → acyclic (d_arcs d) →
  (d_has_arc d i j = true ↔ i ∈ parents d j) ∧ (d_has_arc d i j = true ↔ j ∈ children d i) ∧ (d_has_arc d i j = true → d_has_arc d j i = false).
Proof.
  rewrite <-wf_views_agree. intros Hwf Hac. unfold d_has_arc. rewrite bool_decide_eq_true, bool_decide_eq_false. split; [by rewrite (wf_par d Hwf)|]. split; [by rewrite (wf_chi d Hwf)|].
  apply (acyclic_asym _ i j Hac).
Qed.
(** [nnodes] and [num_arcs] are the lengths of any listing of the nodes and of the arcs. *)
Theorem C113_counts d (nl : list node) (al : list arc) : views_agree d → NoDup nl → (∀ x, x ∈ nl ↔ x ∈ d_nodes d) →
  NoDup al → (∀ x y, (x, y) ∈ al ↔ x ∈ parents d y) → nnodes d = length nl ∧ num_arcs d = length al.
Proof.
  rewrite <-wf_views_agree. intros Hwf H1 H2 H3 H4. split; [by apply count_list|]. apply count_list; [done|]. intros [x y]. by rewrite H4, (wf_par d Hwf).
Qed.
(** The counts of a PDAG; adjacent pairs are counted once, whether directed or not. *)
Theorem C113_pdag_counts g (nl : list node) (al el pl : list arc) : pdag_wf g → NoDup nl → (∀ x, x ∈ nl ↔ x ∈ p_nodes g) →
  NoDup al → (∀ x y, (x, y) ∈ al ↔ x ∈ p_parents g y) → NoDup el → (∀ x y, (x, y) ∈ el ↔ x < y ∧ y ∈ p_unbrs g x) →
  NoDup pl → (∀ x y, (x, y) ∈ pl ↔ x < y ∧ y ∈ p_neighbors g x) →
  p_nnodes g = length nl ∧ p_num_arcs g = length al ∧ p_num_edges g = length el ∧ p_num_adjacencies g = length pl.
Proof.
  rewrite <-pok_pdag_wf. intros Hg H1 H2 H3 H4 H5 H6 H7 H8.
  assert (∀ x y, (x, y) ∈ p_edges g ↔ x < y ∧ y ∈ p_unbrs g x) as He.
  { intros x y. rewrite (pok_unb g Hg). split.
    - intros H. pose proof (pok_edge g Hg _ H) as Hlt. cbn in Hlt. rewrite upair_sorted by done. repeat split; [done|lia|done].
    - intros (Hlt & _ & H). by rewrite upair_sorted in H. }
  split; [by apply count_list|]. split; [apply count_list; [done|]; intros [x y]; by rewrite H4, (pok_par g Hg)|].
  split; [apply count_list; [done|]; intros [x y]; by rewrite H6, He|].
  rewrite <-(count_list (as_edges (p_arcs g) ∪ p_edges g) pl H7).
  - rewrite size_union; [|].
    + unfold p_num_adjacencies, p_num_arcs, p_num_edges. by rewrite size_as_edges by apply (pok_asym g Hg).
    + intros e ([a b] & Ha & ->)%elem_of_as_edges Hin. by apply (pok_disj g Hg a b).
  - intros [x y]. rewrite H8, elem_of_union, He, (pok_nbr g Hg).
    assert ((x, y) ∈ as_edges (p_arcs g) ↔ x < y ∧ adjacent (p_arcs g) x y) as ->.
    { split.
      - intros H. assert (x < y) as Hlt.
        { apply elem_of_as_edges in H as ([a b] & Ha & Heq). cbn in Heq. assert (a ≠ b) by (intros ->; by apply (pok_irr g b Hg)).
          pose proof (upair_lt a b). rewrite <-Heq in *. cbn in *. auto. }
        split; [done|]. apply upair_as_edges. by rewrite upair_sorted.
      - intros [Hlt H]. apply upair_as_edges in H. by rewrite upair_sorted in H. }
    unfold adjacent. tauto.
Qed.
(** [num_nodes], [num_edges] and [has_edge] of an undirected graph. *)
Theorem C112_counts g (nl : list node) (el : list arc) : ug_wf g → NoDup nl → (∀ x, x ∈ nl ↔ x ∈ u_nodes g) →
  NoDup el → (∀ x y, (x, y) ∈ el ↔ x < y ∧ y ∈ unbrs g x) →
  u_num_nodes g = length nl ∧ u_num_edges g = length el ∧ ∀ x y, x ≠ y → (u_has_edge g x y = true ↔ y ∈ unbrs g x) ∧ u_has_edge g x y = u_has_edge g y x.
Proof.
  intros (H1 & H2 & _) H3 H4 H5 H6. split; [by apply count_list|]. split.
  - apply count_list; [done|]. intros [x y]. rewrite H6, H2. split.
    + intros (Hlt & _ & H). by rewrite upair_sorted in H.
    + intros H. pose proof (H1 _ H) as Hlt. cbn in Hlt. rewrite upair_sorted by done. repeat split; [done|lia|done].
  - intros x y Hne. unfold u_has_edge. rewrite bool_decide_eq_true, H2, (upair_comm y x). tauto.
Qed.

(** 4 -> 6, 5 -> 6, 1 - 2, 1 - 3, 2 - 3 with 7 alone. *)
Definition count_g : pdag := pdag_make oracle0 {[7]} {[(4, 6); (5, 6)]} {[(1, 2); (1, 3); (2, 3)]} ∅.
Example C113_counts_example : pdag_wf count_g ∧ p_nnodes count_g = 7 ∧ p_num_arcs count_g = 2 ∧ p_num_edges count_g = 3 ∧ p_num_adjacencies count_g = 5 ∧
  d_has_arc (dag_of {[3]} {[(1, 2)]}) 1 2 = true ∧ d_has_arc (dag_of {[3]} {[(1, 2)]}) 2 1 = false ∧ nnodes (dag_of {[3]} {[(1, 2)]}) = 3 ∧
  u_has_edge (ug_make oracle0 (λ _, false) ∅ {[(1, 2)]}) 2 1 = true.
Proof.
  split; [|split_and!; vm_compute; reflexivity].
  apply pok_pdag_wf. unfold count_g. apply pdag_make_ok.
  - intros x y. rewrite !elem_of_union, !elem_of_singleton. intros [H1|H1] [H2|H2]; injection H1 as -> ->; discriminate.
  - intros x. rewrite !elem_of_union, !elem_of_singleton. intros [[H|H]|H]; injection H as H1 H2; congruence.
  - intros x y. rewrite !elem_of_union, !elem_of_singleton. unfold adjacent. rewrite !elem_of_union, !elem_of_singleton.
    intros [[H|H]|H]; injection H as -> ->; intros [[H|H]|[H|H]]; discriminate.
Qed.

Print Assumptions C113_has_arc.
Print Assumptions C113_counts.
Print Assumptions C113_pdag_counts.
Print Assumptions C112_counts.
