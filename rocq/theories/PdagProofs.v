(** Views of a [PDAG] and the effect of its mutators. *)
From Verif Require Import Py Spec DagModel UGraphModel PdagModel UGraphProofs.

Record pok (g : pdag) : Prop := Pok {
  pok_par : ∀ x y, x ∈ p_parents g y ↔ (x, y) ∈ p_arcs g;
  pok_chi : ∀ x y, y ∈ p_children g x ↔ (x, y) ∈ p_arcs g;
  pok_unb : ∀ x y, y ∈ p_unbrs g x ↔ x ≠ y ∧ upair x y ∈ p_edges g;
  pok_nbr : ∀ x y, y ∈ p_neighbors g x ↔ (x, y) ∈ p_arcs g ∨ (y, x) ∈ p_arcs g ∨ y ∈ p_unbrs g x;
  pok_edge : ∀ e, e ∈ p_edges g → e.1 < e.2;
  pok_asym : ∀ x y, (x, y) ∈ p_arcs g → (y, x) ∉ p_arcs g;
  pok_disj : ∀ x y, (x, y) ∈ p_arcs g → upair x y ∉ p_edges g;
  pok_over : over (p_nodes g) (p_arcs g) ∧ over (p_nodes g) (p_edges g)
}.

Lemma pok_irr g x : pok g → (x, x) ∉ p_arcs g.
Proof. intros Hg H. by apply (pok_asym g Hg x x). Qed.
Lemma upair_self_edge g x : pok g → upair x x ∉ p_edges g.
Proof. intros Hg H. apply (pok_edge g Hg) in H. unfold upair in H. cbn in H. lia. Qed.
Lemma upair_edge_ne g x y : pok g → upair x y ∈ p_edges g → x ≠ y.
Proof. intros Hg H ->. by apply upair_self_edge in H. Qed.

Lemma has_edge_true g i j : has_edge g i j = true ↔ upair i j ∈ p_edges g.
Proof. unfold has_edge. apply bool_decide_eq_true. Qed.
Lemma has_edge_or_arc_true g i j :
  has_edge_or_arc g i j = true ↔ (i, j) ∈ p_arcs g ∨ (j, i) ∈ p_arcs g ∨ upair i j ∈ p_edges g.
Proof. unfold has_edge_or_arc, has_arc, has_edge. rewrite !orb_true_iff, !bool_decide_eq_true. tauto. Qed.

Lemma upair_eq_or x y i j : upair x y = upair i j ↔ (x = i ∧ y = j) ∨ (x = j ∧ y = i).
Proof. unfold upair. split; [intros [= ??]|intros [[-> ->]|[-> ->]]; f_equal]; lia. Qed.

Lemma over_upair N E x y : over N E → upair x y ∈ E → x ∈ N ∧ y ∈ N.
Proof.
  intros HE H. unfold upair in H. apply HE in H as [H1 H2].
  destruct (Nat.le_gt_cases x y); [rewrite Nat.min_l, Nat.max_r in * by lia|rewrite Nat.min_r, Nat.max_l in * by lia]; done.
Qed.
Lemma over_ins N E x y : over N E → x ∈ N → y ∈ N → over N ({[(x, y)]} ∪ E).
Proof. intros H ?? a b. rewrite elem_of_union, elem_of_singleton. intros [[= -> ->]|?]; [done|by apply H]. Qed.
Lemma over_del (N : nset) (E X : arcset) : over N E → over N (E ∖ X).
Proof. intros H a b. rewrite elem_of_difference. intros [? _]. by apply H. Qed.
Lemma over_weak N N' E : over N E → N ⊆ N' → over N' E.
Proof. intros H HN a b Hab. apply H in Hab as [??]. split; by apply HN. Qed.

Lemma replace_arc_with_edge_ok g i j :
  pok g → (i, j) ∈ p_arcs g →
  ∃ g', replace_arc_with_edge (i, j) g = (g', Ok tt) ∧ pok g' ∧
    p_nodes g' = p_nodes g ∧ p_known g' = p_known g ∧
    p_arcs g' = p_arcs g ∖ {[(i, j)]} ∧ p_edges g' = {[upair i j]} ∪ p_edges g.
Proof.
  intros Hg Hij. unfold replace_arc_with_edge. rewrite decide_True by done.
  assert (i ≠ j) as Hne by (intros ->; by apply (pok_irr g j) in Hij).
  unfold mthen, mbind', pp_remove, pc_remove, p_parents, p_children. cbn.
  rewrite decide_True by (by apply (pok_par g Hg)). cbn.
  rewrite decide_True by (by apply (pok_chi g Hg)).
  eexists. split; [reflexivity|]. cbn. split; [|done].
  destruct Hg as [Hpar Hchi Hunb Hnbr Hedge Hasym Hdisj [Ho1 Ho2]].
  unfold p_parents, p_children, p_unbrs, p_neighbors in *.
  constructor; cbn; unfold p_parents, p_children, p_unbrs, p_neighbors; cbn.
  - intros x y. rewrite dget_ddel. case_decide as Hd; subst; rewrite ?elem_of_difference, ?elem_of_singleton, Hpar; naive_solver.
  - intros x y. rewrite dget_ddel. case_decide as Hd; subst; rewrite ?elem_of_difference, ?elem_of_singleton, Hchi; naive_solver.
  - intros x y. rewrite !dget_dadd. specialize (Hunb x y). rewrite elem_of_union, elem_of_singleton, upair_eq_or.
    repeat case_decide; subst; rewrite ?elem_of_union, ?elem_of_singleton; naive_solver.
  - intros x y. rewrite !dget_dadd. specialize (Hnbr x y). rewrite !elem_of_difference, !elem_of_singleton.
    destruct (decide ((x, y) = (i, j))) as [[= -> ->]|N1]; [|destruct (decide ((y, x) = (i, j))) as [[= -> ->]|N2]];
      repeat case_decide; simplify_eq; rewrite ?elem_of_union, ?elem_of_singleton, Hnbr; naive_solver.
  - intros e. rewrite elem_of_union, elem_of_singleton. intros [->|?]; [|by apply Hedge]. unfold upair. cbn. lia.
  - intros x y. rewrite !elem_of_difference. naive_solver.
  - intros x y. rewrite !elem_of_difference, elem_of_singleton, elem_of_union, elem_of_singleton, upair_eq_or. naive_solver.
  - pose proof (Ho1 _ _ Hij) as [??]. split; [by apply over_del|]. unfold upair. apply over_ins; [done|..].
    + destruct (Nat.min_spec i j) as [[_ ->]|[_ ->]]; done.
    + destruct (Nat.max_spec i j) as [[_ ->]|[_ ->]]; done.
Qed.

Lemma replace_edge_with_arc_ok g i j :
  pok g → upair i j ∈ p_edges g →
  ∃ g', replace_edge_with_arc (i, j) g = (g', Ok tt) ∧ pok g' ∧
    p_nodes g' = p_nodes g ∧ p_known g' = p_known g ∧
    p_arcs g' = {[(i, j)]} ∪ p_arcs g ∧ p_edges g' = p_edges g ∖ {[upair i j]}.
Proof.
  intros Hg Hij. unfold replace_edge_with_arc. rewrite decide_True by done.
  assert (i ≠ j) as Hne by by eapply upair_edge_ne.
  assert (upair j i ∈ p_edges g) as Hji by by rewrite upair_comm.
  assert ((i, j) ∉ p_arcs g ∧ (j, i) ∉ p_arcs g) as [Hn1 Hn2] by (split; intros H; by apply (pok_disj g Hg) in H).
  unfold mthen, mbind', pu_remove, p_unbrs. cbn.
  rewrite decide_True by (by apply (pok_unb g Hg)). cbn.
  rewrite decide_True.
  2: { rewrite dget_ddel, decide_False by done. by apply (pok_unb g Hg). }
  eexists. split; [reflexivity|]. cbn. split; [|done].
  destruct Hg as [Hpar Hchi Hunb Hnbr Hedge Hasym Hdisj [Ho1 Ho2]].
  unfold p_parents, p_children, p_unbrs, p_neighbors in *.
  constructor; cbn; unfold p_parents, p_children, p_unbrs, p_neighbors; cbn.
  - intros x y. rewrite dget_dadd. case_decide as Hd; subst; rewrite ?elem_of_union, ?elem_of_singleton, Hpar; naive_solver.
  - intros x y. rewrite dget_dadd. case_decide as Hd; subst; rewrite ?elem_of_union, ?elem_of_singleton, Hchi; naive_solver.
  - intros x y. rewrite !dget_ddel. specialize (Hunb x y). rewrite elem_of_difference, elem_of_singleton, upair_eq_or.
    repeat case_decide; subst; rewrite ?elem_of_difference, ?elem_of_singleton; naive_solver.
  - intros x y. rewrite !dget_ddel. specialize (Hnbr x y). rewrite !elem_of_union, !elem_of_singleton.
    destruct (decide ((x, y) = (i, j))) as [[= -> ->]|N1]; [|destruct (decide ((y, x) = (i, j))) as [[= -> ->]|N2]];
      [split; [by auto|intros _; apply Hnbr; right; right; by apply Hunb]
      |split; [by auto|intros _; apply Hnbr; right; right; by apply Hunb]|].
    rewrite Hnbr. assert (((x, y) = (i, j)) ↔ False) as -> by done. assert (((y, x) = (i, j)) ↔ False) as -> by done.
    assert (∀ P : Prop, (False ∨ P) ↔ P) as Hor by tauto. rewrite !Hor.
    repeat case_decide; subst; rewrite ?elem_of_difference, ?elem_of_singleton; try done.
    + split; [|naive_solver]. intros [?|[?|?]]; [naive_solver..|]. right. right. split; [done|]. by intros ->.
    + split; [|naive_solver]. intros [?|[?|?]]; [naive_solver..|]. right. right. split; [done|]. by intros ->.
  - intros e. rewrite elem_of_difference. intros [? _]. by apply Hedge.
  - intros x y. rewrite !elem_of_union, !elem_of_singleton. naive_solver.
  - intros x y. rewrite !elem_of_union, elem_of_difference, !elem_of_singleton. intros [[= -> ->]|H]; [naive_solver|].
    intros [? ?]. by apply (Hdisj x y).
  - pose proof (over_upair _ _ _ _ Ho2 Hij) as [??]. split; [by apply over_ins|by apply over_del].
Qed.

(** ** Constructor *)
Definition asym (E : arcset) : Prop := ∀ x y, (x, y) ∈ E → (y, x) ∉ E.

Lemma p_add_edge_comm i j g : i ≠ j → p_add_edge i j g = p_add_edge j i g.
Proof.
  intros Hne. unfold p_add_edge. rewrite upair_comm. f_equal.
  - set_solver.
  - unfold dadd, dget. rewrite !lookup_insert_ne by done. by rewrite insert_commute by done.
  - unfold dadd, dget. rewrite !lookup_insert_ne by done. by rewrite insert_commute by done.
Qed.

Lemma p_add_arc_ok g i j :
  pok g → (j, i) ∉ p_arcs g → i ≠ j → upair i j ∉ p_edges g → pok (p_add_arc i j g).
Proof.
  intros [Hpar Hchi Hunb Hnbr Hedge Hasym Hdisj [Ho1 Ho2]] Hn Hne Hu.
  unfold p_add_arc. unfold p_parents, p_children, p_unbrs, p_neighbors in *.
  constructor; cbn; unfold p_parents, p_children, p_unbrs, p_neighbors; cbn.
  - intros x y. rewrite dget_dadd. case_decide as Hd; subst; rewrite ?elem_of_union, ?elem_of_singleton, Hpar; naive_solver.
  - intros x y. rewrite dget_dadd. case_decide as Hd; subst; rewrite ?elem_of_union, ?elem_of_singleton, Hchi; naive_solver.
  - done.
  - intros x y. rewrite !dget_dadd. specialize (Hnbr x y). rewrite !elem_of_union, !elem_of_singleton.
    repeat case_decide; subst; rewrite ?elem_of_union, ?elem_of_singleton, Hnbr; naive_solver.
  - done.
  - intros x y. rewrite !elem_of_union, !elem_of_singleton. naive_solver.
  - intros x y. rewrite !elem_of_union, !elem_of_singleton. naive_solver.
  - split; [apply over_ins; [eapply over_weak; [done|]|..]; clear; set_solver|eapply over_weak; [done|clear; set_solver]].
Qed.

Lemma p_add_edge_ok g i j :
  pok g → (i, j) ∉ p_arcs g → (j, i) ∉ p_arcs g → i ≠ j → pok (p_add_edge i j g).
Proof.
  intros [Hpar Hchi Hunb Hnbr Hedge Hasym Hdisj [Ho1 Ho2]] Hn1 Hn2 Hne.
  unfold p_add_edge. unfold p_parents, p_children, p_unbrs, p_neighbors in *.
  constructor; cbn; unfold p_parents, p_children, p_unbrs, p_neighbors; cbn.
  - done.
  - done.
  - intros x y. rewrite !dget_dadd. specialize (Hunb x y). rewrite elem_of_union, elem_of_singleton, upair_eq_or.
    repeat case_decide; subst; rewrite ?elem_of_union, ?elem_of_singleton; naive_solver.
  - intros x y. rewrite !dget_dadd. specialize (Hnbr x y).
    repeat case_decide; subst; rewrite ?elem_of_union, ?elem_of_singleton, Hnbr; naive_solver.
  - intros e. rewrite elem_of_union, elem_of_singleton. intros [->|?]; [|by apply Hedge]. unfold upair. cbn. lia.
  - done.
  - intros x y. rewrite elem_of_union, elem_of_singleton, upair_eq_or. naive_solver.
  - split; [eapply over_weak; [done|clear; set_solver]|].
    unfold upair. apply over_ins; [eapply over_weak; [done|clear; set_solver]|..].
    + destruct (Nat.min_spec i j) as [[_ ->]|[_ ->]]; clear; set_solver.
    + destruct (Nat.max_spec i j) as [[_ ->]|[_ ->]]; clear; set_solver.
Qed.

Lemma pok_empty N known : pok (Pdag N ∅ ∅ ∅ ∅ ∅ ∅ known).
Proof.
  constructor; cbn; unfold p_parents, p_children, p_unbrs, p_neighbors; cbn.
  - intros x y. rewrite dget_empty. by rewrite !elem_of_empty.
  - intros x y. rewrite dget_empty. by rewrite !elem_of_empty.
  - intros x y. rewrite dget_empty, !elem_of_empty. tauto.
  - intros x y. rewrite !dget_empty, !elem_of_empty. tauto.
  - intros e. by rewrite elem_of_empty.
  - intros x y. by rewrite elem_of_empty.
  - intros x y. by rewrite elem_of_empty.
  - split; intros x y; by rewrite elem_of_empty.
Qed.

Lemma pdag_make_ok o N arcs edges known :
  asym arcs → (∀ x, (x, x) ∉ edges) → (∀ x y, (x, y) ∈ edges → ¬ adjacent arcs x y) →
  let g := pdag_make o N arcs edges known in
  pok g ∧ p_arcs g = arcs ∧ p_known g = known ∧
  (∀ x y, upair x y ∈ p_edges g ↔ adjacent edges x y) ∧
  (over N arcs → over N edges → p_nodes g = N) ∧ N ⊆ p_nodes g ∧
  (∀ x, x ∈ p_nodes g ↔ x ∈ N ∨ ∃ y, adjacent arcs x y ∨ adjacent edges x y).
Proof.
  intros Has Hirr Hdisj g.
  assert (∀ l g0, pok g0 → (∀ a, a ∈ l → a ∈ arcs) → p_arcs g0 ⊆ arcs → p_edges g0 = ∅ →
    let g1 := foldl (λ g a, p_add_arc a.1 a.2 g) g0 l in
    pok g1 ∧ p_arcs g1 = p_arcs g0 ∪ list_to_set l ∧ p_edges g1 = ∅ ∧ p_known g1 = p_known g0 ∧
    (∀ x, x ∈ p_nodes g1 ↔ x ∈ p_nodes g0 ∨ ∃ y, (x, y) ∈ l ∨ (y, x) ∈ l)) as Harcs.
  { induction l as [|[i j] l IH]; intros g0 H0 Hl Hg0 He; cbn.
    - split_and!; [done|by rewrite (right_id_L ∅ (∪))|done|done|]; intros; setoid_rewrite elem_of_nil; naive_solver.
    - assert ((i, j) ∈ arcs) as Hij by (apply Hl; left).
      destruct (IH (p_add_arc i j g0)) as (H1 & H2 & H3 & H4 & H5).
      + apply p_add_arc_ok; [done|..].
        * intros H. apply (Has i j); [done|by apply Hg0].
        * intros ->. by apply (Has j j).
        * rewrite He. apply not_elem_of_empty.
      + intros a Ha. apply Hl. by right.
      + cbn. intros a. rewrite elem_of_union, elem_of_singleton. intros [->|?]; [done|by apply Hg0].
      + done.
      + split_and!; [done| |done|done|].
        * rewrite H2. cbn. clear. set_solver.
        * intros x. rewrite H5. cbn. rewrite !elem_of_union, !elem_of_singleton. setoid_rewrite elem_of_cons. clear. naive_solver. }
  assert (∀ l g0, pok g0 → (∀ a, a ∈ l → a ∈ edges) → p_arcs g0 = arcs →
    let g1 := foldl (λ g a, p_add_edge a.1 a.2 g) g0 l in
    pok g1 ∧ p_arcs g1 = arcs ∧ p_known g1 = p_known g0 ∧
    (∀ x y, upair x y ∈ p_edges g1 ↔ upair x y ∈ p_edges g0 ∨ (x, y) ∈ l ∨ (y, x) ∈ l) ∧
    (∀ x, x ∈ p_nodes g1 ↔ x ∈ p_nodes g0 ∨ ∃ y, (x, y) ∈ l ∨ (y, x) ∈ l)) as Hedges.
  { induction l as [|[i j] l IH]; intros g0 H0 Hl Hg0; cbn.
    - split_and!; [done|done|done|..]; intros; setoid_rewrite elem_of_nil; naive_solver.
    - assert ((i, j) ∈ edges) as Hij by (apply Hl; left).
      destruct (IH (p_add_edge i j g0)) as (H1 & H2 & H3 & H4 & H5).
      + apply p_add_edge_ok; [done|..].
        * rewrite Hg0. intros H. apply (Hdisj i j); [done|by left].
        * rewrite Hg0. intros H. apply (Hdisj i j); [done|by right].
        * intros ->. by apply (Hirr j).
      + intros a Ha. apply Hl. by right.
      + done.
      + split_and!; [done|done|done| |].
        * intros x y. rewrite H4. cbn. rewrite elem_of_union, elem_of_singleton, upair_eq_or, !elem_of_cons. clear. naive_solver.
        * intros x. rewrite H5. cbn. rewrite !elem_of_union, !elem_of_singleton. setoid_rewrite elem_of_cons. clear. naive_solver. }
  unfold g, pdag_make. clear g.
  destruct (Harcs (oa o [40] arcs) (Pdag N ∅ ∅ ∅ ∅ ∅ ∅ known)) as (A1 & A2 & A3 & A4 & A5).
  { apply pok_empty. }
  { intros a. by rewrite elem_of_oa. }
  { apply empty_subseteq. }
  { done. }
  assert (list_to_set (oa o [40] arcs) = arcs) as Hl1.
  { apply set_eq. intros a. by rewrite elem_of_list_to_set, elem_of_oa. }
  destruct (Hedges (oa o [41] edges) (foldl (λ g a, p_add_arc a.1 a.2 g) (Pdag N ∅ ∅ ∅ ∅ ∅ ∅ known) (oa o [40] arcs)))
    as (B1 & B2 & B3 & B4 & B5).
  { done. }
  { intros a. by rewrite elem_of_oa. }
  { rewrite A2. cbn. rewrite Hl1. clear. set_solver. }
  assert (∀ x, x ∈ p_nodes (foldl (λ (g : pdag) (e : arc), p_add_edge e.1 e.2 g)
    (foldl (λ (g : pdag) (a : arc), p_add_arc a.1 a.2 g) (Pdag N ∅ ∅ ∅ ∅ ∅ ∅ known) (oa o [40] arcs)) (oa o [41] edges)) ↔
    x ∈ N ∨ ∃ y, adjacent arcs x y ∨ adjacent edges x y) as HN.
  { intros x. rewrite B5, A5. cbn. setoid_rewrite elem_of_oa. unfold adjacent. clear. naive_solver. }
  split; [done|]. split; [done|]. split; [by rewrite B3, A4|]. split_and!.
  - intros x y. rewrite B4, A3, !elem_of_oa. unfold adjacent. clear. set_solver.
  - intros Ho1 Ho2. apply set_eq. intros x. rewrite HN. split; [|by auto].
    intros [?|(y & [[H|H]|[H|H]])]; [done|by apply Ho1 in H as [??]..|by apply Ho2 in H as [??]|by apply Ho2 in H as [??]].
  - intros x Hx. apply HN. by left.
  - done.
Qed.
