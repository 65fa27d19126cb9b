(** Final theorems about [random_max], the covered neighbours of PDAGs and the
    skeleton distance of PAGs: C136-C138. *)
From Verif Require Import Py Spec SpecMec SpecCompare DagModel UGraphModel PdagModel CompareModel MagMatModel Util2Model
  TopoProofs StateProofs UGraphProofs PdagProofs MatProofs MagMatProofs ShdProofs PropertiesMec PropertiesEnum PropertiesMagMat.
#[local] Open Scope nat_scope.

(** ** C136 *)

(** [k] has the largest value (the smallest one when minimising) of the items. *)
Definition best_key (d : list (node * Z)) (minimize : bool) (k : node) : Prop :=
  ∃ v, (k, v) ∈ d ∧ ∀ q, q ∈ d → if minimize then (v ≤ q.2)%Z else (q.2 ≤ v)%Z.
Definition chooses (choice : list node → node) : Prop := ∀ l, l ≠ [] → choice l ∈ l.

Lemma fold_best (minimize : bool) (l : list Z) x :
  let m := foldl (if minimize then Z.min else Z.max) x l in
  m ∈ x :: l ∧ ∀ y, y ∈ x :: l → if minimize then (m ≤ y)%Z else (y ≤ m)%Z.
Proof.
  cbn. revert x. induction l as [|z l IH]; intros x; cbn.
  - split; [apply elem_of_list_singleton; done|]. intros y ->%elem_of_list_singleton. by destruct minimize.
  - destruct (IH ((if minimize then Z.min else Z.max) x z)) as [H1 H2]. split.
    + apply elem_of_cons in H1 as [H1|H1]; [|do 2 apply elem_of_list_further; done]. rewrite H1.
      destruct minimize.
      * destruct (Z.min_spec x z) as [[_ ->]|[_ ->]]; rewrite !elem_of_cons; auto.
      * destruct (Z.max_spec x z) as [[_ ->]|[_ ->]]; rewrite !elem_of_cons; auto.
    + intros y Hy. assert (if minimize then ((if minimize then Z.min else Z.max) x z ≤ x)%Z ∧ ((if minimize then Z.min else Z.max) x z ≤ z)%Z
        else (x ≤ (if minimize then Z.min else Z.max) x z)%Z ∧ (z ≤ (if minimize then Z.min else Z.max) x z)%Z) as Hb.
      { destruct minimize; lia. }
      pose proof (H2 _ (elem_of_list_here _ _)) as H3.
      apply elem_of_cons in Hy as [->|Hy]; [destruct minimize; lia|]. apply elem_of_cons in Hy as [->|Hy]; [destruct minimize; lia|].
      apply H2. by apply elem_of_list_further.
Qed.

Lemma best_filter (p : node * Z) (l : list (node * Z)) (minimize : bool) (k : node) :
  k ∈ (filter (λ q : node * Z, q.2 = foldl (if minimize then Z.min else Z.max) p.2 (l.*2)) (p :: l)).*1 ↔ best_key (p :: l) minimize k.
Proof.
  destruct (fold_best minimize (l.*2) p.2) as [H1 H2]. cbn zeta in *.
  set (m := foldl _ p.2 (l.*2)) in *. clearbody m. rewrite elem_of_list_fmap. unfold best_key. split.
  - intros ([k' v] & -> & [Hv Hin]%elem_of_list_filter). cbn in *. subst v. exists m. split; [done|].
    intros q Hq. apply H2. apply (elem_of_list_fmap_1 snd) in Hq. done.
  - intros (v & Hin & Hb). exists (k, v). split; [done|]. apply elem_of_list_filter. split; [|done]. cbn.
    assert (m ∈ (p :: l).*2) as ([k' m'] & Hm & Hq)%elem_of_list_fmap by done. cbn in Hm. subst m'.
    apply Hb in Hq. cbn in Hq. apply (elem_of_list_fmap_1 snd) in Hin. apply H2 in Hin. cbn in Hin. destruct minimize; lia.
Qed.

(** The result is a best key whatever the random choice, and every best key is the
    result for some choice.  Only the empty dictionary raises. *)
Theorem C136_random_max d minimize :
  (∀ choice, chooses choice → d ≠ [] → ∃ k, random_max d minimize choice = Ok k ∧ best_key d minimize k) ∧
  (∀ k, best_key d minimize k → ∃ choice, chooses choice ∧ random_max d minimize choice = Ok k) ∧
  (∀ choice, random_max d minimize choice = Raise ValueError ↔ d = []).
Proof.
  destruct d as [|p l].
  { split; [done|]. split; [|done]. by intros k (v & []%elem_of_nil & _). }
  pose proof (best_filter p l minimize) as Hf. unfold random_max. cbn zeta.
  set (ks := (filter _ (p :: l)).*1) in *. clearbody ks.
  assert (ks ≠ []) as Hne.
  { destruct (fold_best minimize (l.*2) p.2) as [H1 H2]. cbn zeta in *.
    assert (foldl (if minimize then Z.min else Z.max) p.2 l.*2 ∈ (p :: l).*2) as ([k' m'] & Hm & Hq)%elem_of_list_fmap by done. cbn in Hm.
    assert (k' ∈ ks) as Hk; [|by intros ->; apply elem_of_nil in Hk]. apply Hf. exists m'. split; [done|].
    intros q Hin. subst m'. apply H2. by apply (elem_of_list_fmap_1 snd) in Hin. }
  split; [|split].
  - intros choice Hc _. pose proof (Hc ks Hne) as Hin. destruct ks as [|k [|k2 ks]]; [done| |].
    + exists k. split; [done|]. apply Hf. by apply elem_of_list_singleton.
    + exists (choice (k :: k2 :: ks)). split; [done|]. by apply Hf.
  - intros k Hk%Hf. exists (λ l, if decide (k ∈ l) then k else default 0 (head l)). split.
    + intros [|x l'] Hl; [done|]. case_decide; [done|]. apply elem_of_list_here.
    + destruct ks as [|k1 [|k2 ks]]; [done| |].
      * apply elem_of_list_singleton in Hk as ->. done.
      * f_equal. by rewrite decide_True.
  - intros choice. split; [|done]. destruct ks as [|k1 [|k2 ks]]; done.
Qed.

Example C136_example :
  random_max [(4, 2%Z); (7, 5%Z); (1, 5%Z)] false (λ l, default 0 (last l)) = Ok 1 ∧
  random_max [(4, 2%Z); (7, 5%Z); (1, 5%Z)] true (λ l, default 0 (last l)) = Ok 4 ∧
  best_key [(4, 2%Z); (7, 5%Z); (1, 5%Z)] false 7.
Proof.
  split; [by vm_compute|]. split; [by vm_compute|]. exists 5%Z. split; [by do 2 constructor|].
  intros q Hq. repeat (apply elem_of_cons in Hq as [->|Hq]; [cbn; lia|]). by apply elem_of_nil in Hq.
Qed.

(** ** C137 *)

(** Adjacent in a PDAG: joined by an arc or an edge. *)
Definition p_adjacent (g : pdag) (x y : node) : Prop := (x, y) ∈ p_arcs g ∨ (y, x) ∈ p_arcs g ∨ (x ≠ y ∧ upair x y ∈ p_edges g).
Lemma nbr_adjacent g x y : pdag_wf g → y ∈ p_neighbors g x ↔ p_adjacent g x y.
Proof. intros Hg%pok_pdag_wf. rewrite (pok_nbr g Hg), (pok_unb g Hg). done. Qed.

(** The dictionary is [True] exactly for the node itself and for the nodes that are
    not adjacent to it and have the same neighbours. *)
Theorem C137_neighbors_covered g n : pdag_wf g → n ∈ p_nodes g →
  ∃ S, p_neighbors_covered g n = Ok S ∧
    ∀ m, m ∈ S ↔ m ∈ p_nodes g ∧ ¬ p_adjacent g n m ∧ ∀ z, p_adjacent g m z ↔ p_adjacent g n z.
Proof.
  intros Hg Hn. unfold p_neighbors_covered. rewrite bool_decide_false by set_solver. rewrite bool_decide_true by set_solver.
  eexists. split; [done|]. intros m. rewrite elem_of_filter.
  assert (∀ x y, p_adjacent g x y → p_adjacent g y x) as Hsym.
  { unfold p_adjacent. intros x y. rewrite (upair_comm y x). naive_solver. }
  assert (∀ x, ¬ p_adjacent g x x) as Hirr.
  { intros x [H|[H|[H _]]]; [| |done]; apply pok_pdag_wf in Hg; by apply (pok_irr g x). }
  split.
  - intros [Heq Hm]. assert (∀ z, p_adjacent g m z ∧ z ≠ n ↔ p_adjacent g n z) as He.
    { intros z. rewrite <-!nbr_adjacent by done. rewrite <-Heq. set_solver. }
    assert (¬ p_adjacent g n m) as Hna by (intros H; apply He in H as [H _]; by apply (Hirr m)).
    split; [done|]. split; [done|]. intros z. split; [|intros H; by apply He].
    intros H. apply He. split; [done|]. intros ->. auto.
  - intros (Hm & Hna & He). split; [|done]. apply set_eq. intros z. rewrite elem_of_difference, elem_of_singleton, !nbr_adjacent by done.
    rewrite He. split; [tauto|]. intros H. split; [done|]. intros ->. by apply (Hirr n).
Qed.

(** So no neighbour is ever reported as covered, not even when the closed
    neighbourhoods agree. *)
Corollary C137_never_covered g n m S : pdag_wf g → n ∈ p_nodes g → p_neighbors_covered g n = Ok S → p_adjacent g n m → m ∉ S.
Proof. intros Hg Hn HS Ha Hm. destruct (C137_neighbors_covered g n Hg Hn) as (S' & HS' & Hsp). rewrite HS in HS'. injection HS' as <-. apply Hsp in Hm. tauto. Qed.

(** The possible sinks are the nodes that no arc leaves. *)
Theorem C137_possible_sinks g n : pdag_wf g → n ∈ p_possible_sinks g ↔ n ∈ p_nodes g ∧ ∀ m, (n, m) ∉ p_arcs g.
Proof.
  intros Hg%pok_pdag_wf. unfold p_possible_sinks. rewrite elem_of_filter. split.
  - intros [H Hn]. split; [done|]. intros m Hm. apply (pok_chi g Hg) in Hm. rewrite H in Hm. by apply not_elem_of_empty in Hm.
  - intros [Hn H]. split; [|done]. apply elem_of_equiv_empty_L. intros m Hm. apply (pok_chi g Hg) in Hm. by apply (H m).
Qed.

(** 1 - 2, 1 - 3, 2 - 3 is complete and every node is covered by its neighbours, yet
    only the node itself is [True]; 4 and 5 both have the one neighbour 6. *)
Definition cov_g : pdag := pdag_make oracle0 ∅ {[(4, 6); (5, 6)]} {[(1, 2); (1, 3); (2, 3)]} ∅.
Example C137_example : pdag_wf cov_g ∧ p_neighbors_covered cov_g 1 = Ok {[1]} ∧ p_neighbors_covered cov_g 4 = Ok {[4; 5]} ∧
  p_possible_sinks cov_g = {[1; 2; 3; 6]} ∧ p_neighbors_covered cov_g 9 = Raise KeyError.
Proof.
  assert (∀ (r : res nset) S, match r with Ok S' => bool_decide (S' = S) | Raise _ => false end = true → r = Ok S) as Hr.
  { intros [S'|e] S H; [|done]. by apply bool_decide_eq_true in H as ->. }
  split; [|split; [apply Hr; vm_compute; reflexivity|split; [apply Hr; vm_compute; reflexivity|split; [by_vm|vm_compute; reflexivity]]]].
  apply pok_pdag_wf. unfold cov_g. apply pdag_make_ok.
  - intros x y. rewrite !elem_of_union, !elem_of_singleton. intros [H1|H1] [H2|H2]; injection H1 as -> ->; discriminate.
  - intros x. rewrite !elem_of_union, !elem_of_singleton. intros [[H|H]|H]; injection H as H1 H2; congruence.
  - intros x y. rewrite !elem_of_union, !elem_of_singleton. unfold adjacent. rewrite !elem_of_union, !elem_of_singleton.
    intros [[H|H]|H]; injection H as -> ->; intros [[H|H]|[H|H]]; discriminate.
Qed.

(** ** C138 *)

(** The skeleton distance of PAGs counts the adjacencies that exactly one of the
    graphs has, and is a pseudometric whose zeros are the pairs with equal skeletons. *)
Theorem C138_shd_skeleton g h k :
  (∃ L : arcset, (∀ e, e ∈ L ↔ ¬ (e ∈ pg_adj g ↔ e ∈ pg_adj h)) ∧ pg_shd_skeleton g h = size L) ∧
  pg_shd_skeleton g h = pg_shd_skeleton h g ∧ (pg_shd_skeleton g h = 0 ↔ pg_adj g = pg_adj h) ∧
  pg_shd_skeleton g k ≤ pg_shd_skeleton g h + pg_shd_skeleton h k.
Proof.
  unfold pg_shd_skeleton. split; [|split; [by rewrite sym_diff_comm|split]].
  - exists (sym_diff (pg_adj g) (pg_adj h)). split; [|done]. intros e. rewrite elem_of_sym_diff.
    destruct (decide (e ∈ pg_adj g)), (decide (e ∈ pg_adj h)); tauto.
  - split; [intros H; apply sym_diff_empty; by apply leibniz_equiv, size_empty_inv|].
    intros ->. assert (sym_diff (pg_adj h) (pg_adj h) = ∅) as ->; [|apply size_empty].
    apply set_eq. intros e. rewrite elem_of_sym_diff. split; [tauto|by intros ?%not_elem_of_empty].
  - etrans; [apply (subseteq_size _ (sym_diff (pg_adj g) (pg_adj h) ∪ sym_diff (pg_adj h) (pg_adj k)))|].
    + intros e. rewrite elem_of_union, !elem_of_sym_diff. destruct (decide (e ∈ pg_adj h)); tauto.
    + rewrite size_union_alt. apply Nat.add_le_mono_l. apply subseteq_size. set_solver.
Qed.

(** It ignores the marks: o-> and --> on the same pair are at distance 0. *)
Theorem C138_marks_refuted : ∃ g h, pag_wf g ∧ pag_wf h ∧ g ≠ h ∧ pg_shd_skeleton g h = 0.
Proof.
  exists (Pag (upto 2) {[(0, 1)]} {[(0, 1)]} ∅), (Pag (upto 2) {[(0, 1)]} {[(0, 1)]} {[(1, 0)]}).
  split; [|split; [|split; [intros [= H]; apply (non_empty_singleton_L (C := arcset) (1, 0)); done|by vm_compute]]].
  - split; cbn [pg_nodes pg_adj pg_heads pg_tails].
    + apply upto_numbered.
    + intros i j. rewrite elem_of_singleton, elem_of_upto. intros [= -> ->]. lia.
    + intros i j. rewrite elem_of_singleton. intros [= -> ->]. by apply elem_of_singleton.
    + intros i j H. by apply not_elem_of_empty in H.
    + apply disjoint_empty_r.
  - split; cbn [pg_nodes pg_adj pg_heads pg_tails].
    + apply upto_numbered.
    + intros i j. rewrite elem_of_singleton, elem_of_upto. intros [= -> ->]. lia.
    + intros i j. rewrite elem_of_singleton. intros [= -> ->]. by apply elem_of_singleton.
    + intros i j. rewrite elem_of_singleton. intros [= -> ->]. by apply elem_of_singleton.
    + clear. set_solver.
Qed.
Example C138_example : pg_shd_skeleton (Pag {[0; 1; 2]} {[(0, 1); (1, 2)]} {[(0, 1)]} ∅) (Pag {[0; 1; 2]} {[(0, 2); (1, 2)]} ∅ ∅) = 2.
Proof. by vm_compute. Qed.

Print Assumptions C136_random_max.
Print Assumptions C137_neighbors_covered.
Print Assumptions C137_never_covered.
Print Assumptions C137_possible_sinks.
Print Assumptions C138_shd_skeleton.
Print Assumptions C138_marks_refuted.
