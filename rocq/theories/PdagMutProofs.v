(** The mutating methods of [PDAG] keep the adjacency sets in step with the arcs
    and edges. *)
From Verif Require Import Py Spec SpecMec DagModel UGraphModel PdagModel EnumModel PdagMutModel
  TopoProofs StateProofs OrderProofs QueryProofs MarkovProofs UGraphProofs PdagProofs ProtProofs CpdagProofs ToDagProofs.

(** [g'] is [g] with the arcs [A] and edges [E]. *)
Record moved (g g' : pdag) (A E : arcset) : Prop := Moved {
  mv_ok : pok g';
  mv_nodes : p_nodes g' = p_nodes g;
  mv_known : p_known g' = p_known g;
  mv_arcs : p_arcs g' = A;
  mv_edges : p_edges g' = E
}.

Lemma remove_edge_ok g i j ie : pok g → upair i j ∈ p_edges g →
  ∃ g', p_remove_edge i j ie g = (g', Ok tt) ∧ moved g g' (p_arcs g) (p_edges g ∖ {[upair i j]}).
Proof.
  intros Hg Hij. assert (i ≠ j) as Hne by by eapply upair_edge_ne.
  assert (upair j i ∈ p_edges g) as Hji by by rewrite upair_comm.
  assert ((i, j) ∉ p_arcs g ∧ (j, i) ∉ p_arcs g) as [Hn1 Hn2] by (split; intros H; by apply (pok_disj g Hg) in H).
  assert (j ∈ p_unbrs g i ∧ i ∈ p_unbrs g j) as [Hu1 Hu2] by (rewrite !(pok_unb g Hg); naive_solver).
  assert (j ∈ p_neighbors g i ∧ i ∈ p_neighbors g j) as [Hb1 Hb2] by (rewrite !(pok_nbr g Hg); auto).
  unfold p_remove_edge, p_ignoring, mcatch, mthen, mbind', pe_remove, pn_remove, pu_remove.
  rewrite decide_True by done. unfold p_neighbors, p_unbrs in *. cbn. rewrite decide_True by done. cbn.
  rewrite decide_True by (by rewrite dget_ddel, decide_False). cbn. rewrite decide_True by done. cbn.
  rewrite decide_True by (by rewrite dget_ddel, decide_False). eexists. split; [reflexivity|].
  destruct Hg as [Hpar Hchi Hunb Hnbr Hedge Hasym Hdisj [Ho1 Ho2]].
  constructor; [|done..]. unfold p_parents, p_children, p_unbrs, p_neighbors in *.
  constructor; cbn; unfold p_parents, p_children, p_unbrs, p_neighbors; cbn; try done.
  - intros x y. rewrite !dget_ddel. specialize (Hunb x y). rewrite elem_of_difference, elem_of_singleton, upair_eq_or.
    repeat case_decide; subst; rewrite ?elem_of_difference, ?elem_of_singleton; naive_solver.
  - intros x y. rewrite !dget_ddel. specialize (Hnbr x y). specialize (Hunb x y).
    repeat case_decide; subst; rewrite ?elem_of_difference, ?elem_of_singleton; naive_solver.
  - intros e. rewrite elem_of_difference. intros [? _]. by apply Hedge.
  - intros x y Hxy. rewrite elem_of_difference. intros [? _]. by apply (Hdisj x y).
  - split; [done|by apply over_del].
Qed.
Lemma remove_edge_none g i j ie : upair i j ∉ p_edges g →
  p_remove_edge i j ie g = (g, if ie then Ok tt else Raise KeyError).
Proof. intros H. unfold p_remove_edge, p_ignoring, mcatch, mthen, mbind', pe_remove. rewrite decide_False by done. cbn. by destruct ie. Qed.

Lemma remove_arc_ok g i j ie : pok g → (i, j) ∈ p_arcs g →
  ∃ g', p_remove_arc i j ie g = (g', Ok tt) ∧ moved g g' (p_arcs g ∖ {[(i, j)]}) (p_edges g).
Proof.
  intros Hg Hij. assert (i ≠ j) as Hne by (intros ->; by apply (pok_irr g j Hg)).
  pose proof (pok_asym g Hg _ _ Hij) as Hji. pose proof (pok_disj g Hg _ _ Hij) as Hd.
  assert (j ∈ p_children g i ∧ i ∈ p_parents g j) as [Hu1 Hu2] by (rewrite (pok_chi g Hg), (pok_par g Hg); done).
  assert (j ∈ p_neighbors g i ∧ i ∈ p_neighbors g j) as [Hb1 Hb2] by (rewrite !(pok_nbr g Hg); auto).
  assert (j ∉ p_unbrs g i ∧ i ∉ p_unbrs g j) as [Hn1 Hn2] by (rewrite !(pok_unb g Hg), (upair_comm j i); naive_solver).
  unfold p_remove_arc, p_ignoring, mcatch, mthen, mbind', pa_remove, pc_remove, pp_remove, pn_remove.
  rewrite decide_True by done. unfold p_children, p_parents, p_neighbors in *. cbn. rewrite decide_True by done. cbn.
  rewrite decide_True by done. cbn. rewrite decide_True by done. cbn.
  rewrite decide_True by (by rewrite dget_ddel, decide_False). eexists. split; [reflexivity|].
  destruct Hg as [Hpar Hchi Hunb Hnbr Hedge Hasym Hdisj [Ho1 Ho2]].
  constructor; [|done..]. unfold p_parents, p_children, p_unbrs, p_neighbors in *.
  constructor; cbn; unfold p_parents, p_children, p_unbrs, p_neighbors; cbn; try done.
  - intros x y. rewrite dget_ddel, elem_of_difference, elem_of_singleton, <-Hpar. case_decide; subst; rewrite ?elem_of_difference, ?elem_of_singleton; naive_solver.
  - intros x y. rewrite dget_ddel, elem_of_difference, elem_of_singleton, <-Hchi. case_decide; subst; rewrite ?elem_of_difference, ?elem_of_singleton; naive_solver.
  - intros x y. rewrite !dget_ddel, !elem_of_difference, !elem_of_singleton. specialize (Hnbr x y).
    destruct (decide ((x, y) = (i, j))) as [[= -> ->]|N1]; [|destruct (decide ((y, x) = (i, j))) as [[= -> ->]|N2]].
    + rewrite (decide_False (P := j = i)), (decide_True (P := i = i)) by done. rewrite elem_of_difference, elem_of_singleton. naive_solver.
    + rewrite (decide_True (P := j = j)), (decide_False (P := i = j)) by done. rewrite elem_of_difference, elem_of_singleton. naive_solver.
    + repeat case_decide; subst; rewrite ?elem_of_difference, ?elem_of_singleton; naive_solver.
  - intros x y. rewrite !elem_of_difference. intros [H1 _] [H2 _]. by apply (Hasym x y).
  - intros x y. rewrite elem_of_difference. intros [H1 _]. by apply Hdisj.
  - split; [by apply over_del|done].
Qed.
Lemma remove_arc_none g i j ie : (i, j) ∉ p_arcs g →
  p_remove_arc i j ie g = (g, if ie then Ok tt else Raise KeyError).
Proof. intros H. unfold p_remove_arc, p_ignoring, mcatch, mthen, mbind', pa_remove. rewrite decide_False by done. cbn. by destruct ie. Qed.

Lemma orient_ok g i j ie : pok g → upair i j ∈ p_edges g →
  ∃ g', p_orient (i, j) ie g = (g', Ok tt) ∧ moved g g' ({[(i, j)]} ∪ p_arcs g) (p_edges g ∖ {[upair i j]}).
Proof.
  intros Hg Hij. destruct (replace_edge_with_arc_ok g i j Hg Hij) as (g' & He & H1 & H2 & H3 & H4 & H5).
  exists g'. unfold p_orient, p_ignoring, mcatch. rewrite He. by split.
Qed.
Lemma orient_none g i j ie : upair i j ∉ p_edges g → p_orient (i, j) ie g = (g, if ie then Ok tt else Raise KeyError).
Proof. intros H. unfold p_orient, p_ignoring, mcatch, replace_edge_with_arc. rewrite decide_False by done. by destruct ie. Qed.
Lemma replace_edge_none g i j : upair i j ∉ p_edges g → replace_edge_with_arc (i, j) g = (g, Raise KeyError).
Proof. intros H. unfold replace_edge_with_arc. by rewrite decide_False. Qed.
Lemma unorient_none g i j : (i, j) ∉ p_arcs g → replace_arc_with_edge (i, j) g = (g, Raise KeyError).
Proof. intros H. unfold replace_arc_with_edge. by rewrite decide_False. Qed.
Lemma replace_edge_pok a g : pok g → pok (replace_edge_with_arc a g).1.
Proof.
  intros Hg. destruct a as [i j]. destruct (decide (upair i j ∈ p_edges g)) as [H|H].
  - by destruct (replace_edge_with_arc_ok g i j Hg H) as (g' & -> & H1 & _).
  - by rewrite replace_edge_none.
Qed.

(** ** Bulk removal: the calls before the first failing one take effect *)
Lemma remove_arcs_from_ok (l : list arc) g : pok g →
  ∃ g' (l1 l2 : list arc), p_remove_arcs_from l g = (g', if decide (l2 = []) then Ok tt else Raise KeyError) ∧ l = l1 ++ l2 ∧
    moved g g' (p_arcs g ∖ list_to_set l1) (p_edges g) ∧ NoDup l1 ∧ (∀ a, a ∈ l1 → a ∈ p_arcs g) ∧
    (∀ a, head l2 = Some a → a ∉ p_arcs g ∨ a ∈ l1).
Proof.
  revert g. induction l as [|[i j] l IH]; intros g Hg.
  - exists g, [], []. cbn. split; [done|]. split; [done|]. split; [constructor; try done; clear; set_solver|]. split; [constructor|].
    split; [intros a Ha; by apply elem_of_nil in Ha|done].
  - destruct (decide ((i, j) ∈ p_arcs g)) as [Hij|Hij].
    + destruct (remove_arc_ok g i j false Hg Hij) as (g1 & Hg1 & [M1 M2 M3 M4 M5]).
      destruct (IH g1 M1) as (g' & l1 & l2 & Hr & -> & [N1 N2 N3 N4 N5] & Hnd & Hin & Hhd).
      exists g', ((i, j) :: l1), l2. split; [|split; [done|split; [constructor; [done|congruence|congruence| |congruence]|split; [|split]]]].
      * cbn [p_remove_arcs_from mfor]. unfold p_remove_arcs_from in Hr |- *. cbn [mfor]. unfold mthen at 1, mbind'. cbn [fst snd]. by rewrite Hg1.
      * rewrite N4, M4. cbn. clear. set_solver.
      * constructor; [|done]. intros Hl. apply Hin in Hl. rewrite M4 in Hl. clear -Hl. set_solver.
      * intros a [->|Ha]%elem_of_cons; [done|]. apply Hin in Ha. rewrite M4 in Ha. clear -Ha. set_solver.
      * intros a Ha. rewrite elem_of_cons. destruct (Hhd a Ha) as [H|H]; [|by auto]. rewrite M4 in H.
        destruct (decide (a = (i, j))) as [->|Hne]; [by auto|]. left. intros Ha'. apply H. clear -Ha' Hne. set_solver.
    + exists g, [], ((i, j) :: l). split; [|split; [done|split; [constructor; try done; clear; set_solver|split; [constructor|split]]]].
      * unfold p_remove_arcs_from. cbn [mfor]. unfold mthen at 1, mbind'. cbn [fst snd]. by rewrite (remove_arc_none g i j false Hij).
      * intros a Ha. by apply elem_of_nil in Ha.
      * intros a [= <-]. by left.
Qed.
Lemma remove_edges_from_ok (l : list arc) g : pok g →
  ∃ g' (l1 l2 : list arc), p_remove_edges_from l g = (g', if decide (l2 = []) then Ok tt else Raise KeyError) ∧ l = l1 ++ l2 ∧
    moved g g' (p_arcs g) (p_edges g ∖ list_to_set ((λ e : arc, upair e.1 e.2) <$> l1)) ∧ (∀ a : arc, a ∈ l1 → upair a.1 a.2 ∈ p_edges g) ∧
    (∀ a : arc, head l2 = Some a → upair a.1 a.2 ∉ p_edges g').
Proof.
  revert g. induction l as [|[i j] l IH]; intros g Hg.
  - exists g, [], []. cbn. split; [done|]. split; [done|]. split; [constructor; try done; clear; set_solver|].
    split; [intros a Ha; by apply elem_of_nil in Ha|done].
  - destruct (decide (upair i j ∈ p_edges g)) as [Hij|Hij].
    + destruct (remove_edge_ok g i j false Hg Hij) as (g1 & Hg1 & [M1 M2 M3 M4 M5]).
      destruct (IH g1 M1) as (g' & l1 & l2 & Hr & -> & [N1 N2 N3 N4 N5] & Hin & Hhd).
      exists g', ((i, j) :: l1), l2. split; [|split; [done|split; [constructor; [done|congruence|congruence|congruence|]|split]]].
      * unfold p_remove_edges_from in Hr |- *. cbn [mfor]. unfold mthen at 1, mbind'. cbn [fst snd]. by rewrite Hg1.
      * rewrite N5, M5. cbn. clear. set_solver.
      * intros a [->|Ha]%elem_of_cons; [done|]. apply Hin in Ha. rewrite M5 in Ha. clear -Ha. set_solver.
      * done.
    + exists g, [], ((i, j) :: l). split; [|split; [done|split; [constructor; try done; clear; set_solver|split]]].
      * unfold p_remove_edges_from. cbn [mfor]. unfold mthen at 1, mbind'. cbn [fst snd]. by rewrite (remove_edge_none g i j false Hij).
      * intros a Ha. by apply elem_of_nil in Ha.
      * by intros a [= <-].
Qed.
Lemma remove_all_arcs_ok o g : pok g → ∃ g', p_remove_all_arcs o g = (g', Ok tt) ∧ moved g g' ∅ (p_edges g).
Proof.
  intros Hg. unfold p_remove_all_arcs. destruct (remove_arcs_from_ok (oa o [161] (p_arcs g)) g Hg) as (g' & l1 & l2 & Hr & Hl & Hm & Hnd & Hin & Hhd).
  assert (l2 = []) as ->.
  { destruct l2 as [|a l2]; [done|exfalso]. pose proof (NoDup_oa o [161] (p_arcs g)) as Hnd'. rewrite Hl in Hnd'.
    apply NoDup_app in Hnd' as (_ & Hd & _). destruct (Hhd a eq_refl) as [H|H].
    - apply H. rewrite <-(elem_of_oa o [161]), Hl, elem_of_app. right. left.
    - apply (Hd a H). left. }
  exists g'. rewrite app_nil_r in Hl. cbn in Hr. split; [done|].
  assert (p_arcs g ∖ list_to_set l1 = ∅) as <-; [|done].
  apply set_eq. intros a. rewrite elem_of_difference, elem_of_list_to_set, <-Hl, elem_of_oa, elem_of_empty. tauto.
Qed.

(** ** Removal of nodes *)
Lemma p_remove_node_isolated o n g :
  pok g → n ∈ p_nodes g → p_nbr g !! n = None →
  ∃ g', p_remove_node o n g = (g', Raise KeyError) ∧ pok g' ∧
    p_nodes g' = p_nodes g ∖ {[n]} ∧ p_arcs g' = without n (p_arcs g) ∧ p_edges g' = without n (p_edges g) ∧
    p_known g' = p_known g.
Proof.
  intros Hg Hn Hkey. assert (∀ x, x ∉ p_neighbors g n) as Hno by (intros x; unfold p_neighbors, dget; rewrite Hkey; apply not_elem_of_empty).
  assert (∀ x, (n, x) ∉ p_arcs g) as Hno1 by (intros x H; apply (Hno x), (pok_nbr g Hg); auto).
  assert (∀ x, (x, n) ∉ p_arcs g) as Hno2 by (intros x H; apply (Hno x), (pok_nbr g Hg); auto).
  assert (∀ x, upair n x ∉ p_edges g) as Hno3.
  { intros x H. apply (Hno x), (pok_nbr g Hg). right. right. apply (pok_unb g Hg). split; [by eapply upair_edge_ne|done]. }
  assert (p_children g n = ∅) as Hc by (apply set_eq; intros x; rewrite (pok_chi g Hg); clear -Hno1; set_solver).
  assert (p_parents g n = ∅) as Hp by (apply set_eq; intros x; rewrite (pok_par g Hg); clear -Hno2; set_solver).
  assert (p_unbrs g n = ∅) as Hu by (apply set_eq; intros x; rewrite (pok_unb g Hg); clear -Hno3; set_solver).
  assert (∀ o k, on o k ∅ = []) as Hon.
  { intros o' k. destruct (on o' k ∅) as [|x l] eqn:He; [done|]. assert (x ∈ on o' k ∅) as H by (rewrite He; left). by apply elem_of_on, elem_of_empty in H. }
  assert (without n (p_arcs g) = p_arcs g) as Ha.
  { apply set_eq. intros [x y]. rewrite elem_of_without. split; [by intros []|]. intros H. split; [done|]. split; intros ->; [by apply (Hno1 y)|by apply (Hno2 x)]. }
  assert (without n (p_edges g) = p_edges g) as He.
  { apply set_eq. intros [x y]. rewrite elem_of_without. split; [by intros []|]. intros H. split; [done|].
    pose proof (pok_edge g Hg _ H) as Hlt. cbn in Hlt. assert (upair x y = (x, y)) as Hxy by (unfold upair; by rewrite Nat.min_l, Nat.max_r by lia).
    split; intros ->; [apply (Hno3 y); by rewrite Hxy|apply (Hno3 x); by rewrite upair_comm, Hxy]. }
  unfold p_remove_node. rewrite decide_True by done. fold (without n (p_arcs g)). fold (without n (p_edges g)).
  rewrite Ha, He. unfold mthen, mbind'. cbn [read_chi read_par read_unb].
  unfold p_children at 1. cbn [p_chi]. rewrite dget_dtouch. fold (p_children g n). rewrite Hc, Hon. cbn [mfor mret].
  unfold p_parents at 1. cbn [p_par]. rewrite dget_dtouch. fold (p_parents g n). rewrite Hp, Hon. cbn [mfor mret].
  unfold p_unbrs at 1. cbn [p_unb]. rewrite dget_dtouch. fold (p_unbrs g n). rewrite Hu, Hon. cbn [mfor mret].
  unfold del_par. cbn. unfold dtouch at 1. rewrite lookup_insert. unfold del_chi. cbn. unfold dtouch at 1. rewrite lookup_insert.
  unfold del_nbr. cbn. rewrite Hkey. eexists. split; [reflexivity|]. cbn. split; [|done].
  assert (∀ m : dmap, dget m n = ∅ → ∀ x, dget (delete n (dtouch m n)) x = dget m x) as Hdel.
  { intros m Hm x. rewrite dget_delete, dget_dtouch. by case_decide; subst. }
  destruct Hg as [Hpar Hchi Hunb Hnbr Hedge Hasym Hdisj [Ho1 Ho2]].
  unfold p_parents, p_children, p_unbrs, p_neighbors in *.
  constructor; cbn; unfold p_parents, p_children, p_unbrs, p_neighbors; cbn; try done.
  - intros x y. by rewrite Hdel.
  - intros x y. by rewrite Hdel.
  - intros x y. by rewrite dget_dtouch.
  - intros x y. by rewrite dget_dtouch.
  - split.
    + intros x y H. rewrite !elem_of_difference, !elem_of_singleton. pose proof (Ho1 _ _ H) as [? ?]. split_and!; try done; intros ->; [by apply (Hno1 y)|by apply (Hno2 x)].
    + intros x y H. rewrite <-He, elem_of_without in H. destruct H as (H & ? & ?). pose proof (Ho2 _ _ H) as [? ?].
      by rewrite !elem_of_difference, !elem_of_singleton.
Qed.
Lemma p_remove_node_none o n g : n ∉ p_nodes g → p_remove_node o n g = (g, Raise KeyError).
Proof. intros H. unfold p_remove_node. by rewrite decide_False. Qed.
(** Both cases together: the graph afterwards, and when nothing is raised. *)
Lemma p_remove_node_spec o n g : pok g → n ∈ p_nodes g →
  ∃ g' r, p_remove_node o n g = (g', r) ∧ (r = Ok tt ∨ r = Raise KeyError) ∧ ((∃ x, x ∈ p_neighbors g n) → r = Ok tt) ∧ pok g' ∧
    p_nodes g' = p_nodes g ∖ {[n]} ∧ p_arcs g' = without n (p_arcs g) ∧ p_edges g' = without n (p_edges g) ∧ p_known g' = p_known g.
Proof.
  intros Hg Hn. destruct (p_nbr g !! n) as [X|] eqn:HX.
  - destruct (p_remove_node_ok o n g Hg Hn) as (g' & Hr & H); [by rewrite HX|]. exists g', (Ok tt). split; [done|]. split; [by left|]. by split.
  - destruct (p_remove_node_isolated o n g Hg Hn HX) as (g' & Hr & H). exists g', (Raise KeyError). split; [done|]. split; [by right|].
    split; [|done]. intros (x & Hx). unfold p_neighbors, dget in Hx. rewrite HX in Hx. cbn in Hx. by apply elem_of_empty in Hx.
Qed.
Lemma p_remove_node_pok o n g : pok g → pok (p_remove_node o n g).1.
Proof.
  intros Hg. destruct (decide (n ∈ p_nodes g)) as [Hn|Hn]; [|by rewrite p_remove_node_none].
  destruct (p_remove_node_spec o n g Hg Hn) as (g' & r & -> & _ & _ & H & _). done.
Qed.

(** ** Invariance under every command *)
Lemma mthen_pok {A B} (m : M pdag A) (k : M pdag B) : (∀ g, pok g → pok (m g).1) → (∀ g, pok g → pok (k g).1) → ∀ g, pok g → pok ((m ;;; k) g).1.
Proof. intros Hm Hk g Hg. unfold mthen, mbind'. specialize (Hm g Hg). destruct (m g) as [g1 [a|e]]; [by apply Hk|done]. Qed.
Lemma mbind_pok {A B} (m : M pdag A) (k : A → M pdag B) : (∀ g, pok g → pok (m g).1) → (∀ a g, pok g → pok (k a g).1) → ∀ g, pok g → pok (mbind' m k g).1.
Proof. intros Hm Hk g Hg. unfold mbind'. specialize (Hm g Hg). destruct (m g) as [g1 [a|e]]; [by apply Hk|done]. Qed.
Lemma mfor_pok {A} (l : list A) (f : A → M pdag unit) : (∀ a g, pok g → pok (f a g).1) → ∀ g, pok g → pok (mfor l f g).1.
Proof. intros Hf. induction l as [|a l IH]; intros g Hg; cbn [mfor]; [done|]. apply mthen_pok; [apply Hf|apply IH|done]. Qed.

Lemma orient_loop_pok m l : ∀ und g, pok g → pok (orient_loop m l und g).1.
Proof.
  induction l as [|a l IH]; intros und g Hg; cbn [orient_loop]; [done|].
  repeat case_match; try (by apply IH); try done. apply mthen_pok; [intros; by apply replace_edge_pok|intros; by apply IH|done].
Qed.
Lemma complete_pok o g : pok g → pok (to_complete_pdag o g).1.
Proof.
  unfold to_complete_pdag. generalize (S (size (p_edges g ∪ set_map swap (p_edges g)))) as fuel.
  generalize (set_flags FU (p_edges g ∪ set_map swap (p_edges g)) (set_flags FP (p_arcs g) ∅)) as m.
  generalize (p_edges g ∪ set_map swap (p_edges g)) as und. intros und m fuel. revert und m g.
  induction fuel as [|fuel IH]; intros und m g Hg; cbn [complete_loop]; (destruct (decide (und = ∅)); [done|]); [done|].
  destruct (flag_round _ _ _ _ _ _) as [m'|e]; [|done]. case_decide; [done|].
  apply mbind_pok; [intros; by apply orient_loop_pok|intros; by apply IH|done].
Qed.

(** The additions of a command put a connection where there is none (or the same). *)
Definition fresh_cmd (c : pcmd) (g : pdag) : Prop :=
  match c with
  | PAddArc i j => i ≠ j ∧ has_arc g j i = false ∧ has_edge g i j = false
  | PAddEdge i j => i ≠ j ∧ has_arc g i j = false ∧ has_arc g j i = false
  | _ => True
  end.
Lemma run_pcmd_pok c g : pok g → fresh_cmd c g → pok (run_pcmd c g).1.
Proof.
  intros Hg Hf. destruct c; cbn in *.
  - destruct Hf as (H1 & H2%bool_decide_eq_false & H3%bool_decide_eq_false). by apply p_add_arc_ok.
  - destruct Hf as (H1 & H2%bool_decide_eq_false & H3%bool_decide_eq_false). by apply p_add_edge_ok.
  - destruct (decide (upair i j ∈ p_edges g)) as [H|H]; [|by rewrite remove_edge_none].
    destruct (remove_edge_ok g i j ignore_error Hg H) as (g' & -> & Hm). apply Hm.
  - destruct (remove_edges_from_ok edges g Hg) as (g' & l1 & l2 & -> & _ & Hm & _). apply Hm.
  - destruct (decide ((i, j) ∈ p_arcs g)) as [H|H]; [|by rewrite remove_arc_none].
    destruct (remove_arc_ok g i j ignore_error Hg H) as (g' & -> & Hm). apply Hm.
  - destruct (remove_arcs_from_ok arcs g Hg) as (g' & l1 & l2 & -> & _ & Hm & _). apply Hm.
  - destruct (remove_all_arcs_ok o g Hg) as (g' & -> & Hm). apply Hm.
  - by apply p_remove_node_pok.
  - apply mfor_pok; [|done]. intros. by apply p_remove_node_pok.
  - destruct a as [i j]. destruct (decide (upair i j ∈ p_edges g)) as [H|H]; [|by rewrite orient_none].
    destruct (orient_ok g i j ignore_error Hg H) as (g' & -> & Hm). apply Hm.
  - destruct a as [i j]. destruct (decide ((i, j) ∈ p_arcs g)) as [H|H]; [|by rewrite unorient_none].
    by destruct (replace_arc_with_edge_ok g i j Hg H) as (g' & -> & H' & _).
  - by apply complete_pok.
Qed.

(** ** [new=True] *)
Lemma add_arcs_from_eq (l : list arc) g : p_add_arcs_from l g = foldl (λ g a, p_add_arc a.1 a.2 g) g l.
Proof.
  unfold p_add_arcs_from. case_decide as Hl; [by rewrite Hl|]. clear Hl. revert g. induction l as [|a l IH]; intros g.
  - cbn. destruct g. cbn. f_equal; clear; set_solver.
  - cbn [foldl]. rewrite <-IH. cbn [p_add_arc p_nodes p_arcs p_edges p_par p_chi p_nbr p_unb p_known].
    match goal with |- foldl _ ?x _ = foldl _ ?y _ => assert (x = y) as ->; [|done] end. destruct a as [i j]. cbn [fst snd fmap list_fmap]. f_equal; rewrite ?list_to_set_cons; clear; set_solver.
Qed.
Lemma add_edges_from_eq (l : list arc) g : p_add_edges_from l g = foldl (λ g a, p_add_edge a.1 a.2 g) g l.
Proof.
  unfold p_add_edges_from. case_decide as Hl; [by rewrite Hl|]. clear Hl. revert g. induction l as [|a l IH]; intros g.
  - cbn. destruct g. cbn. f_equal; clear; set_solver.
  - cbn [foldl]. rewrite <-IH. cbn [p_add_edge p_nodes p_arcs p_edges p_par p_chi p_nbr p_unb p_known].
    match goal with |- foldl _ ?x _ = foldl _ ?y _ => assert (x = y) as ->; [|done] end.
    destruct a as [i j]. cbn [fst snd fmap list_fmap]. f_equal; rewrite ?list_to_set_cons; clear; set_solver.
Qed.
Lemma pdag_make_new_eq o N A E K : pdag_make_new o N A E K = pdag_make o N A E K.
Proof. unfold pdag_make_new, pdag_make. by rewrite add_arcs_from_eq, add_edges_from_eq. Qed.

(** ** [vstructs], degrees and renaming *)
Lemma p_vstructs_spec g o p n :
  (p, n) ∈ p_vstructs g o ↔ n ∈ p_nodes g ∧ p ∈ p_parents g n ∧ ∃ q, q ∈ p_parents g n ∧ q ≠ p ∧ p ∉ p_parents g q ∧ q ∉ p_parents g p.
Proof.
  unfold p_vstructs.
  assert (∀ k (l : list (node * node)) (acc : arcset) (a : arc),
    a ∈ foldl (λ acc (pp : node * node), if decide (pp.1 ∉ p_parents g pp.2 ∧ pp.2 ∉ p_parents g pp.1) then {[(pp.2, k)]} ∪ ({[(pp.1, k)]} ∪ acc) else acc) acc l ↔
    a ∈ acc ∨ ∃ pp, pp ∈ l ∧ pp.1 ∉ p_parents g pp.2 ∧ pp.2 ∉ p_parents g pp.1 ∧ (a = (pp.1, k) ∨ a = (pp.2, k))) as Hin.
  { intros k l. induction l as [|pp l IH]; intros acc a; cbn [foldl].
    - split; [by left|]. intros [?|(pp & H & _)]; [done|]. by apply elem_of_nil in H.
    - rewrite IH. setoid_rewrite elem_of_cons. case_decide as Hd.
      + rewrite !elem_of_union, !elem_of_singleton. split.
        * intros [[->|[->|?]]|(pp' & ? & ?)]; [right; exists pp; tauto..|by left|right; exists pp'; tauto].
        * intros [?|(pp' & [->|?] & ?)]; [tauto|tauto|right; by exists pp'].
      + split; [intros [?|(pp' & ? & ?)]; [by left|right; exists pp'; tauto]|].
        intros [?|(pp' & [->|?] & ?)]; [tauto|tauto|right; by exists pp']. }
  assert (∀ (l : list node) (acc : arcset),
    (p, n) ∈ foldl (λ acc n, foldl (λ acc (pp : node * node), if decide (pp.1 ∉ p_parents g pp.2 ∧ pp.2 ∉ p_parents g pp.1) then {[(pp.2, n)]} ∪ ({[(pp.1, n)]} ∪ acc) else acc)
      acc (combinations2 (on o [165; n] (p_parents g n)))) acc l ↔
    (p, n) ∈ acc ∨ n ∈ l ∧ ∃ pp, pp ∈ combinations2 (on o [165; n] (p_parents g n)) ∧ pp.1 ∉ p_parents g pp.2 ∧ pp.2 ∉ p_parents g pp.1 ∧ (p = pp.1 ∨ p = pp.2)) as Hout.
  { intros l. induction l as [|k l IH]; intros acc; cbn [foldl].
    - split; [by left|]. intros [?|[H _]]; [done|]. by apply elem_of_nil in H.
    - rewrite IH, Hin, elem_of_cons. split.
      + intros [[?|(pp & H1 & H2 & H3 & H4)]|[H1 H2]]; [by left|right|right; split; [by right|done]].
        assert (n = k) as <- by (destruct H4 as [[= _ <-]|[= _ <-]]; done). split; [by left|]. exists pp. destruct H4 as [[= ->]|[= ->]]; auto.
      + intros [?|[[->|?] (pp & H1 & H2 & H3 & H4)]]; [tauto| |right; split; [done|by exists pp]].
        left. right. exists pp. destruct H4 as [-> | ->]; auto. }
  rewrite Hout, elem_of_empty, elem_of_on.
  assert (∀ q r, (q, r) ∈ combinations2 (on o [165; n] (p_parents g n)) ∨ (r, q) ∈ combinations2 (on o [165; n] (p_parents g n)) ↔ q ∈ p_parents g n ∧ r ∈ p_parents g n ∧ q ≠ r) as Hc.
  { intros q r. rewrite <-!(elem_of_on o [165; n]). generalize (NoDup_on o [165; n] (p_parents g n)). generalize (on o [165; n] (p_parents g n)) as l. clear.
    induction l as [|x l IH]; intros Hnd; cbn [combinations2].
    - rewrite !elem_of_nil. tauto.
    - apply NoDup_cons in Hnd as [Hx Hnd]. specialize (IH Hnd). rewrite !elem_of_app, !elem_of_list_fmap, !elem_of_cons. split.
      + intros [[(y & [= -> ->] & Hy)|H]|[(y & [= -> ->] & Hy)|H]]; naive_solver.
      + intros ([->|Hq] & [->|Hr] & Hne); [done|left; left; by exists r|right; left; by exists q|naive_solver]. }
  split.
  - intros [[]|[Hn ([q r] & H1 & H2 & H3 & H4)]]. cbn in *. destruct (proj1 (Hc q r) (or_introl H1)) as (Hq & Hr & Hne). split; [done|].
    destruct H4 as [-> | ->]; (split; [done|]); [exists r|exists q]; auto.
  - intros (Hn & Hp & q & Hq & Hne & H1 & H2). right. split; [done|]. destruct (proj2 (Hc p q)) as [H|H]; [by auto|exists (p, q); cbn; auto|exists (q, p); cbn; auto].
Qed.

Lemma p_degree_sum g n : pok g → p_total_degree g n = p_indegree g n + p_outdegree g n + p_undirected_degree g n.
Proof.
  intros Hg. unfold p_total_degree, p_indegree, p_outdegree, p_undirected_degree.
  assert (p_neighbors g n = (p_parents g n ∪ p_children g n) ∪ p_unbrs g n) as ->.
  { apply set_eq. intros x. rewrite !elem_of_union, (pok_nbr g Hg), (pok_par g Hg), (pok_chi g Hg). tauto. }
  rewrite size_union, size_union; [done|..].
  - intros x H1 H2. apply (pok_par g Hg) in H1. apply (pok_chi g Hg) in H2. by apply (pok_asym g Hg x n).
  - intros x H1 [_ H2]%(pok_unb g Hg). apply elem_of_union in H1 as [H1|H1].
    + apply (pok_par g Hg), (pok_disj g Hg) in H1. by rewrite upair_comm in H1.
    + by apply (pok_chi g Hg), (pok_disj g Hg) in H1.
Qed.

Lemma p_rename_ok g o (nm : gmap nat nat) (f : node → node) : pok g →
  (∀ n, n ∈ p_nodes g → nm !! n = Some (f n)) → (∀ x y, x ∈ p_nodes g → y ∈ p_nodes g → f x = f y → x = y) →
  ∃ g', p_rename_nodes g o nm = Ok g' ∧ pok g' ∧ p_known g' = ∅ ∧ (∀ m, m ∈ p_nodes g' ↔ ∃ n, n ∈ p_nodes g ∧ m = f n) ∧
    (∀ x y, x ∈ p_nodes g → y ∈ p_nodes g → ((f x, f y) ∈ p_arcs g' ↔ (x, y) ∈ p_arcs g) ∧ (upair (f x) (f y) ∈ p_edges g' ↔ upair x y ∈ p_edges g)).
Proof.
  intros Hg Hf Hinj. pose proof (pok_over g Hg) as [Ho1 Ho2]. unfold p_rename_nodes.
  assert (∀ n, n ∈ p_nodes g → default 0 (nm !! n) = f n) as Hd by (intros n Hn; by rewrite Hf).
  rewrite decide_True.
  2: { split_and!.
       - intros n Hn. rewrite Hf by done. by eexists.
       - intros [x y] H. apply Ho1 in H as [H1 H2]. cbn. rewrite !Hf by done. split; by eexists.
       - intros [x y] H. apply Ho2 in H as [H1 H2]. cbn. rewrite !Hf by done. split; by eexists. }
  set (N' := set_map _ _ : nset). set (A' := set_map _ (p_arcs g) : arcset). set (E' := set_map _ (p_edges g) : arcset).
  assert (∀ x y, (x, y) ∈ A' ↔ ∃ i j, (i, j) ∈ p_arcs g ∧ x = f i ∧ y = f j) as HA.
  { intros x y. unfold A'. rewrite elem_of_map. split.
    - intros ([i j] & [= -> ->] & H). exists i, j. split; [done|]. apply Ho1 in H as [H1 H2]. cbn. by rewrite !Hd.
    - intros (i & j & H & -> & ->). exists (i, j). cbn. pose proof (Ho1 _ _ H) as [H1 H2]. by rewrite !Hd. }
  assert (∀ x y, (x, y) ∈ E' ↔ ∃ i j, (i, j) ∈ p_edges g ∧ x = f i ∧ y = f j) as HE.
  { intros x y. unfold E'. rewrite elem_of_map. split.
    - intros ([i j] & [= -> ->] & H). exists i, j. split; [done|]. apply Ho2 in H as [H1 H2]. cbn. by rewrite !Hd.
    - intros (i & j & H & -> & ->). exists (i, j). cbn. pose proof (Ho2 _ _ H) as [H1 H2]. by rewrite !Hd. }
  assert (∀ m, m ∈ N' ↔ ∃ n, n ∈ p_nodes g ∧ m = f n) as HN.
  { intros m. unfold N'. rewrite elem_of_map. split; intros (n & H1 & H2); exists n; [rewrite Hd in H1 by done|rewrite Hd by done]; auto. }
  assert (∀ i j, (i, j) ∈ p_edges g → upair i j = (i, j)) as Hup.
  { intros i j H. apply (pok_edge g Hg) in H. cbn in H. unfold upair. by rewrite Nat.min_l, Nat.max_r by lia. }
  destruct (pdag_make_ok o N' A' E' ∅) as (M1 & M2 & M3 & M4 & M5 & _).
  { intros x y (i & j & Hij & -> & ->)%HA (i' & j' & Hij' & H1 & H2)%HA. pose proof (Ho1 _ _ Hij) as [? ?]. pose proof (Ho1 _ _ Hij') as [? ?].
    apply Hinj in H1 as ->; [|done..]. apply Hinj in H2 as ->; [|done..]. by apply (pok_asym g Hg i' j'). }
  { intros x (i & j & Hij & -> & H1)%HE. pose proof (Ho2 _ _ Hij) as [? ?]. apply Hinj in H1 as ->; [|done..]. apply (pok_edge g Hg) in Hij. cbn in Hij. lia. }
  { intros x y (i & j & Hij & -> & ->)%HE. pose proof (Ho2 _ _ Hij) as [? ?]. pose proof (Hup _ _ Hij) as Hu.
    intros [(i' & j' & Hij' & H1 & H2)%HA|(i' & j' & Hij' & H1 & H2)%HA]; pose proof (Ho1 _ _ Hij') as [? ?];
      apply Hinj in H1 as ->; try done; apply Hinj in H2 as ->; try done; apply (pok_disj g Hg) in Hij'; [|rewrite upair_comm in Hij']; by rewrite Hu in Hij'. }
  eexists. split; [reflexivity|]. split; [done|]. split; [done|].
  assert (p_nodes (pdag_make o N' A' E' ∅) = N') as ->.
  { apply M5.
    - intros x y (i & j & Hij & -> & ->)%HA. pose proof (Ho1 _ _ Hij) as [? ?]. split; apply HN; eauto.
    - intros x y (i & j & Hij & -> & ->)%HE. pose proof (Ho2 _ _ Hij) as [? ?]. split; apply HN; eauto. }
  split; [done|]. intros x y Hx Hy. split.
  - rewrite M2, HA. split; [|intros; by exists x, y]. intros (i & j & Hij & H1 & H2). pose proof (Ho1 _ _ Hij) as [? ?].
    apply Hinj in H1 as ->; [|done..]. by apply Hinj in H2 as ->.
  - rewrite M4. split.
    + intros [H|H]; apply HE in H as (i & j & Hij & H1 & H2); pose proof (Ho2 _ _ Hij) as [? ?]; apply Hinj in H1 as ->; try done; apply Hinj in H2 as ->; try done;
        pose proof (Hup _ _ Hij) as Hu; [|rewrite upair_comm]; by rewrite Hu.
    + intros H. destruct (Nat.le_ge_cases x y).
      * left. apply HE. exists x, y. unfold upair in H. by rewrite Nat.min_l, Nat.max_r in H by lia.
      * right. apply HE. exists y, x. unfold upair in H. by rewrite Nat.min_r, Nat.max_l in H by lia.
Qed.
