(** Lemmas about the counting properties and conversions. *)
From Coq Require Import QArith.Qcanon.
From Verif Require Import Py Spec DagModel UGraphModel PdagModel CompareModel QMatModel ConvModel.
From Verif Require Import TopoProofs StateProofs UGraphProofs PdagProofs MatProofs.
#[local] Open Scope nat_scope.

(** ** Counting arcs by an end point *)
Lemma count_fibres (f : arc → node) (E : arcset) (l : list node) : NoDup l →
  sum_list ((λ n, size (filter (λ a, f a = n) E)) <$> l) = size (filter (λ a, f a ∈ l) E).
Proof.
  induction 1 as [|n l Hn Hnd IH]; cbn.
  - symmetry. apply size_empty_iff, elem_of_equiv_empty. intros a. rewrite elem_of_filter. intros [H _]. by apply elem_of_nil in H.
  - rewrite IH. rewrite <-size_union.
    + f_equal. apply set_eq. intros a. rewrite elem_of_union, !elem_of_filter, elem_of_cons. naive_solver.
    + intros a. rewrite !elem_of_filter. intros [H1 _] [H2 _]. congruence.
Qed.
Lemma fibre_size (f g : arc → node) (E : arcset) (n : node) (X : nset) :
  (∀ a b, f a = f b → g a = g b → a = b) → (∀ x, x ∈ X ↔ ∃ a, a ∈ E ∧ f a = n ∧ g a = x) →
  size X = size (filter (λ a, f a = n) E).
Proof.
  intros Hinj HX. symmetry. unfold size at 1, set_size. cbn. rewrite <-(fmap_length g). apply listing_length. split.
  - apply NoDup_fmap_2_strong; [|apply NoDup_elements]. intros a b Ha Hb Hab.
    apply elem_of_elements, elem_of_filter in Ha, Hb. apply Hinj; [|done]. by destruct Ha as [-> _], Hb as [-> _].
  - intros x. rewrite HX, elem_of_list_fmap. split.
    + intros (a & -> & Ha). apply elem_of_elements, elem_of_filter in Ha. naive_solver.
    + intros (a & Ha & Hf & Hg). exists a. split; [done|]. by apply elem_of_elements, elem_of_filter.
Qed.
Lemma sum_fibres (f g : arc → node) (E : arcset) (N : nset) (X : node → nset) (l : list node) :
  (∀ a b, f a = f b → g a = g b → a = b) → (∀ n x, x ∈ X n ↔ ∃ a, a ∈ E ∧ f a = n ∧ g a = x) →
  (∀ a, a ∈ E → f a ∈ N) → listing N l → sum_list ((λ n, size (X n)) <$> l) = size E.
Proof.
  intros Hinj HX HN [Hnd Hl]. transitivity (sum_list ((λ n, size (filter (λ a, f a = n) E)) <$> l)).
  - f_equal. apply list_fmap_ext. intros _ n _. by apply (fibre_size f g).
  - rewrite count_fibres by done. f_equal. apply set_eq. intros a. rewrite elem_of_filter, Hl. naive_solver.
Qed.

Lemma on_listing o k X : listing X (on o k X).
Proof. split; [apply NoDup_on|]. intros x. apply elem_of_on. Qed.

Lemma sum_parents d l : wf d → listing (d_nodes d) l → sum_list ((λ n, size (parents d n)) <$> l) = size (d_arcs d).
Proof.
  intros Hwf Hl. apply (sum_fibres snd fst _ (d_nodes d)); [|intros n x|intros [x y] Ha|done].
  - intros [??] [??]; cbn; congruence.
  - rewrite (wf_par d Hwf). split; [by exists (x, n)|]. by intros ([??] & ? & ? & ?); cbn in *; subst.
  - by apply (wf_over d Hwf) in Ha as [_ ?].
Qed.
Lemma sum_children d l : wf d → listing (d_nodes d) l → sum_list ((λ n, size (children d n)) <$> l) = size (d_arcs d).
Proof.
  intros Hwf Hl. apply (sum_fibres fst snd _ (d_nodes d)); [|intros n x|intros [x y] Ha|done].
  - intros [??] [??]; cbn; congruence.
  - rewrite (wf_chi d Hwf). split; [by exists (n, x)|]. by intros ([??] & ? & ? & ?); cbn in *; subst.
  - by apply (wf_over d Hwf) in Ha as [? _].
Qed.

(** ** Both directions of every arc *)
Definition both (E : arcset) : arcset := E ∪ set_map (λ a : arc, (a.2, a.1)) E.
Lemma elem_of_both E x y : (x, y) ∈ both E ↔ adjacent E x y.
Proof.
  unfold both, adjacent. rewrite elem_of_union, elem_of_map. split.
  - intros [?|([a b] & [= -> ->] & ?)]; auto.
  - intros [?|?]; [by left|]. right. by exists (y, x).
Qed.
Lemma swap_size (E : arcset) : size (set_map (λ a : arc, (a.2, a.1)) E : arcset) = size E.
Proof.
  unfold size, set_size. cbn. rewrite <-(fmap_length (λ a : arc, (a.2, a.1)) (elements E)). apply Permutation_length, NoDup_Permutation.
  - apply NoDup_elements.
  - apply NoDup_fmap_2; [|apply NoDup_elements]. by intros [??] [??] [= -> ->].
  - intros a. rewrite elem_of_elements, elem_of_map, elem_of_list_fmap. by setoid_rewrite elem_of_elements.
Qed.
Lemma both_size (E : arcset) : (∀ x y, (x, y) ∈ E → (y, x) ∉ E) → size (both E) = 2 * size E.
Proof.
  intros H. unfold both. rewrite size_union, swap_size; [lia|]. intros [x y] H1 H2. apply elem_of_map in H2 as ([a b] & [= -> ->] & H2).
  by apply (H a b).
Qed.

(** ** Ordered pairs of distinct nodes *)
Definition all_pairs (N : nset) : arcset := list_to_set (x ← elements N; y ← elements (N ∖ {[x]}); [(x, y)]).
Lemma elem_of_all_pairs N x y : (x, y) ∈ all_pairs N ↔ x ∈ N ∧ y ∈ N ∧ x ≠ y.
Proof.
  unfold all_pairs. rewrite elem_of_list_to_set, elem_of_list_bind. setoid_rewrite elem_of_list_bind. split.
  - intros (a & (b & Hb & Hc) & Ha). apply elem_of_list_singleton in Hb as [= -> ->]. apply elem_of_elements in Ha, Hc. set_solver.
  - intros (Hx & Hy & Hne). exists x. rewrite elem_of_elements. split; [|done]. exists y. rewrite elem_of_list_singleton, elem_of_elements. set_solver.
Qed.
Lemma all_pairs_size N : size (all_pairs N) = size N * (size N - 1).
Proof.
  assert (listing N (elements N)) as HL by (split; [apply NoDup_elements|]; intros; apply elem_of_elements).
  rewrite <-(sum_fibres fst snd (all_pairs N) N (λ x, if decide (x ∈ N) then N ∖ {[x]} else ∅) (elements N)); [| | | |done].
  - assert (∀ l, (∀ x, x ∈ l → x ∈ N) → sum_list ((λ n, size (if decide (n ∈ N) then N ∖ {[n]} else ∅)) <$> l) = length l * (size N - 1)) as Hs.
    { induction l as [|x l IH]; intros Hin; cbn; [done|]. rewrite IH by (intros; apply Hin; by right).
      rewrite decide_True by (apply Hin; left). assert (x ∈ N) as Hx by (apply Hin; left). pose proof (size_del N x Hx). lia. }
    rewrite Hs by (intros x; apply elem_of_elements). done.
  - intros [??] [??]; cbn; congruence.
  - intros n x. split.
    + case_decide; [|set_solver]. intros Hx. exists (n, x). rewrite elem_of_all_pairs. set_solver.
    + intros ([a b] & Hab & Ha & Hb). cbn in *. subst. apply elem_of_all_pairs in Hab as (H1 & H2 & H3). rewrite decide_True by done. set_solver.
  - intros [x y] Ha. by apply elem_of_all_pairs in Ha as (? & _).
Qed.
Lemma subset_full (X Y : arcset) : X ⊆ Y → size X = size Y → X = Y.
Proof.
  intros HXY Hs. assert (size (Y ∖ X) = 0) as H0 by (rewrite size_difference by done; lia).
  apply size_empty_inv in H0. apply set_eq. intros a. split; [apply HXY|]. intros Ha. destruct (decide (a ∈ X)); [done|].
  exfalso. apply (not_elem_of_empty (C:=arcset) a), H0. by apply elem_of_difference.
Qed.

(** ** [max] *)
Lemma foldl_max l x : x ≤ foldl max x l ∧ (∀ y, y ∈ l → y ≤ foldl max x l) ∧ foldl max x l ∈ x :: l.
Proof.
  revert x. induction l as [|y l IH]; intros x; cbn.
  - split; [done|]. split; [by intros ? ?%elem_of_nil|]. left.
  - destruct (IH (max x y)) as (H1 & H2 & H3). split; [lia|]. split.
    + intros z [->|Hz]%elem_of_cons; [lia|]. by apply H2.
    + apply elem_of_cons in H3 as [H3|H3].
      * rewrite H3. destruct (Nat.max_spec x y) as [[_ ->]|[_ ->]]; [right; left|left].
      * right. by right.
Qed.
Lemma py_max_ok l : (l = [] ∧ py_max l = Raise ValueError) ∨ ∃ k, py_max l = Ok k ∧ k ∈ l ∧ ∀ y, y ∈ l → y ≤ k.
Proof.
  destruct l as [|x l]; [by left|]. right. destruct (foldl_max l x) as (H1 & H2 & H3). exists (foldl max x l). split; [done|].
  split; [done|]. intros y [->|Hy]%elem_of_cons; [done|]. by apply H2.
Qed.

(** ** networkx *)
Lemma nx_fold_edges l G : nx_directed G = true → nx_directed (foldl (λ G e, nx_add_edge e G) G l) = true ∧
  nx_edges (foldl (λ G e, nx_add_edge e G) G l) = list_to_set l ∪ nx_edges G ∧
  (∀ x, x ∈ nx_nodes (foldl (λ G e, nx_add_edge e G) G l) ↔ x ∈ nx_nodes G ∨ ∃ a, a ∈ l ∧ (x = a.1 ∨ x = a.2)).
Proof.
  revert G. induction l as [|a l IH]; intros G HG; cbn [foldl list_to_set].
  - split; [done|]. split; [set_solver|]. intros x. split; [by left|]. intros [?|(a & Ha & _)]; [done|]. by apply elem_of_nil in Ha.
  - destruct (IH (nx_add_edge a G)) as (H1 & H2 & H3); [done|]. split; [done|]. split.
    + rewrite H2. cbn. rewrite HG. clear. set_solver.
    + intros x. rewrite H3. cbn. rewrite !elem_of_union, !elem_of_singleton. setoid_rewrite elem_of_cons. clear. naive_solver.
Qed.
Lemma nx_frozen_ok l G : nx_directed G = false → (∀ e, e ∈ l → e.1 < e.2) → ∃ G', nx_add_frozensets l G = Ok G' ∧
  nx_directed G' = false ∧ nx_edges G' = list_to_set l ∪ nx_edges G ∧
  (∀ x, x ∈ nx_nodes G' ↔ x ∈ nx_nodes G ∨ ∃ a, a ∈ l ∧ (x = a.1 ∨ x = a.2)).
Proof.
  unfold nx_add_frozensets. revert G. induction l as [|a l IH]; intros G HG Hl; cbn [loopR list_to_set].
  - exists G. split; [done|]. split; [done|]. split; [set_solver|]. intros x. split; [by left|]. intros [?|(a & Ha & _)]; [done|]. by apply elem_of_nil in Ha.
  - assert (a.1 < a.2) as Hlt by (apply Hl; left). rewrite decide_False by lia.
    destruct (IH (nx_add_edge a G)) as (G' & H0 & H1 & H2 & H3); [done|intros e He; apply Hl; by right|]. exists G'. split; [done|]. split; [done|]. split.
    + rewrite H2. cbn. rewrite HG, upair_id by done. clear. set_solver.
    + intros x. rewrite H3. cbn. rewrite !elem_of_union, !elem_of_singleton. setoid_rewrite elem_of_cons. clear. naive_solver.
Qed.

(** ** [from_dataframe] *)
Lemma acyclic_sub (E F : arcset) : acyclic F → E ⊆ F → acyclic E.
Proof. intros HF HEF. apply (acyclic_img E F id); [done|]. intros i j H. by apply HEF. Qed.
Lemma add_arc_checked o i j d : wf d →
  (∃ d', add_arc o i j true d = (d', Ok tt) ∧ wf d' ∧ (∀ x, x ∈ d_nodes d' ↔ x ∈ d_nodes d ∨ x = i ∨ x = j) ∧
     d_arcs d' = {[(i, j)]} ∪ d_arcs d ∧ acyclic (d_arcs d')) ∨
  (∃ s e, add_arc o i j true d = (s, Raise e) ∧ ¬ acyclic ({[(i, j)]} ∪ d_arcs d)).
Proof.
  intros Hwf. assert (wf (insert_arc i j d)) as Hwf1 by by apply insert_arc_wf.
  unfold add_arc, on_cycle_error, mcatch. destruct (check_acyclic_spec o _ Hwf1) as [H1 H2].
  destruct (check_acyclic o (insert_arc i j d)) as [s r] eqn:Hc. cbn in H1, H2. subst s. destruct H2 as [[-> Hac]|(w & -> & _ & Hac)].
  - left. exists (insert_arc i j d). split; [done|]. split; [done|]. split; [|done]. intros x. cbn. set_solver.
  - right. unfold mthen, mbind', mraise. destruct (remove_arc i j false (insert_arc i j d)) as [s [[]|e]] eqn:Hr.
    + eexists _, _. split; [reflexivity|]. exact Hac.
    + eexists _, _. split; [reflexivity|]. exact Hac.
Qed.

Definition df_arc (D : dataframe) (L : list (nat * nat)) (x y : node) : Prop :=
  ∃ i j, (i, j) ∈ L ∧ default 0%Z (a_at (df_at D) !! (i, j)) ≠ 0%Z ∧ df_index D !! i = Some x ∧ df_columns D !! j = Some y.
Definition df_step (D : dataframe) (o : oracle) (ij : nat * nat) : M dag unit := λ d,
  if decide (default 0%Z (a_at (df_at D) !! ij) = 0%Z) then (d, Ok tt)
  else match df_index D !! ij.1, df_columns D !! ij.2 with
       | Some x, Some y => add_arc o x y true d
       | _, _ => (d, Raise IndexError)
       end.
Lemma df_loop D o L d : wf d → acyclic (d_arcs d) →
  (∀ i j, (i, j) ∈ L → is_Some (df_index D !! i) ∧ is_Some (df_columns D !! j)) →
  (∀ x, x ∈ df_index D → x ∈ d_nodes d) → (∀ x, x ∈ df_columns D → x ∈ d_nodes d) →
  (∃ d', mfor L (df_step D o) d = (d', Ok tt) ∧ wf d' ∧ acyclic (d_arcs d') ∧ d_nodes d' = d_nodes d ∧
     ∀ x y, (x, y) ∈ d_arcs d' ↔ (x, y) ∈ d_arcs d ∨ df_arc D L x y) ∨
  (∃ s e, mfor L (df_step D o) d = (s, Raise e) ∧
     ∀ F : arcset, d_arcs d ⊆ F → (∀ x y, df_arc D L x y → (x, y) ∈ F) → ¬ acyclic F).
Proof.
  revert d. induction L as [|[i j] L IH]; intros d Hwf Hac HL Hi Hj; cbn [mfor].
  - left. exists d. split; [done|]. split; [done|]. split; [done|]. split; [done|]. intros x y. split; [by left|].
    intros [?|(a & b & Hab & _)]; [done|]. by apply elem_of_nil in Hab.
  - unfold mthen, mbind', df_step at 1 3. assert (∀ a b, (a, b) ∈ L → is_Some (df_index D !! a) ∧ is_Some (df_columns D !! b)) as HL'
      by (intros; apply HL; by right).
    destruct (decide (default 0%Z (a_at (df_at D) !! (i, j)) = 0%Z)) as [Hz|Hz].
    + destruct (IH d Hwf Hac HL' Hi Hj) as [(d' & H0 & H1 & H2 & H3 & H4)|(s & e & H0 & H1)].
      * left. exists d'. split; [done|]. split; [done|]. split; [done|]. split; [done|]. intros x y. rewrite H4. split.
        -- intros [?|(a & b & ? & ?)]; [by left|]. right. exists a, b. split; [by right|done].
        -- intros [?|(a & b & [[= -> ->]|Hab]%elem_of_cons & Hnz & ?)]; [by left|done|]. right. by exists a, b.
      * right. exists s, e. split; [done|]. intros F HF HF'. apply H1; [done|]. intros x y (a & b & ? & ?). apply HF'. exists a, b. split; [by right|done].
    + cbn [fst snd]. destruct (HL i j) as [[x Hx] [y Hy]]; [left|]. rewrite Hx, Hy.
      assert (x ∈ d_nodes d) as HxN by (apply Hi; by eapply elem_of_list_lookup_2).
      assert (y ∈ d_nodes d) as HyN by (apply Hj; by eapply elem_of_list_lookup_2).
      destruct (add_arc_checked o x y d Hwf) as [(d1 & -> & Hwf1 & HN1 & HE1 & Hac1)|(s & e & -> & Hno)].
      * assert (d_nodes d1 = d_nodes d) as HN by (apply set_eq; intros z; rewrite HN1; naive_solver).
        destruct (IH d1 Hwf1 Hac1 HL') as [(d' & H0 & H1 & H2 & H3 & H4)|(s & e & H0 & H1)]; [by rewrite HN|by rewrite HN| |].
        -- left. exists d'. split; [done|]. split; [done|]. split; [done|]. split; [congruence|]. intros u v. rewrite H4, HE1, elem_of_union, elem_of_singleton. split.
           ++ intros [[[= -> ->]|?]|(a & b & ? & ?)]; [|by left|].
              ** right. exists i, j. split; [left|done].
              ** right. exists a, b. split; [by right|done].
           ++ intros [?|(a & b & [[= -> ->]|Hab]%elem_of_cons & Hnz & Hu & Hv)]; [by left; right| |].
              ** left. left. congruence.
              ** right. by exists a, b.
        -- right. exists s, e. split; [done|]. intros F HF HF'. apply H1.
           ++ rewrite HE1. intros a [->%elem_of_singleton|?]%elem_of_union; [|by apply HF]. apply HF'. exists i, j. split; [left|done].
           ++ intros u v (a & b & ? & ?). apply HF'. exists a, b. split; [by right|done].
      * right. exists s, e. split; [done|]. intros F HF HF' HacF. apply Hno. apply (acyclic_sub _ F); [done|].
        intros a [->%elem_of_singleton|?]%elem_of_union; [|by apply HF]. apply HF'. exists i, j. split; [left|done].
Qed.
Lemma elem_of_df_entries D i j : (i, j) ∈ df_entries D ↔ i < a_rows (df_at D) ∧ j < a_cols (df_at D).
Proof.
  unfold df_entries. rewrite elem_of_list_bind. setoid_rewrite elem_of_list_bind. setoid_rewrite elem_of_seq. split.
  - intros (a & (b & Hb & ?) & ?). apply elem_of_list_singleton in Hb as [= -> ->]. lia.
  - intros [??]. exists i. split; [|lia]. exists j. split; [by apply elem_of_list_singleton|lia].
Qed.

(** ** [UndirectedGraph] *)
Lemma upair_lt_id x y : x < y → upair x y = (x, y).
Proof. apply (upair_id (x, y)). Qed.
Lemma u_put_loop n l (flip : arc → bool) (L : list arc) R A : marks n R A → NoDup l → length l = n →
  (∀ e, e ∈ L → e.1 < e.2 ∧ e.1 ∈ l ∧ e.2 ∈ l) →
  ∃ A', loopR (λ (e : arc) A,
      if decide (e.1 = e.2) then Raise ValueError else
      let i := if flip e then e.2 else e.1 in
      let j := if flip e then e.1 else e.2 in
      put (node2ix l) j i (put (node2ix l) i j (Ok A))) L A = Ok A' ∧
    marks n (λ i j, R i j ∨ at_ l (λ x y, upair x y ∈ L) i j) A'.
Proof.
  intros HA Hnd Hlen. revert R A HA. induction L as [|[x y] L IH]; intros R A HA HL; cbn [loopR].
  - exists A. split; [done|]. eapply marks_ext; [done|]. intros i j. split; [by left|]. intros [?|(x & y & _ & _ & H)]; [done|]. by apply elem_of_nil in H.
  - destruct (HL (x, y)) as (Hlt & Hx & Hy); [left|]. cbn in Hlt, Hx, Hy. cbn [fst snd]. rewrite decide_False by lia. cbn zeta.
    apply elem_of_list_lookup in Hx as [a Ha]. apply elem_of_list_lookup in Hy as [b Hb].
    assert (∃ A1, (let i := if flip (x, y) then y else x in let j := if flip (x, y) then x else y in
      put (node2ix l) j i (put (node2ix l) i j (Ok A))) = Ok A1 ∧
      marks n (λ i j, (i = a ∧ j = b) ∨ (i = b ∧ j = a) ∨ R i j) A1) as (A1 & HA1 & HM1).
    { cbn zeta. destruct (flip (x, y)).
      - destruct (put_ok n l R A y x b a HA Hnd Hlen Hb Ha) as (A1 & -> & H1).
        destruct (put_ok n l _ A1 x y a b H1 Hnd Hlen Ha Hb) as (A2 & -> & H2). exists A2. split; [done|]. eapply marks_ext; [done|]. intros i j. tauto.
      - destruct (put_ok n l R A x y a b HA Hnd Hlen Ha Hb) as (A1 & -> & H1).
        destruct (put_ok n l _ A1 y x b a H1 Hnd Hlen Hb Ha) as (A2 & -> & H2). exists A2. split; [done|]. eapply marks_ext; [done|]. intros i j. tauto. }
    cbn zeta in HA1. rewrite HA1. destruct (IH _ A1 HM1) as (A' & HA' & HM'); [intros e He; apply HL; by right|].
    exists A'. split; [done|]. eapply marks_ext; [done|]. intros i j. cbn beta.
    assert (upair x y = (x, y)) as Hxy by by apply (upair_id (x, y)). split.
    + intros [[[-> ->]|[[-> ->]|?]]|(u & v & ? & ? & ?)]; [| |by left|].
      * right. exists x, y. split; [done|]. split; [done|]. rewrite Hxy. left.
      * right. exists y, x. split; [done|]. split; [done|]. rewrite upair_comm, Hxy. left.
      * right. exists u, v. split; [done|]. split; [done|]. by right.
    + intros [?|(u & v & Hu & Hv & [Huv|Huv]%elem_of_cons)]; [by left; right; right| |right; by exists u, v].
      left. rewrite <-Hxy in Huv. apply upair_inj in Huv as [[-> ->]|[-> ->]]; [left|right; left]; split; by eapply NoDup_lookup.
Qed.
Lemma u_to_amat_ok g o flip nl : uok g → uover g → listing (u_nodes g) (order_of (u_nodes g) nl) →
  ∃ A, u_to_amat g o flip nl false = Ok A ∧
    marks (size (u_nodes g)) (at_ (order_of (u_nodes g) nl) (λ x y, upair x y ∈ u_edges g)) A.
Proof.
  intros Hg Hov Hl. unfold u_to_amat. fold (order_of (u_nodes g) nl). set (l := order_of (u_nodes g) nl) in *.
  destruct (u_put_loop (size (u_nodes g)) l flip (oa o [202] (u_edges g)) _ _ (marks_zeros _)) as (A & HA & HM).
  - apply Hl. - by apply listing_length.
  - intros e He. apply elem_of_oa in He. pose proof (uok_irr g Hg e He) as Hlt. split; [done|]. destruct Hl as [_ Hl]. rewrite !Hl.
    apply Hov. by rewrite upair_id.
  - exists A. split; [exact HA|]. eapply marks_ext; [done|]. intros i j. split.
    + intros [[]|(x & y & ? & ? & H)]. exists x, y. split; [done|]. split; [done|]. by apply elem_of_oa in H.
    + intros (x & y & ? & ? & H). right. exists x, y. split; [done|]. split; [done|]. by apply elem_of_oa.
Qed.

(** The constructor applied to the edges of a consistent graph. *)
Lemma ug_eq_edges g h : (∀ e, e ∈ u_edges g → e.1 < e.2) → (∀ e, e ∈ u_edges h → e.1 < e.2) →
  (∀ x y, upair x y ∈ u_edges g ↔ upair x y ∈ u_edges h) → u_edges g = u_edges h.
Proof. intros Hg Hh H. apply set_eq. intros e. split; intros He; [rewrite <-(upair_id e) by by apply Hg|rewrite <-(upair_id e) by by apply Hh]; apply H; rewrite upair_id; auto. Qed.
Lemma ug_rebuild g o flip N : uok g → uover g → N = u_nodes g →
  let h := ug_make o flip N (u_edges g) in uok h ∧ uover h ∧ u_nodes h = u_nodes g ∧ u_edges h = u_edges g.
Proof.
  intros Hg Hov -> h. destruct (ug_make_ok o flip (u_nodes g) (u_edges g)) as (H1 & H2 & H3 & H4). fold h in H1, H2, H3, H4.
  assert (∀ x y, (x, y) ∈ u_edges g → upair x y ∈ u_edges g ∧ x < y) as Hxy.
  { intros x y H. pose proof (uok_irr g Hg _ H) as Hlt. cbn in Hlt. split; [|done]. by rewrite upair_lt_id. }
  split; [done|]. split; [done|]. split.
  - apply set_eq. intros x. rewrite H4. split; [|by left]. intros [?|(y & _ & [H|H])]; [done| |]; apply Hxy in H as [H _]; apply Hov in H; tauto.
  - apply ug_eq_edges; [apply H1|apply Hg|]. intros x y. rewrite H3. split.
    + intros [_ [H|H]]; apply Hxy in H as [H _]; [done|by rewrite upair_comm].
    + intros H. pose proof (uok_irr g Hg _ H) as Hlt. unfold upair in *. cbn in Hlt. split; [lia|]. destruct (Nat.lt_total x y) as [?|[?|?]]; [left|lia|right].
      * by rewrite Nat.min_l, Nat.max_r in H by lia.
      * by rewrite Nat.min_r, Nat.max_l in H by lia.
Qed.
Lemma sum_unbrs g l : uok g → uover g → listing (u_nodes g) l → sum_list ((λ n, size (unbrs g n)) <$> l) = 2 * size (u_edges g).
Proof.
  intros Hg Hov Hl. rewrite <-both_size.
  2:{ intros x y H1 H2. pose proof (uok_irr g Hg _ H1). pose proof (uok_irr g Hg _ H2). cbn in *. lia. }
  assert (∀ x y, adjacent (u_edges g) x y ↔ x ≠ y ∧ upair x y ∈ u_edges g) as Hadj.
  { intros x y. split.
    - intros [H|H]; pose proof (uok_irr g Hg _ H) as Hlt; cbn in Hlt; (split; [lia|]); [by rewrite upair_lt_id|by rewrite upair_comm, upair_lt_id].
    - intros [Hne H]. unfold upair in H. destruct (Nat.lt_total x y) as [?|[?|?]]; [left|lia|right].
      + by rewrite Nat.min_l, Nat.max_r in H by lia.
      + by rewrite Nat.min_r, Nat.max_l in H by lia. }
  apply (sum_fibres fst snd _ (u_nodes g)); [|intros n x|intros [x y] Ha|done].
  - intros [??] [??]; cbn; congruence.
  - rewrite (uok_nbr g Hg), <-Hadj, <-elem_of_both. split; [by exists (n, x)|]. by intros ([??] & ? & ? & ?); cbn in *; subst.
  - apply elem_of_both, Hadj in Ha as [_ Ha]. by apply Hov in Ha as [? _].
Qed.
