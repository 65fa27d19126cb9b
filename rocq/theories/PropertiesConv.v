(** C112, C113: degrees, counts and conversions of [UndirectedGraph], [DAG] and [PDAG]. *)
From Coq Require Import QArith.Qcanon Field.
From Verif Require Import Py Spec DagModel UGraphModel PdagModel CompareModel QMatModel ConvModel.
From Verif Require Import TopoProofs StateProofs UGraphProofs PdagProofs MatProofs QcTac ConvProofs.
From Verif Require Import PropertiesDag PropertiesEnum PropertiesCompare.
#[local] Open Scope nat_scope.

(** ** C112: [UndirectedGraph] *)
(** The containers agree: no loops, neighbours are the other ends of the edges, degrees count neighbours, ends are nodes. *)
Definition ug_wf (g : ug) : Prop :=
  (∀ e, e ∈ u_edges g → e.1 < e.2) ∧ (∀ x y, y ∈ unbrs g x ↔ x ≠ y ∧ upair x y ∈ u_edges g) ∧
  (∀ x, udeg g x = Z.of_nat (size (unbrs g x))) ∧ (∀ x y, upair x y ∈ u_edges g → x ∈ u_nodes g ∧ y ∈ u_nodes g).
Lemma ug_wf_ok g : ug_wf g ↔ uok g ∧ uover g.
Proof. split; [intros (H1 & H2 & H3 & H4); split; [by constructor|exact H4]|]. intros [[H1 H2 H3] H4]. split; [exact H1|]. split; [exact H2|]. split; [exact H3|exact H4]. Qed.
Theorem C112_constructor o flip N E : ug_wf (ug_make o flip N E).
Proof. apply ug_wf_ok. split; apply ug_make_ok. Qed.

Theorem C112_to_amat g o flip nl :
  ug_wf g → (∀ x l, nl = Some (x :: l) → listing (u_nodes g) (x :: l)) →
  ∃ A l, u_to_amat g o flip nl false = Ok A ∧ listing (u_nodes g) l ∧ (∀ x l', nl = Some (x :: l') → l = x :: l') ∧
    (nl = None → Sorted le l) ∧ a_rows A = size (u_nodes g) ∧ a_cols A = size (u_nodes g) ∧
    (∀ i j x y, l !! i = Some x → l !! j = Some y → value A i j = if decide (x ≠ y ∧ upair x y ∈ u_edges g) then 1%Z else 0%Z).
Proof.
  rewrite ug_wf_ok. intros [Hg Hov] Hnl.
  assert (listing (u_nodes g) (order_of (u_nodes g) nl)) as Hl.
  { unfold order_of. destruct nl as [[|x l]|]; [apply sorted_listing|by apply Hnl|apply sorted_listing]. }
  destruct (u_to_amat_ok g o flip nl Hg Hov Hl) as (A & HA & HM). exists A, (order_of (u_nodes g) nl). split; [done|]. split; [done|].
  split; [by intros x l' ->|]. split; [intros ->; apply (Sorted_merge_sort le)|]. destruct HM as (Hr & Hc & HM). split; [done|]. split; [done|].
  intros i j x y Hx Hy. unfold value. case_decide as Hd.
  - assert (a_at A !! (i, j) = Some 1%Z) as ->; [|done]. apply HM. split; [done|]. exists x, y. naive_solver.
  - destruct (a_at A !! (i, j)) as [v|] eqn:Hv; [|done]. exfalso. apply Hd. apply HM in Hv as (_ & x' & y' & Hx' & Hy' & He).
    rewrite Hx in Hx'. rewrite Hy in Hy'. injection Hx' as <-. injection Hy' as <-. split; [|done]. intros ->.
    pose proof (uok_irr g Hg _ He) as Hlt. unfold upair in Hlt. cbn in Hlt. lia.
Qed.

Lemma elem_of_grid r c i j : (i, j) ∈ (i ← seq 0 r; j ← seq 0 c; [(i, j)]) ↔ i < r ∧ j < c.
Proof.
  rewrite elem_of_list_bind. setoid_rewrite elem_of_list_bind. setoid_rewrite elem_of_seq. split.
  - intros (a & (b & Hb & ?) & ?). apply elem_of_list_singleton in Hb as [= -> ->]. lia.
  - intros [??]. exists i. split; [|lia]. exists j. split; [by apply elem_of_list_singleton|lia].
Qed.
(** An entry of the matrix is read if it is inside the matrix. *)
Definition nonzero (A : amat) (i j : nat) : Prop := i < a_rows A ∧ j < a_cols A ∧ value A i j ≠ 0%Z.
Theorem C112_from_amat A o flip :
  ug_wf (u_from_amat A o flip) ∧
  (∀ i j, upair i j ∈ u_edges (u_from_amat A o flip) ↔ i ≠ j ∧ (nonzero A i j ∨ nonzero A j i)) ∧
  (∀ x, x ∈ u_nodes (u_from_amat A o flip) ↔ x < a_rows A ∨ ∃ i, i ≠ x ∧ nonzero A i x).
Proof.
  unfold u_from_amat. set (E := list_to_set _ : arcset). assert (∀ i j, (i, j) ∈ E ↔ nonzero A i j) as HE.
  { intros i j. unfold E, nonzero. rewrite elem_of_list_to_set, elem_of_list_filter, elem_of_grid. unfold value. tauto. }
  destruct (ug_make_ok o flip (list_to_set (seq 0 (a_rows A))) E) as (H1 & H2 & H3 & H4). split; [by apply ug_wf_ok|]. split.
  - intros i j. rewrite H3, !HE. done.
  - intros x. rewrite H4, elem_of_list_to_set, elem_of_seq. unfold adjacent. setoid_rewrite HE. split.
    + intros [?|(y & Hne & [H|H])]; [left; lia|left; apply H|right; by exists y].
    + intros [?|(i & Hne & H)]; [left; lia|]. right. exists i. auto.
Qed.
Theorem C112_round_trip g o o' flip flip' nl :
  ug_wf g → (∀ x l, nl = Some (x :: l) → listing (u_nodes g) (x :: l)) →
  ∃ A l, u_to_amat g o flip nl false = Ok A ∧ listing (u_nodes g) l ∧ (∀ x l', nl = Some (x :: l') → l = x :: l') ∧
    (∀ i, i ∈ u_nodes (u_from_amat A o' flip') ↔ i < length l) ∧
    (∀ i j x y, l !! i = Some x → l !! j = Some y →
      upair i j ∈ u_edges (u_from_amat A o' flip') ↔ upair x y ∈ u_edges g).
Proof.
  intros Hg Hnl. destruct (C112_to_amat g o flip nl Hg Hnl) as (A & l & HA & Hl & Hnl' & _ & Hr & Hc & Hv).
  destruct (C112_from_amat A o' flip') as (_ & HE & HN). assert (length l = size (u_nodes g)) as Hlen by by apply listing_length.
  exists A, l. split; [done|]. split; [done|]. split; [done|]. split.
  - intros i. rewrite HN. split; [|left; lia]. intros [?|(j & _ & H)]; [lia|]. destruct H as (_ & ? & _). lia.
  - intros i j x y Hx Hy. rewrite HE. unfold nonzero. rewrite (Hv i j x y), (Hv j i y x) by done.
    apply lookup_lt_Some in Hx as Hi. apply lookup_lt_Some in Hy as Hj.
    assert (upair x y ∈ u_edges g → x ≠ y) as Hne.
    { intros H ->. destruct Hg as (Hirr & _). apply Hirr in H. unfold upair in H. cbn in H. lia. }
    rewrite (upair_comm y x). split.
    + intros [Hij [(_ & _ & H)|(_ & _ & H)]]; case_decide; naive_solver.
    + intros H. split; [intros ->; rewrite Hx in Hy; injection Hy as ->; by apply Hne|]. left. rewrite decide_True by auto. split; [lia|]. split; [lia|done].
Qed.

Theorem C112_nx_round_trip g o o' flip :
  ug_wf g → ∃ G, u_to_nx g o = Ok G ∧ nx_directed G = false ∧ nx_nodes G = u_nodes g ∧ nx_edges G = u_edges g ∧
    ug_wf (u_from_nx G o' flip) ∧ u_eqb (u_from_nx G o' flip) g = true.
Proof.
  rewrite ug_wf_ok. intros [Hg Hov].
  destruct (nx_frozen_ok (oa o [200] (u_edges g)) (nx_add_nodes_from (on o [199] (u_nodes g)) (Nx false ∅ ∅))) as (G & HG & H1 & H2 & H3); [done| |].
  { intros e He. apply elem_of_oa in He. by apply (uok_irr g Hg). }
  assert (nx_nodes G = u_nodes g) as HN.
  { apply set_eq. intros x. rewrite H3. cbn. rewrite elem_of_union, elem_of_list_to_set, elem_of_on. split.
    - intros [[?|?]|([a b] & Ha & Hx)]; [done|set_solver|]. apply elem_of_oa in Ha. pose proof (uok_irr g Hg _ Ha) as Hlt. rewrite <-(upair_lt_id a b) in Ha by done.
      apply Hov in Ha. cbn in Hx. naive_solver.
    - intros ?. by left; left. }
  assert (nx_edges G = u_edges g) as HE.
  { apply set_eq. intros a. rewrite H2. cbn. rewrite elem_of_union, elem_of_list_to_set, elem_of_oa. set_solver. }
  exists G. split; [done|]. split; [done|]. split; [done|]. split; [done|]. unfold u_from_nx. rewrite HE.
  destruct (ug_rebuild g o' flip (nx_nodes G) Hg Hov HN) as (K1 & K2 & K3 & K4). split; [by apply ug_wf_ok|]. unfold u_eqb. rewrite K3, K4, !bool_decide_eq_true_2 by done. done.
Qed.

Theorem C112_copy g o flip :
  ug_wf g → ∃ h, u_copy g o flip = Ok h ∧ ug_wf h ∧ u_eqb h g = true ∧ ∀ x, unbrs h x = unbrs g x ∧ udeg h x = udeg g x.
Proof.
  rewrite ug_wf_ok. intros [Hg Hov]. destruct (ug_rebuild g o flip _ Hg Hov eq_refl) as (K1 & K2 & K3 & K4).
  exists (ug_make o flip (u_nodes g) (u_edges g)). split.
  { unfold u_copy. rewrite decide_True; [done|]. intros e He. apply (uok_irr g Hg) in He. lia. }
  split; [by apply ug_wf_ok|]. split; [unfold u_eqb; rewrite K3, K4, !bool_decide_eq_true_2 by done; done|].
  assert (∀ x, unbrs (ug_make o flip (u_nodes g) (u_edges g)) x = unbrs g x) as Hn.
  { intros x. apply set_eq. intros y. by rewrite (uok_nbr _ K1), (uok_nbr _ Hg), K4. }
  intros x. split; [done|]. by rewrite (uok_deg _ K1), (uok_deg _ Hg), Hn.
Qed.
(** A loop put in by [add_edge] makes [copy] raise. *)
Theorem C112_copy_refuted : ∃ g i e, u_copy (u_add_edge i i g).1 oracle0 (λ _, false) = Raise e ∧ ug_wf g.
Proof. exists (ug_make oracle0 (λ _, false) {[1]} ∅), 1, ValueError. split; [vm_compute; reflexivity|apply C112_constructor]. Qed.

Lemma rename_loop (f : gmap nat nat) (flip : arc → bool) (L : list arc) (acc : arcset) :
  (∀ e, e ∈ L → e.1 < e.2 ∧ is_Some (f !! e.1) ∧ is_Some (f !! e.2)) →
  ∃ E, loopR (λ (e : arc) (acc : arcset),
      if decide (e.1 = e.2) then Raise ValueError else
      match f !! e.1, f !! e.2 with
      | Some x, Some y => Ok ({[if flip e then (y, x) else (x, y)]} ∪ acc)
      | _, _ => Raise KeyError
      end) L acc = Ok E ∧
    ∀ a b, adjacent E a b ↔ adjacent acc a b ∨ ∃ x y, upair x y ∈ L ∧ f !! x = Some a ∧ f !! y = Some b.
Proof.
  revert acc. induction L as [|[u v] L IH]; intros acc HL; cbn [loopR].
  - exists acc. split; [done|]. intros a b. split; [by left|]. intros [?|(x & y & H & _)]; [done|]. by apply elem_of_nil in H.
  - destruct (HL (u, v)) as (Hlt & [a Ha] & [b Hb]); [left|]. cbn in Hlt, Ha, Hb. cbn [fst snd]. rewrite decide_False by lia. rewrite Ha, Hb.
    destruct (IH ({[if flip (u, v) then (b, a) else (a, b)]} ∪ acc)) as (E & -> & HE); [intros e He; apply HL; by right|].
    exists E. split; [done|]. intros c d. rewrite HE.
    assert (adjacent ({[if flip (u, v) then (b, a) else (a, b)]} ∪ acc) c d ↔ adjacent acc c d ∨ (c = a ∧ d = b) ∨ (c = b ∧ d = a)) as ->.
    { unfold adjacent. rewrite !elem_of_union, !elem_of_singleton. destruct (flip (u, v)); clear; naive_solver. }
    setoid_rewrite elem_of_cons. assert (∀ x y, upair x y = (u, v) ↔ (x = u ∧ y = v) ∨ (x = v ∧ y = u)) as Hup.
    { intros x y. rewrite <-(upair_lt_id u v) by done. apply upair_inj. }
    setoid_rewrite Hup. split.
    + intros [[?|[[-> ->]|[-> ->]]]|(x & y & ? & ? & ?)]; [by left| | |].
      * right. exists u, v. auto.
      * right. exists v, u. auto.
      * right. exists x, y. auto.
    + intros [?|(x & y & [[[-> ->]|[-> ->]]|H] & Hx & Hy)]; [by left; left| | |].
      * left. right. left. split; congruence.
      * left. right. right. split; congruence.
      * right. by exists x, y.
Qed.
(** Merged ends lose their edge; nothing else is lost and nothing is added. *)
Theorem C112_rename g o flip (f : gmap nat nat) :
  ug_wf g →
  ((∀ n, n ∈ u_nodes g → is_Some (f !! n)) →
    ∃ h, u_rename_nodes g o flip f = Ok h ∧ ug_wf h ∧
      (∀ a, a ∈ u_nodes h ↔ ∃ n, n ∈ u_nodes g ∧ f !! n = Some a) ∧
      (∀ a b, upair a b ∈ u_edges h ↔ a ≠ b ∧ ∃ x y, upair x y ∈ u_edges g ∧ f !! x = Some a ∧ f !! y = Some b)) ∧
  (∀ n, n ∈ u_nodes g → f !! n = None → u_rename_nodes g o flip f = Raise KeyError).
Proof.
  rewrite ug_wf_ok. intros [Hg Hov]. unfold u_rename_nodes. split.
  - intros Hf. rewrite decide_True by exact Hf.
    destruct (rename_loop f flip (oa o [201] (u_edges g)) ∅) as (E & -> & HE).
    { intros e He. apply elem_of_oa in He. pose proof (uok_irr g Hg _ He) as Hlt. split; [done|]. rewrite <-(upair_id e) in He by done.
      apply Hov in He as [??]. auto. }
    cbn [res_bind]. set (N := set_map _ _ : nset). eexists. split; [done|]. destruct (ug_make_ok o flip N E) as (H1 & H2 & H3 & H4).
    assert (∀ a, a ∈ N ↔ ∃ n, n ∈ u_nodes g ∧ f !! n = Some a) as HN.
    { intros a. unfold N. rewrite elem_of_map. split.
      - intros (n & -> & Hn). exists n. split; [done|]. destruct (Hf n Hn) as [b Hb]. by rewrite Hb.
      - intros (n & Hn & Ha). exists n. by rewrite Ha. }
    assert (∀ a b, adjacent E a b ↔ ∃ x y, upair x y ∈ u_edges g ∧ f !! x = Some a ∧ f !! y = Some b) as HE'.
    { intros a b. rewrite HE. setoid_rewrite elem_of_oa. split; [|by right]. intros [[?|?]|?]; [set_solver|set_solver|done]. }
    split; [by apply ug_wf_ok|]. split.
    + intros a. rewrite H4, HN. split; [|by left]. intros [?|(b & _ & Hab)]; [done|]. apply HE' in Hab as (x & y & Hxy & Hx & _). exists x. split; [|done].
      by apply Hov in Hxy as [? _].
    + intros a b. rewrite H3. fold (adjacent E a b). by rewrite HE'.
  - intros n Hn Hf. rewrite decide_False; [done|]. intros H. destruct (H n Hn) as [? ?]. congruence.
Qed.

(** The handshake lemma. *)
Lemma zsum_nat (l : list nat) : foldr Z.add 0%Z (Z.of_nat <$> l) = Z.of_nat (sum_list l).
Proof. induction l as [|x l IH]; cbn; [done|]. rewrite IH. lia. Qed.
Lemma zsum_perm l l' : l ≡ₚ l' → foldr Z.add 0%Z l = foldr Z.add 0%Z l'.
Proof. induction 1; cbn; lia. Qed.
Theorem C112_degrees g o :
  ug_wf g →
  (∀ n, u_degrees g o !! n = if decide (n ∈ u_nodes g) then Some (Z.of_nat (size (unbrs g n))) else None) ∧
  foldr Z.add 0%Z (map_to_list (u_degrees g o)).*2 = (2 * Z.of_nat (u_num_edges g))%Z.
Proof.
  rewrite ug_wf_ok. intros [Hg Hov]. unfold u_degrees.
  set (L := (λ n, (n, udeg g n)) <$> on o [199] (u_nodes g)). assert (L.*1 = on o [199] (u_nodes g)) as HL1.
  { unfold L. rewrite <-list_fmap_compose. apply list_fmap_id. }
  assert (NoDup L.*1) as Hnd by (rewrite HL1; apply NoDup_on). split.
  - intros n. case_decide as Hn.
    + apply elem_of_list_to_map; [done|]. unfold L. rewrite elem_of_list_fmap. exists n. by rewrite elem_of_on, (uok_deg g Hg).
    + apply not_elem_of_list_to_map. by rewrite HL1, elem_of_on.
  - rewrite (zsum_perm _ L.*2) by (by rewrite map_to_list_to_map). unfold L. rewrite <-list_fmap_compose.
    rewrite (list_fmap_ext _ (Z.of_nat ∘ (λ n, size (unbrs g n)))) by (intros; cbn; by rewrite (uok_deg g Hg)).
    rewrite list_fmap_compose, zsum_nat, (sum_unbrs g) by (done || apply on_listing). unfold u_num_edges. lia.
Qed.

Definition cv_ug : ug := ug_make oracle0 (λ _, false) {[1; 2; 5; 9]} {[(2, 1); (5, 2); (1, 5)]}.
Example C112_example :
  u_edges cv_ug = {[(1, 2); (2, 5); (1, 5)]} ∧ u_nodes cv_ug = {[1; 2; 5; 9]} ∧
  match u_to_amat cv_ug oracle0 (λ _, true) (Some [9; 5; 1; 2]) false with
  | Ok A => bool_decide (value A 1 2 = 1%Z ∧ value A 3 1 = 1%Z ∧ value A 0 1 = 0%Z ∧
              u_edges (u_from_amat A oracle0 (λ _, false)) = {[(1, 2); (1, 3); (2, 3)]})
  | _ => false end = true ∧
  match u_rename_nodes cv_ug oracle0 (λ _, true) {[1 := 3; 2 := 3; 5 := 1; 9 := 2]} with
  | Ok h => bool_decide (u_edges h = {[(1, 3)]}) | _ => false end = true.
Proof. split; [by_vm|]. split; [by_vm|]. split; vm_compute; reflexivity. Qed.

(** ** C113: [DAG] and [PDAG] *)
Lemma degree_map (deg : node → nat) o k (X : nset) n :
  (list_to_map ((λ n, (n, deg n)) <$> on o k X) : gmap node nat) !! n = if decide (n ∈ X) then Some (deg n) else None.
Proof.
  set (L := (λ n, (n, deg n)) <$> on o k X). assert (L.*1 = on o k X) as HL1.
  { unfold L. rewrite <-list_fmap_compose. apply list_fmap_id. }
  case_decide as Hn.
  - apply elem_of_list_to_map; [rewrite HL1; apply NoDup_on|]. unfold L. rewrite elem_of_list_fmap. exists n. by rewrite elem_of_on.
  - apply not_elem_of_list_to_map. by rewrite HL1, elem_of_on.
Qed.
Lemma degree_sum (deg : node → nat) o k (X : nset) :
  sum_list (map_to_list (list_to_map ((λ n, (n, deg n)) <$> on o k X) : gmap node nat)).*2 = sum_list (deg <$> on o k X).
Proof.
  set (L := (λ n, (n, deg n)) <$> on o k X). assert (L.*1 = on o k X) as HL1.
  { unfold L. rewrite <-list_fmap_compose. apply list_fmap_id. }
  rewrite (map_to_list_to_map L) by (rewrite HL1; apply NoDup_on). unfold L. by rewrite <-list_fmap_compose.
Qed.
(** The degrees are the numbers of arcs into and out of each node, and each adds up to the number of arcs. *)
Theorem C113_degrees d o :
  views_agree d →
  (∀ n, in_degrees d o !! n = if decide (n ∈ d_nodes d) then Some (size (filter (λ a : arc, a.2 = n) (d_arcs d))) else None) ∧
  (∀ n, out_degrees d o !! n = if decide (n ∈ d_nodes d) then Some (size (filter (λ a : arc, a.1 = n) (d_arcs d))) else None) ∧
  sum_list (map_to_list (in_degrees d o)).*2 = num_arcs d ∧ sum_list (map_to_list (out_degrees d o)).*2 = num_arcs d ∧
  (∀ n, indegree_of d n = size (filter (λ a : arc, a.2 = n) (d_arcs d)) ∧ outdegree_of d n = size (filter (λ a : arc, a.1 = n) (d_arcs d))).
Proof.
  rewrite <-wf_views_agree. intros Hwf.
  assert (∀ n, size (parents d n) = size (filter (λ a : arc, a.2 = n) (d_arcs d))) as Hp.
  { intros n. apply (fibre_size snd fst); [intros [??] [??]; cbn; congruence|]. intros x. rewrite (wf_par d Hwf). split; [by exists (x, n)|].
    by intros ([??] & ? & ? & ?); cbn in *; subst. }
  assert (∀ n, size (children d n) = size (filter (λ a : arc, a.1 = n) (d_arcs d))) as Hc.
  { intros n. apply (fibre_size fst snd); [intros [??] [??]; cbn; congruence|]. intros x. rewrite (wf_chi d Hwf). split; [by exists (n, x)|].
    by intros ([??] & ? & ? & ?); cbn in *; subst. }
  split; [intros n; unfold in_degrees; by rewrite degree_map, Hp|]. split; [intros n; unfold out_degrees; by rewrite degree_map, Hc|].
  split; [unfold in_degrees; rewrite degree_sum; apply sum_parents; [done|apply on_listing]|].
  split; [unfold out_degrees; rewrite degree_sum; apply sum_children; [done|apply on_listing]|]. intros n. split; [apply Hp|apply Hc].
Qed.
Lemma max_of (deg : node → nat) o k (X : nset) :
  (X = ∅ ∧ py_max (deg <$> on o k X) = Raise ValueError) ∨
  (∃ m n, py_max (deg <$> on o k X) = Ok m ∧ n ∈ X ∧ deg n = m ∧ ∀ n', n' ∈ X → deg n' ≤ m).
Proof.
  destruct (py_max_ok (deg <$> on o k X)) as [[H1 H2]|(m & H1 & H2 & H3)].
  - left. split; [|done]. apply fmap_nil_inv in H1. apply set_eq. intros x. rewrite <-(elem_of_on o k X), H1. set_solver.
  - right. apply elem_of_list_fmap in H2 as (n & -> & Hn). exists (deg n), n. split; [done|]. split; [by apply elem_of_on in Hn|]. split; [done|].
    intros n' Hn'. apply H3. apply elem_of_list_fmap. exists n'. by rewrite elem_of_on.
Qed.
(** The maximum is attained and bounds every node; a graph without nodes has none. *)
Theorem C113_max_degrees d o :
  views_agree d →
  (d_nodes d = ∅ → (∃ e, max_in_degree d o = Raise e) ∧ ∃ e, max_out_degree d o = Raise e) ∧
  (d_nodes d ≠ ∅ → ∃ k k' n n', max_in_degree d o = Ok k ∧ max_out_degree d o = Ok k' ∧ n ∈ d_nodes d ∧ n' ∈ d_nodes d ∧
    size (filter (λ a : arc, a.2 = n) (d_arcs d)) = k ∧ size (filter (λ a : arc, a.1 = n') (d_arcs d)) = k' ∧
    ∀ m, m ∈ d_nodes d → size (filter (λ a : arc, a.2 = m) (d_arcs d)) ≤ k ∧ size (filter (λ a : arc, a.1 = m) (d_arcs d)) ≤ k').
Proof.
  intros Hv. destruct (C113_degrees d o Hv) as (_ & _ & _ & _ & Hdeg).
  pose proof (max_of (λ n, size (parents d n)) o [193] (d_nodes d)) as Hin. pose proof (max_of (λ n, size (children d n)) o [193] (d_nodes d)) as Hout.
  fold (max_in_degree d o) in Hin. fold (max_out_degree d o) in Hout. split.
  - intros HN. destruct Hin as [[_ Hin]|(?&n&_&H&_)]; [|rewrite HN in H; set_solver]. destruct Hout as [[_ Hout]|(?&n&_&H&_)]; [|rewrite HN in H; set_solver]. eauto.
  - intros HN. destruct Hin as [[? _]|(k & n & Hk & Hn & Hkn & Hmax)]; [done|]. destruct Hout as [[? _]|(k' & n' & Hk' & Hn' & Hkn' & Hmax')]; [done|].
    exists k, k', n, n'. split; [done|]. split; [done|]. split; [done|]. split; [done|].
    split; [rewrite <-Hkn; symmetry; apply Hdeg|]. split; [rewrite <-Hkn'; symmetry; apply Hdeg|].
    intros m Hm. destruct (Hdeg m) as [<- <-]. split; [by apply Hmax|by apply Hmax'].
Qed.

Theorem C113_arcs_at d o n :
  views_agree d →
  incoming_arcs d o n = filter (λ a : arc, a.2 = n) (d_arcs d) ∧ outgoing_arcs d o n = filter (λ a : arc, a.1 = n) (d_arcs d).
Proof.
  rewrite <-wf_views_agree. intros Hwf.
  assert (∀ (f : node → arc) l (acc : arcset) a, a ∈ foldl (λ acc p, {[f p]} ∪ acc) acc l ↔ a ∈ acc ∨ ∃ p, p ∈ l ∧ a = f p) as Hf.
  { intros f. induction l as [|p l IH]; intros acc a; cbn.
    - split; [by left|]. intros [?|(p & Hp & _)]; [done|]. by apply elem_of_nil in Hp.
    - rewrite IH, elem_of_union, elem_of_singleton. setoid_rewrite elem_of_cons. clear. naive_solver. }
  split; apply set_eq; intros [x y]; rewrite elem_of_filter; cbn.
  - unfold incoming_arcs. rewrite (Hf (λ p, (p, n))). setoid_rewrite elem_of_on. setoid_rewrite (wf_par d Hwf). split; [|naive_solver].
    intros [?|(p & ? & [= -> ->])]; [set_solver|done].
  - unfold outgoing_arcs. rewrite (Hf (λ p, (n, p))). setoid_rewrite elem_of_on. setoid_rewrite (wf_chi d Hwf). split; [|naive_solver].
    intros [?|(p & ? & [= -> ->])]; [set_solver|done].
Qed.

Theorem C113_nx_round_trip d o o' :
  views_agree d → acyclic (d_arcs d) →
  nx_directed (to_nx d o) = true ∧ nx_nodes (to_nx d o) = d_nodes d ∧ nx_edges (to_nx d o) = d_arcs d ∧
  ∃ d', from_nx (to_nx d o) o' = Ok d' ∧ views_agree d' ∧ dag_eqb d' d = true.
Proof.
  intros Hv Hac. pose proof (proj2 (wf_views_agree d) Hv) as Hwf. unfold to_nx.
  destruct (nx_fold_edges (oa o [197] (d_arcs d)) (nx_add_nodes_from (on o [196] (d_nodes d)) (Nx true ∅ ∅)) eq_refl) as (H1 & H2 & H3).
  set (G := foldl _ _ _) in *. assert (nx_nodes G = d_nodes d) as HN.
  { apply set_eq. intros x. rewrite H3. cbn. rewrite elem_of_union, elem_of_list_to_set, elem_of_on. split.
    - intros [[?|?]|([a b] & Ha & Hx)]; [done|set_solver|]. apply elem_of_oa in Ha. apply (wf_over d Hwf) in Ha. cbn in Hx. naive_solver.
    - intros ?. by left; left. }
  assert (nx_edges G = d_arcs d) as HE.
  { apply set_eq. intros a. rewrite H2. cbn. rewrite elem_of_union, elem_of_list_to_set, elem_of_oa. set_solver. }
  split; [done|]. split; [done|]. split; [done|]. unfold from_nx. rewrite H1, HN, HE.
  destruct (dag_make_ok o' (d_nodes d) (d_arcs d) Hac) as [d' Hd']. exists d'. split; [done|].
  apply dag_make_spec in Hd' as (Hwf' & _ & HE' & HN'). split; [by apply wf_views_agree|]. unfold dag_eqb. rewrite HE', HN'.
  rewrite !bool_decide_eq_true_2; [done|done|]. apply set_eq. intros x. rewrite !elem_of_union, !elem_of_map. split; [|by left; left].
  intros [[?|([a b] & -> & Ha)]|([a b] & -> & Ha)]; [done| |]; apply (wf_over d Hwf) in Ha; tauto.
Qed.
(** A networkx graph is accepted if it is directed and acyclic, and then nothing is lost. *)
Theorem C113_from_nx G o :
  over (nx_nodes G) (nx_edges G) →
  (∀ d, from_nx G o = Ok d → nx_directed G = true ∧ acyclic (nx_edges G) ∧ views_agree d ∧ d_nodes d = nx_nodes G ∧ d_arcs d = nx_edges G) ∧
  (nx_directed G = true → acyclic (nx_edges G) → ∃ d, from_nx G o = Ok d).
Proof.
  intros Hov. unfold from_nx. split.
  - intros d. destruct (nx_directed G); [|done]. intros Hd. apply dag_make_spec in Hd as (Hwf & Hac & HE & HN). rewrite HE in Hac.
    split; [done|]. split; [done|]. split; [by apply wf_views_agree|]. split; [|done]. rewrite HN. apply set_eq. intros x. rewrite !elem_of_union, !elem_of_map.
    split; [|by left; left]. intros [[?|([a b] & -> & Ha)]|([a b] & -> & Ha)]; [done| |]; apply Hov in Ha; tauto.
  - intros -> Hac. by apply dag_make_ok.
Qed.

(** The arcs named by the non-zero entries of a data frame. *)
Definition names (D : dataframe) (x y : node) : Prop :=
  ∃ i j, df_index D !! i = Some x ∧ df_columns D !! j = Some y ∧ value (df_at D) i j ≠ 0%Z.
Theorem C113_from_dataframe (D : dataframe) (o : oracle) (E : arcset) :
  length (df_index D) = a_rows (df_at D) → length (df_columns D) = a_cols (df_at D) → (∀ x y, (x, y) ∈ E ↔ names D x y) →
  (acyclic E → ∃ d, from_dataframe D o = Ok d ∧ views_agree d ∧ d_arcs d = E ∧ ∀ x, x ∈ d_nodes d ↔ x ∈ df_index D ∨ x ∈ df_columns D) ∧
  (¬ acyclic E → ∃ e, from_dataframe D o = Raise e).
Proof.
  intros Hr Hc HE. set (d0 := dag_init (list_to_set (df_index D) ∪ list_to_set (df_columns D))).
  assert (∀ x, x ∈ d_nodes d0 ↔ x ∈ df_index D ∨ x ∈ df_columns D) as HN0 by (intros x; cbn; by rewrite elem_of_union, !elem_of_list_to_set).
  assert (∀ x y, df_arc D (df_entries D) x y ↔ (x, y) ∈ E) as Hdf.
  { intros x y. rewrite HE. unfold df_arc, names. setoid_rewrite elem_of_df_entries. rewrite <-Hr, <-Hc. split.
    - intros (i & j & _ & ? & ? & ?). by exists i, j.
    - intros (i & j & Hi & Hj & ?). exists i, j. apply lookup_lt_Some in Hi as ?. apply lookup_lt_Some in Hj as ?. done. }
  assert (acyclic (d_arcs d0)) as Hac0 by (intros x Hx; clear -Hx; induction Hx; set_solver).
  assert (from_dataframe D o = returned (mfor (df_entries D) (df_step D o) d0)) as -> by done.
  destruct (df_loop D o (df_entries D) d0) as [(d' & -> & H1 & H2 & H3 & H4)|(s & e & -> & H1)];
    [apply wf_init|done| |intros x Hx; apply HN0; by left|intros x Hx; apply HN0; by right| |].
  { intros i j [Hi Hj]%elem_of_df_entries. rewrite <-Hr in Hi. rewrite <-Hc in Hj. split; by apply lookup_lt_is_Some. }
  - assert (d_arcs d' = E) as HE'.
    { apply set_eq. intros [x y]. rewrite H4, Hdf. cbn. set_solver. }
    split; [|intros Hno; rewrite HE' in H2; done]. intros _. exists d'. split; [done|]. split; [by apply wf_views_agree|]. split; [done|]. by rewrite H3.
  - split; [|intros _; by exists e]. intros HacE. exfalso. apply (H1 E); [cbn; set_solver|intros x y H; by apply Hdf|done].
Qed.
Theorem C113_dataframe_round_trip d o o' nl :
  views_agree d → acyclic (d_arcs d) → (∀ x l, nl = Some (x :: l) → listing (d_nodes d) (x :: l)) →
  ∃ D d', to_dataframe d o nl = Ok D ∧ (∀ x l, nl = Some (x :: l) → df_index D = x :: l) ∧ df_columns D = df_index D ∧
    listing (d_nodes d) (df_index D) ∧ from_dataframe D o' = Ok d' ∧ views_agree d' ∧ dag_eqb d' d = true.
Proof.
  intros Hv Hac Hnl. destruct (C29_to_amat d o nl Hv Hnl) as (A & l & HA & Hl & Hnl' & Hr & Hc & Hval).
  assert (length l = size (d_nodes d)) as Hlen by by apply listing_length.
  exists (Df A l l). unfold to_dataframe. rewrite HA. cbn [res_bind fst snd]. unfold df_make. rewrite decide_True by lia.
  destruct (C113_from_dataframe (Df A l l) o' (d_arcs d)) as [H _]; [cbn; lia|cbn; lia| |].
  - intros x y. unfold names. cbn. split.
    + intros Ha. destruct Hv as (_ & _ & _ & Hov). destruct (Hov x y Ha) as [Hx Hy]. apply Hl in Hx, Hy.
      apply elem_of_list_lookup in Hx as [i Hi]. apply elem_of_list_lookup in Hy as [j Hj]. exists i, j. rewrite (Hval i j x y) by done. by rewrite decide_True.
    + intros (i & j & Hi & Hj & H). rewrite (Hval i j x y) in H by done. by case_decide.
  - destruct (H Hac) as (d' & Hd' & Hv' & HE & HN). exists d'. split; [done|]. split; [done|]. split; [done|]. split; [done|]. split; [done|]. split; [done|].
    unfold dag_eqb. rewrite HE, !bool_decide_eq_true_2; [done|done|]. apply set_eq. intros x. rewrite HN. cbn. destruct Hl as [_ Hl]. rewrite Hl. tauto.
Qed.

(** ** Sparsity *)
Lemma qn_mul a b : (qn (a * b) = qn a * qn b)%Qc.
Proof. apply Qc_eq_this. rewrite this_mul, !this_qz, Nat2Z.inj_mul, QArith_base.inject_Z_mult. reflexivity. Qed.
Lemma ratio_one (s : Qc) (a K : nat) : 0 < K → (s * qn K = qn a)%Qc →
  (0 <= s)%Qc ∧ (a ≤ K → (s <= 1)%Qc) ∧ (s = 0%Qc ↔ a = 0) ∧ (s = 1%Qc ↔ a = K).
Proof.
  intros HK Hs. pose proof (qn_pos K HK) as HKp. pose proof (qn_nonneg a) as Ha. split_and!.
  - destruct (Qclt_le_dec s 0) as [Hc|]; [|done]. exfalso. qnra.
  - intros Hle. replace K with (a + (K - a)) in Hs, HKp by lia. rewrite qn_add in Hs, HKp. pose proof (qn_nonneg (K - a)).
    destruct (Qclt_le_dec 1 s) as [Hc|]; [|done]. exfalso. qnra.
  - split; [|intros ->].
    + intros ->. rewrite Qcmult_0_l in Hs. assert (Z.of_nat 0 = Z.of_nat a) by (by apply qz_inj). lia.
    + change (qn 0) with 0%Qc in Hs. apply Qcmult_integral in Hs as [?|Hq]; [done|]. exfalso. by apply (qn_ne K).
  - split; [|intros ->].
    + intros ->. rewrite Qcmult_1_l in Hs. apply qz_inj in Hs. lia.
    + assert ((s - 1) * qn K = 0)%Qc as H by (transitivity (s * qn K - qn K)%Qc; [ring|rewrite Hs; ring]).
      apply Qcmult_integral in H as [H|Hq]; [|exfalso; by apply (qn_ne K)]. transitivity (s - 1 + 1)%Qc; [ring|rewrite H; ring].
Qed.
Theorem C113_sparsity d :
  views_agree d → acyclic (d_arcs d) →
  (size (d_nodes d) < 2 → ∃ e, sparsity d = Raise e) ∧
  (2 ≤ size (d_nodes d) → ∃ s, sparsity d = Ok s ∧ (0 <= s)%Qc ∧ (s <= 1)%Qc ∧
    (s * (qz (Z.of_nat (size (d_nodes d))) * (qz (Z.of_nat (size (d_nodes d))) - 1)) = (1 + 1) * qz (Z.of_nat (num_arcs d)))%Qc ∧
    (s = 0%Qc ↔ d_arcs d = ∅) ∧
    (s = 1%Qc ↔ ∀ x y, x ∈ d_nodes d → y ∈ d_nodes d → x ≠ y → adjacent (d_arcs d) x y)).
Proof.
  rewrite <-wf_views_agree. intros Hwf Hac. unfold sparsity, num_arcs. cbn zeta. set (p := size (d_nodes d)). set (a := size (d_arcs d)). split.
  { intros Hp. rewrite decide_True by lia. by eexists. }
  intros Hp. rewrite decide_False by lia. eexists. split; [done|]. set (s := (_ * (1 + 1))%Qc).
  assert (qn p - 1 = qn (p - 1))%Qc as Hp1.
  { replace p with (S (p - 1)) at 1 by lia. rewrite qn_S. ring. }
  assert (s * qn (p * (p - 1)) = qn (2 * a))%Qc as Hs.
  { rewrite !qn_mul. unfold s. rewrite Hp1. change (qn 2) with (1 + 1)%Qc. field. split; apply qn_ne; lia. }
  assert (∀ x y, (x, y) ∈ d_arcs d → (y, x) ∉ d_arcs d) as Hasym.
  { intros x y H1 H2. apply (Hac x). eapply tc_l; [exact H1|]. by apply tc_once. }
  assert (both (d_arcs d) ⊆ all_pairs (d_nodes d)) as Hsub.
  { intros [x y] [H|H]%elem_of_both; apply elem_of_all_pairs; pose proof (wf_over d Hwf _ _ H) as [??]; (split; [done|]; split; [done|]);
      intros ->; by apply (Hasym y y). }
  assert (size (both (d_arcs d)) = 2 * a) as Hb by by apply both_size.
  pose proof (all_pairs_size (d_nodes d)) as Hall. fold p in Hall.
  assert (2 * a ≤ p * (p - 1)) as Hle by (rewrite <-Hb, <-Hall; by apply subseteq_size).
  destruct (ratio_one s (2 * a) (p * (p - 1))) as (H1 & H2 & H3 & H4); [nia|done|].
  split; [done|]. split; [by apply H2|]. split; [|split].
  - rewrite Hp1, <-qn_mul, Hs, qn_mul. done.
  - rewrite H3. unfold a. split; [|by intros ->]. intros H. apply leibniz_equiv, size_empty_inv. lia.
  - rewrite H4. split.
    + intros Heq x y Hx Hy Hne. apply elem_of_both. rewrite (subset_full _ _ Hsub) by lia. by apply elem_of_all_pairs.
    + intros Hfull. rewrite <-Hb, <-Hall. f_equal. apply set_eq. intros [x y]. split; [apply Hsub|]. intros (?&?&?)%elem_of_all_pairs. apply elem_of_both. by apply Hfull.
Qed.

(** ** [PDAG] *)
(** An undirected [PDAG] keeps its edges; nodes without an edge are lost. *)
Theorem C113_pdag_nx_partial g o o' :
  pdag_wf g → p_arcs g = ∅ →
  ∃ G, p_to_nx g o = Ok G ∧ nx_edges G = p_edges g ∧ pdag_wf (p_from_nx G o') ∧ p_arcs (p_from_nx G o') = ∅ ∧
    p_edges (p_from_nx G o') = p_edges g ∧
    (∀ x, x ∈ p_nodes (p_from_nx G o') ↔ x ∈ p_nodes g ∧ ∃ y, upair x y ∈ p_edges g).
Proof.
  rewrite <-pok_pdag_wf. intros Hg Harcs. unfold p_to_nx. rewrite decide_True by done.
  destruct (nx_frozen_ok (oa o [198] (p_edges g)) (Nx false ∅ ∅)) as (G & HG & _ & H2 & H3); [done| |].
  { intros e He. apply elem_of_oa in He. by apply (pok_edge g Hg). }
  assert (nx_edges G = p_edges g) as HE.
  { apply set_eq. intros a. rewrite H2. cbn. rewrite elem_of_union, elem_of_list_to_set, elem_of_oa. set_solver. }
  assert (∀ x y, adjacent (p_edges g) x y ↔ upair x y ∈ p_edges g) as Hadj.
  { intros x y. split.
    - intros [H|H]; pose proof (pok_edge g Hg _ H) as Hlt; cbn in Hlt; [by rewrite upair_lt_id|by rewrite upair_comm, upair_lt_id].
    - intros H. pose proof (pok_edge g Hg _ H) as Hlt. unfold upair in *. cbn in Hlt. destruct (Nat.lt_total x y) as [?|[?|?]]; [left|lia|right].
      + by rewrite Nat.min_l, Nat.max_r in H by lia.
      + by rewrite Nat.min_r, Nat.max_l in H by lia. }
  exists G. split; [done|]. split; [done|]. unfold p_from_nx. rewrite HE.
  destruct (pdag_make_ok o' (nx_nodes G) ∅ (p_edges g) ∅) as (K1 & K2 & _ & K4 & _ & _ & K7).
  { intros x y H. set_solver. } { intros x H. apply (pok_edge g Hg) in H. cbn in H. lia. } { intros x y _ [H|H]; set_solver. }
  split; [by apply pok_pdag_wf|]. split; [done|]. split.
  - apply set_eq. intros [x y]. split; intros H.
    + pose proof (pok_edge _ K1 _ H) as Hlt. cbn in Hlt. rewrite <-(upair_lt_id x y) in H |- * by done. by apply Hadj, K4.
    + pose proof (pok_edge g Hg _ H) as Hlt. cbn in Hlt. rewrite <-(upair_lt_id x y) in H |- * by done. by apply K4, Hadj.
  - intros x. rewrite K7, H3. cbn. split.
    + assert (∀ y, upair x y ∈ p_edges g → x ∈ p_nodes g ∧ ∃ y, upair x y ∈ p_edges g) as Hend.
      { intros y Hy. split; [|by exists y]. destruct (pok_over g Hg) as [_ Hov]. by apply Hadj in Hy as [Hy|Hy]; apply Hov in Hy as [??]. }
      intros [[?|([a b] & Ha & Hx)]|(y & [[?|?]|Hy])]; [set_solver| |set_solver|set_solver|by apply (Hend y), Hadj].
      apply elem_of_oa in Ha. destruct Hx as [->| ->]; cbn.
      * apply (Hend b), Hadj. by left.
      * apply (Hend a), Hadj. by right.
    + intros (_ & y & Hy). right. exists y. right. by apply Hadj.
Qed.
Theorem C113_pdag_nx_refuted :
  ∃ g, pdag_wf g ∧ p_arcs g = ∅ ∧
    match p_to_nx g oracle0 with Ok G => bool_decide (p_nodes (p_from_nx G oracle0) = p_nodes g) | _ => true end = false.
Proof.
  exists (pdag_make oracle0 {[1; 2; 3]} ∅ {[(1, 2)]} ∅). split; [|split; [by_vm|vm_compute; reflexivity]]. apply pok_pdag_wf.
  destruct (pdag_make_ok oracle0 {[1; 2; 3]} ∅ {[(1, 2)]} ∅) as [H _]; [intros x y H; set_solver| |intros x y _ [H|H]; set_solver|exact H].
  intros x H. apply elem_of_singleton in H. congruence.
Qed.
(** With an arc the conversion is refused. *)
Theorem C113_pdag_nx_arcs g o a : a ∈ p_arcs g → ∃ e, p_to_nx g o = Raise e.
Proof. intros Ha. unfold p_to_nx. rewrite decide_False; [by eexists|]. intros H. rewrite H in Ha. set_solver. Qed.

Definition cv_dag : dag := dag_of {[7]} {[(1, 2); (1, 3); (2, 3); (3, 4)]}.
Example C113_example :
  views_agree cv_dag ∧ d_nodes cv_dag = {[1; 2; 3; 4; 7]} ∧ max_in_degree cv_dag oracle0 = Ok 2 ∧
  match sparsity cv_dag with Ok s => bool_decide (s = qz 2 / qz 5)%Qc | _ => false end = true ∧
  match to_dataframe cv_dag oracle0 (Some [4; 3; 2; 1; 7]) with
  | Ok D => match from_dataframe D oracle0 with Ok d => dag_eqb d cv_dag | _ => false end | _ => false end = true ∧
  match from_dataframe (Df (Amat 2 2 {[(0, 1) := 1%Z; (1, 0) := 3%Z]}) [1; 2] [1; 2]) oracle0 with Ok _ => false | _ => true end = true.
Proof. split; [apply wf_views_agree, dag_of_wf|]. split; [by_vm|]. split; [vm_compute; reflexivity|]. split; [vm_compute; reflexivity|]. split; vm_compute; reflexivity. Qed.

Print Assumptions C112_constructor.
Print Assumptions C112_to_amat.
Print Assumptions C112_from_amat.
Print Assumptions C112_round_trip.
Print Assumptions C112_nx_round_trip.
Print Assumptions C112_copy.
Print Assumptions C112_copy_refuted.
Print Assumptions C112_rename.
Print Assumptions C112_degrees.
Print Assumptions C113_degrees.
Print Assumptions C113_max_degrees.
Print Assumptions C113_arcs_at.
Print Assumptions C113_nx_round_trip.
Print Assumptions C113_from_nx.
Print Assumptions C113_from_dataframe.
Print Assumptions C113_dataframe_round_trip.
Print Assumptions C113_sparsity.
Print Assumptions C113_pdag_nx_partial.
Print Assumptions C113_pdag_nx_refuted.
Print Assumptions C113_pdag_nx_arcs.
