(** Final theorems about the matrices of [AncestralGraph] and [PAG]: C42. *)
From Coq Require Import ZArith.
From Verif Require Import Py Spec SpecMixed DagModel UGraphModel PdagModel CompareModel AncestralModel MagMatModel
  TopoProofs StateProofs UGraphProofs PdagProofs QueryProofs MatProofs AncestralState AncestralProofs AncestralCopy MWalkProofs MsepProofs MagMatProofs PropertiesAncestral.
#[local] Open Scope nat_scope.

(** The nodes are 0, ..., n-1. *)
Definition numbered (N : nset) : Prop := ∀ x, x ∈ N ↔ x < size N.
Lemma numbered_upto N : numbered N → N = upto (size N).
Proof. intros H. apply set_eq. intros x. by rewrite elem_of_upto. Qed.
Lemma upto_numbered n : numbered (upto n).
Proof. intros x. by rewrite size_upto, elem_of_upto. Qed.

(** 0 -> 1 <-> 2, 3 - 4, 5 isolated. *)
Definition am_ag : ag := (ag_new {[5]} [(0, 1)] [(2, 1)] [(3, 4)]).1.
Lemma am_wf : ag_wf am_ag. Proof. by apply new_gok_wf. Qed.
Lemma am_num : numbered (g_nodes am_ag).
Proof. assert (g_nodes am_ag = upto 6) as -> by (apply (bool_decide_unpack _); by vm_compute). apply upto_numbered. Qed.

(** Entry (i, j): 2 for an arrowhead at j, 3 for a tail at j, 0 without an edge. *)
Theorem C42_to_amat g o :
  ag_wf g → numbered (g_nodes g) →
  ∃ A, ag_to_amat g o = Ok A ∧ a_rows A = size (g_nodes g) ∧ a_cols A = size (g_nodes g) ∧
    ∀ i j, marked (gmix g) i j (entry A i j).
Proof. rewrite <-gok_ag_wf. intros Hg HN%numbered_upto. by apply ag_to_amat_ok. Qed.

(** [from_amat] on a square matrix, given how its entries are to be read. *)
Lemma from_amat_spec A o :
  a_rows A = a_cols A →
  ∃ D B U, ag_from_amat A o = ag_make (upto (a_rows A)) (oa o [105] (list_to_set D)) (oa o [106] (list_to_set B)) (oa o [107] (list_to_set U)) ∧
    let G := lmix (oa o [105] (list_to_set D)) (oa o [106] (list_to_set B)) (oa o [107] (list_to_set U)) in
    (∀ e : arc, e ∈ oa o [105] (list_to_set D) ++ oa o [106] (list_to_set B) ++ oa o [107] (list_to_set U) →
      e.1 ≠ e.2 ∧ e.1 < a_rows A ∧ e.2 < a_rows A) ∧
    ∀ i j, i < a_rows A → j < a_rows A → i ≠ j →
      ((i, j) ∈ mx_dir G ↔ entry A i j = 2%Z ∧ entry A j i = 3%Z) ∧
      (spouse G i j ↔ entry A i j = 2%Z ∧ entry A j i = 2%Z) ∧
      (neighbor G i j ↔ entry A i j = 3%Z ∧ entry A j i = 3%Z).
Proof.
  intros Hsq. unfold ag_from_amat. set (ps := combinations2 _).
  assert (∀ i j, (i, j) ∈ ps → i ≠ j ∧ i < a_rows A ∧ j < a_rows A) as Hps.
  { intros i j (Hne & Hi & Hj)%combinations2_ne; [|apply NoDup_on]. by rewrite elem_of_on, elem_of_upto in Hi, Hj. }
  assert (∀ i j, i < a_rows A → j < a_rows A → i ≠ j → (i, j) ∈ ps ∨ (j, i) ∈ ps) as Hall.
  { intros i j Hi Hj Hne. destruct (combinations2_total (on o [104] (upto (a_rows A))) i j) as [[H _]|[H _]]; auto;
      [apply NoDup_on|by rewrite elem_of_on, elem_of_upto..]. }
  destruct (read_pairs_ok A ps) as (D & B & U & -> & HD & HB & HU); [intros i j H; apply Hps in H; tauto|done|].
  cbn [res_bind]. exists D, B, U. split; [done|]. cbn zeta. split.
  - intros [i j]. rewrite !elem_of_app, !elem_of_oa, !elem_of_list_to_set. cbn [fst snd].
    intros [[[H|H] _]%HD|[[H _]%HB|[H _]%HU]]; apply Hps in H; naive_solver.
  - intros i j Hi Hj Hne. unfold spouse, neighbor. cbn. rewrite !elem_of_list_to_set, !elem_of_oa, !elem_of_list_to_set, HD, !HB, !HU.
    specialize (Hall i j Hi Hj Hne). tauto.
Qed.

Theorem C42_ag_roundtrip g o o' :
  ag_wf g → numbered (g_nodes g) →
  ∃ A h, ag_to_amat g o = Ok A ∧ ag_from_amat A o' = Ok h ∧ ag_wf h ∧ ag_eqb g h = true.
Proof.
  intros Hw HN. destruct (C42_to_amat g o Hw HN) as (A & EA & Hr & Hc & Hm). pose proof Hw as Hg. rewrite <-gok_ag_wf in Hg.
  destruct (from_amat_spec A o') as (D & B & U & Eh & Hin & Hread); [congruence|]. cbn zeta in Hread. rewrite Hr in *.
  set (lD := oa o' [105] (list_to_set D)) in *. set (lB := oa o' [106] (list_to_set B)) in *. set (lU := oa o' [107] (list_to_set U)) in *.
  pose proof (gmix_simple g Hg) as Hsi.
  assert (∀ i j, into (gmix g) i j → entry A i j = 2%Z) as M2.
  { intros i j Hi. destruct (Hm i j) as [[-> _]|[[_ H]|[_ H]]]; [done| |exfalso; apply H; unfold into, madj in *; tauto].
    exfalso. destruct Hi as [Hd|Hs], H as [Hd'|Hn].
    - by destruct (simple_dir _ Hsi i j Hd) as (? & _).
    - by destruct (simple_dir _ Hsi i j Hd) as (_ & _ & ?).
    - destruct (simple_dir _ Hsi j i Hd') as (_ & Hns & _). by apply Hns, spouse_sym.
    - by apply (simple_bi _ Hsi i j). }
  assert (∀ i j, (j, i) ∈ g_dir g ∨ neighbor (gmix g) i j → entry A i j = 3%Z) as M3.
  { intros i j Ht. destruct (Hm i j) as [[_ H]|[[-> _]|[_ H]]]; [|done|exfalso; apply H; unfold madj in *; cbn in *; tauto].
    exfalso. destruct H as [Hd|Hs], Ht as [Hd'|Hn].
    - by destruct (simple_dir _ Hsi i j Hd) as (? & _).
    - by destruct (simple_dir _ Hsi i j Hd) as (_ & _ & ?).
    - destruct (simple_dir _ Hsi j i Hd') as (_ & Hns & _). by apply Hns, spouse_sym.
    - by apply (simple_bi _ Hsi i j). }
  assert (∀ i j, entry A i j = 2%Z → into (gmix g) i j) as M2'.
  { intros i j E. destruct (Hm i j) as [[_ H]|[[E' _]|[E' _]]]; [done|congruence|congruence]. }
  assert (∀ i j, entry A i j = 3%Z → (j, i) ∈ g_dir g ∨ neighbor (gmix g) i j) as M3'.
  { intros i j E. destruct (Hm i j) as [[E' _]|[[_ H]|[E' _]]]; [congruence|done|congruence]. }
  assert (∀ i j, madj (gmix g) i j → i ≠ j ∧ i < size (g_nodes g) ∧ j < size (g_nodes g)) as Hadj.
  { intros i j Ha. split; [intros ->; by apply (simple_irr _ Hsi j)|]. apply (madj_nodes g Hg) in Ha. split; apply HN; tauto. }
  assert (∀ i j, madj (lmix lD lB lU) i j → i ≠ j ∧ i < size (g_nodes g) ∧ j < size (g_nodes g)) as Hadj'.
  { intros i j Ha. unfold madj, spouse, neighbor in Ha. cbn in Ha. rewrite !elem_of_list_to_set in Ha.
    assert ((i, j) ∈ lD ++ lB ++ lU ∨ (j, i) ∈ lD ++ lB ++ lU) as [H|H] by (rewrite !elem_of_app; tauto);
      apply Hin in H; cbn in H; naive_solver. }
  assert ((∀ x y, (x, y) ∈ mx_dir (lmix lD lB lU) ↔ (x, y) ∈ g_dir g) ∧
    (∀ x y, spouse (lmix lD lB lU) x y ↔ spouse (gmix g) x y) ∧ (∀ x y, neighbor (lmix lD lB lU) x y ↔ neighbor (gmix g) x y)) as (SD & SB & SU).
  { split_and!; intros x y; split; intros H.
    - destruct (Hadj' x y) as (H1 & H2 & H3); [unfold madj; tauto|]. apply (Hread x y H2 H3 H1) in H as [E2 E3].
      apply M2' in E2 as [?|Hs]; [done|]. apply M3' in E3 as [?|Hn]; [done|]. exfalso. by apply (simple_bi _ Hsi x y), neighbor_sym.
    - destruct (Hadj x y) as (H1 & H2 & H3); [unfold madj; tauto|]. apply (Hread x y H2 H3 H1). split; [apply M2; by left|apply M3; by left].
    - destruct (Hadj' x y) as (H1 & H2 & H3); [unfold madj; tauto|]. apply (Hread x y H2 H3 H1) in H as [E2 E3].
      apply M2' in E2 as [Hd|Hs]; [|done]. apply M2' in E3 as [Hd'|Hs]; [|by apply spouse_sym]. by destruct (simple_dir _ Hsi x y Hd) as (? & _).
    - destruct (Hadj x y) as (H1 & H2 & H3); [unfold madj; tauto|]. apply (Hread x y H2 H3 H1). split; apply M2; right; [done|by apply spouse_sym].
    - destruct (Hadj' x y) as (H1 & H2 & H3); [unfold madj; tauto|]. apply (Hread x y H2 H3 H1) in H as [E2 E3].
      apply M3' in E2 as [Hd|Hn]; [|done]. apply M3' in E3 as [Hd'|Hn]; [|by apply neighbor_sym]. by destruct (simple_dir _ Hsi x y Hd') as (? & _).
    - destruct (Hadj x y) as (H1 & H2 & H3); [unfold madj; tauto|]. apply (Hread x y H2 H3 H1). split; apply M3; right; [done|by apply neighbor_sym]. }
  destruct (spouse_same (gmix g) (lmix lD lB lU)) as [T1 T2]; [intros x y; by rewrite SB|intros x y; by rewrite SU| |].
  { apply set_eq. intros [x y]. by rewrite SD. }
  destruct (C69_constructor (upto (size (g_nodes g))) lD lB lU) as (h & Emk & Hh & HN' & HD' & HB' & HU'); [by apply T1|apply T2, gmix_separate, Hg|].
  exists A, h. split; [done|]. split; [congruence|]. split; [done|]. apply C67_eq; [done|done|]. split_and!.
  - intros x. rewrite HN', elem_of_upto, (HN x). split; [by left|]. intros [?|(e & He & [-> | ->])]; [done| |]; apply Hin in He; tauto.
  - intros x y. rewrite <-SD. cbn. by rewrite elem_of_list_to_set, HD'.
  - intros x y. rewrite <-SB, HB'. unfold spouse. cbn. by rewrite !elem_of_list_to_set.
  - intros x y. rewrite <-SU, HU'. unfold neighbor. cbn. by rewrite !elem_of_list_to_set.
Qed.
Example C42_ag_example :
  ag_wf am_ag ∧ numbered (g_nodes am_ag) ∧
  match ag_to_amat am_ag oracle0 with Ok A => bool_decide (entry A 0 1 = 2%Z ∧ entry A 1 0 = 3%Z ∧ entry A 1 2 = 2%Z ∧ entry A 3 4 = 3%Z ∧ entry A 0 5 = 0%Z) | _ => false end = true.
Proof. split; [apply am_wf|]. split; [apply am_num|]. by vm_compute. Qed.

(** Conversely, a matrix whose pairs of entries are all meaningful is given back
    by [to_amat], provided the constructor accepts its edges. *)
Definition mag_matrix (A : amat) : Prop :=
  a_rows A = a_cols A ∧ (∀ i, i < a_rows A → entry A i i = 0%Z) ∧
  ∀ i j, i < a_rows A → j < a_rows A →
    (entry A i j = 0%Z ∧ entry A j i = 0%Z) ∨ ((entry A i j = 2%Z ∨ entry A i j = 3%Z) ∧ (entry A j i = 2%Z ∨ entry A j i = 3%Z)).
Theorem C42_ag_matrix_roundtrip A o o' g :
  mag_matrix A → ag_from_amat A o = Ok g →
  ag_wf g ∧ ∃ A', ag_to_amat g o' = Ok A' ∧ a_rows A' = a_rows A ∧ a_cols A' = a_cols A ∧
    ∀ i j, i < a_rows A → j < a_rows A → entry A' i j = entry A i j.
Proof.
  intros (Hsq & Hdiag & Hpair) Eg. destruct (from_amat_spec A o Hsq) as (D & B & U & Eh & Hin & Hread). cbn zeta in Hread.
  set (lD := oa o [105] (list_to_set D)) in *. set (lB := oa o [106] (list_to_set B)) in *. set (lU := oa o [107] (list_to_set U)) in *.
  rewrite Eh in Eg. destruct (C69_constructor_rejects _ _ _ _ _ (λ e He, proj1 (Hin e He)) Eg) as [Hsi Hse].
  destruct (C69_constructor (upto (a_rows A)) lD lB lU Hsi Hse) as (g' & Eg' & Hw & HN & HD & HB & HU).
  rewrite Eg in Eg'. injection Eg' as <-. split; [done|].
  assert (g_nodes g = upto (a_rows A)) as EN.
  { apply set_eq. intros x. rewrite HN, elem_of_upto. split; [|by left]. intros [?|(e & He & [-> | ->])]; [done| |]; apply Hin in He; tauto. }
  destruct (C42_to_amat g o' Hw) as (A' & EA & Hr & Hc & Hm); [rewrite EN; apply upto_numbered|].
  rewrite EN, size_upto in Hr, Hc. exists A'. split_and!; [done|done|congruence|]. intros i j Hi Hj.
  destruct (decide (i = j)) as [->|Hne].
  { rewrite Hdiag by done. destruct (Hm j j) as [[_ H]|[[_ H]|[-> _]]]; [| |done]; exfalso;
      apply (simple_irr _ (gmix_simple g (proj2 (gok_ag_wf g) Hw)) j); unfold into, madj in *; tauto. }
  assert (∀ i j, i < a_rows A → j < a_rows A → i ≠ j → ((i, j) ∈ g_dir g ↔ entry A i j = 2%Z ∧ entry A j i = 3%Z) ∧
    (spouse (gmix g) i j ↔ entry A i j = 2%Z ∧ entry A j i = 2%Z) ∧ (neighbor (gmix g) i j ↔ entry A i j = 3%Z ∧ entry A j i = 3%Z)) as Hread'.
  { intros a b Ha Hb Hab. destruct (Hread a b Ha Hb Hab) as (R1 & R2 & R3). rewrite <-R1, <-R2, <-R3, HD, HB, HU.
    unfold spouse, neighbor. cbn. by rewrite !elem_of_list_to_set. }
  destruct (Hread' i j Hi Hj Hne) as (R1 & R2 & R3). destruct (Hread' j i Hj Hi (not_eq_sym Hne)) as (R1' & _ & _).
  destruct (Hm i j) as [[-> [H|H]]|[[-> [H|H]]|[-> H]]].
  - cbn in H. apply R1 in H as [-> _]. done.
  - apply R2 in H as [-> _]. done.
  - cbn in H. apply R1' in H as [_ ->]. done.
  - apply R3 in H as [-> _]. done.
  - destruct (Hpair i j Hi Hj) as [[-> _]|[[E1|E1] [E2|E2]]]; [done|exfalso; apply H; unfold madj..]; cbn; tauto.
Qed.
Example C42_matrix_example :
  mag_matrix (Amat 2 2 {[(0, 1) := 2%Z; (1, 0) := 3%Z]}) ∧
  match ag_from_amat (Amat 2 2 {[(0, 1) := 2%Z; (1, 0) := 3%Z]}) oracle0 with Ok g => bool_decide (g_dir g = {[(0, 1)]}) | _ => false end = true.
Proof.
  split; [|by vm_compute]. split; [done|]. cbn. split.
  - intros [|[|i]] Hi; [done|done|lia].
  - intros [|[|i]] [|[|j]] Hi Hj; try lia; [by left|right..|by left]; split; auto.
Qed.
(** Nodes are used as indices: on 1 -> 2 the call fails. *)
Theorem C42_labels_refuted : ∃ g, ag_wf g ∧ ag_to_amat g oracle0 = Raise IndexError.
Proof. exists (ag_new ∅ [(1, 2)] [] []).1. split; [by apply new_gok_wf|]. by vm_compute. Qed.

(** ** [PAG] *)

(** A partial ancestral graph on 0, ..., n-1: marks only at adjacent pairs, and no
    end carries both an arrowhead and a tail.  The constructor checks nothing. *)
Record pag_wf (g : pag) : Prop := PagWf {
  pgw_nodes : numbered (pg_nodes g);
  pgw_adj : ∀ i j, (i, j) ∈ pg_adj g → i < j ∧ j ∈ pg_nodes g;
  pgw_heads : ∀ i j, (i, j) ∈ pg_heads g → upair i j ∈ pg_adj g;
  pgw_tails : ∀ i j, (i, j) ∈ pg_tails g → upair i j ∈ pg_adj g;
  pgw_disj : pg_heads g ## pg_tails g
}.
Lemma pag_ranges g : pag_wf g →
  (∀ e : arc, e ∈ pg_adj g → e.1 ≠ e.2) ∧
  (∀ e : arc, e ∈ pg_adj g ∪ pg_heads g ∪ pg_tails g → e.1 < size (pg_nodes g) ∧ e.2 < size (pg_nodes g)).
Proof.
  intros [HN HA HH HT _]. split.
  - intros [i j] H. apply HA in H as [H _]. cbn. lia.
  - assert (∀ i j, upair i j ∈ pg_adj g → i < size (pg_nodes g) ∧ j < size (pg_nodes g)) as Hu.
    { intros i j H. apply HA in H as [H1 H2%HN]. lia. }
    intros [i j] He. cbn. apply Hu. rewrite !elem_of_union in He. destruct He as [[H|H]|H]; [|by apply HH|by apply HT].
    assert (upair i j = (i, j)) as -> by (apply (upair_id (i, j)); by apply HA). done.
Qed.
Theorem C42_pag_roundtrip g o :
  pag_wf g → ∃ A, pag_to_amat g o = Ok A ∧ pag_from_amat A = g.
Proof.
  intros Hg. destruct (pag_ranges g Hg) as [H1 H2]. destruct (pag_to_amat_ok g o H1 H2) as (A & E & Hr & Hc & He).
  exists A. split; [done|]. destruct (pag_from_amat_ok A) as (F1 & F2 & F3 & F4). destruct Hg as [HN HA HH HT HD].
  assert (∀ i j, (i, j) ∈ pg_adj g ∨ (j, i) ∈ pg_adj g ↔ upair i j ∈ pg_adj g) as Hadj.
  { intros i j. symmetry. apply upair_in_lt. intros x y H. apply HA in H. tauto. }
  destruct (pag_from_amat A) as [n' a' h' t'], g as [n a h t]. cbn [pg_nodes pg_adj pg_heads pg_tails] in *. unfold pag_entry in He. cbn in He.
  rewrite Hr, Hc in *. f_equal.
  - rewrite F1. symmetry. by apply numbered_upto.
  - apply set_eq. intros e. rewrite F4. split.
    + intros (i & j & -> & _ & _ & Hv). rewrite He in Hv. repeat case_decide; [by apply HH|by apply HT|by apply Hadj|]. naive_solver lia.
    + intros Hin. destruct e as [i j]. assert (upair i j = (i, j)) as Eu by (apply (upair_id (i, j)); by apply HA).
      exists i, j. split; [done|]. destruct (H2 (i, j)) as [Hi Hj]; [rewrite !elem_of_union; auto|]. split; [done|]. split; [done|].
      rewrite He. repeat case_decide; auto. exfalso. tauto.
  - apply set_eq. intros [i j]. rewrite F2, He. split.
    + intros (_ & _ & Hv). by repeat case_decide.
    + intros Hin. destruct (H2 (i, j)) as [Hi Hj]; [rewrite !elem_of_union; auto|]. split; [done|]. split; [done|]. by rewrite decide_True.
  - apply set_eq. intros [i j]. rewrite F3, He. split.
    + intros (_ & _ & Hv). by repeat case_decide.
    + intros Hin. destruct (H2 (i, j)) as [Hi Hj]; [rewrite !elem_of_union; auto|]. split; [done|]. split; [done|].
      rewrite decide_False by (intros Hh; by apply (HD (i, j))). by rewrite decide_True.
Qed.
(** 0 o-> 1 -- 2 *)
Definition pg_ex : pag := Pag (upto 4) {[(0, 1); (1, 2)]} {[(0, 1)]} {[(1, 2); (2, 1)]}.
Lemma pg_ex_wf : pag_wf pg_ex.
Proof.
  split; unfold pg_ex; cbn [pg_nodes pg_adj pg_heads pg_tails].
  - apply upto_numbered.
  - intros i j. rewrite elem_of_union, !elem_of_singleton, elem_of_upto. intros [[= -> ->]|[= -> ->]]; lia.
  - intros i j. rewrite elem_of_singleton. intros [= -> ->]. clear. cbn. set_solver.
  - intros i j. rewrite elem_of_union, !elem_of_singleton. intros [[= -> ->]|[= -> ->]]; clear; cbn; set_solver.
  - clear. set_solver.
Qed.
Example C42_pag_example :
  pag_wf pg_ex ∧ match pag_to_amat pg_ex oracle0 with
    Ok A => bool_decide (entry A 0 1 = 2%Z ∧ entry A 1 0 = 1%Z ∧ entry A 1 2 = 3%Z ∧ entry A 2 1 = 3%Z ∧ entry A 0 3 = 0%Z) | _ => false end = true.
Proof. split; [apply pg_ex_wf|]. by vm_compute. Qed.

(** From a matrix and back: square, entries 0 to 3, zero diagonal, non-zero
    entries in symmetric positions. *)
Definition pag_matrix (A : amat) : Prop :=
  a_rows A = a_cols A ∧ (∀ i, i < a_rows A → entry A i i = 0%Z) ∧
  ∀ i j, i < a_rows A → j < a_rows A →
    (entry A i j = 0 ∨ entry A i j = 1 ∨ entry A i j = 2 ∨ entry A i j = 3)%Z ∧ (entry A i j = 0 ↔ entry A j i = 0)%Z.
Theorem C42_pag_matrix_roundtrip A o :
  pag_matrix A → ∃ A', pag_to_amat (pag_from_amat A) o = Ok A' ∧ a_rows A' = a_rows A ∧ a_cols A' = a_cols A ∧
    ∀ i j, i < a_rows A → j < a_rows A → entry A' i j = entry A i j.
Proof.
  intros (Hsq & Hdiag & Hpair). destruct (pag_from_amat_ok A) as (F1 & F2 & F3 & F4). set (g := pag_from_amat A) in *.
  assert (∀ i j, upair i j ∈ pg_adj g ↔ i < a_rows A ∧ j < a_rows A ∧ entry A i j ≠ 0%Z) as Hadj.
  { intros i j. rewrite F4. rewrite <-Hsq. split.
    - intros (x & y & Eu & Hx & Hy & Hv). apply upair_eq_or in Eu as [[-> ->]|[-> ->]]; (split; [done|]); (split; [done|]); [lia|].
      destruct (Hpair x y Hx Hy) as [_ Hz]. lia.
    - intros (Hi & Hj & Hv). exists i, j. destruct (Hpair i j Hi Hj) as [Hz _]. split_and!; [done..|]. tauto. }
  assert (∀ e : arc, e ∈ pg_adj g → e = upair e.1 e.2) as Hcan.
  { intros e (i & j & -> & _)%F4. unfold upair. cbn. f_equal; lia. }
  destruct (pag_to_amat_ok g o) as (A' & E & Hr & Hc & He).
  { intros [i j] H. pose proof (Hcan _ H) as Ec. cbn in *. rewrite Ec in H. apply Hadj in H as (Hi & Hj & Hv). intros ->. by rewrite Hdiag in Hv. }
  { rewrite F1, size_upto. intros [i j] H. cbn. rewrite !elem_of_union in H. destruct H as [[H|H]|H].
    - pose proof (Hcan _ H) as Ec. cbn in Ec. rewrite Ec in H. apply Hadj in H. tauto.
    - apply F2 in H. rewrite <-Hsq in H. tauto.
    - apply F3 in H. rewrite <-Hsq in H. tauto. }
  rewrite F1, size_upto in Hr, Hc. exists A'. split_and!; [done|done|congruence|]. intros i j Hi Hj. rewrite He. unfold pag_entry.
  destruct (Hpair i j Hi Hj) as [Hv _].
  case_decide as H1; [apply F2 in H1; symmetry; tauto|]. case_decide as H2; [apply F3 in H2; symmetry; tauto|].
  rewrite F2, <-Hsq in H1. rewrite F3, <-Hsq in H2.
  assert ((i, j) ∈ pg_adj g ∨ (j, i) ∈ pg_adj g ↔ entry A i j ≠ 0%Z) as Hor.
  { trans (upair i j ∈ pg_adj g); [|rewrite Hadj; tauto]. symmetry. apply upair_in_lt. intros x y H. pose proof (Hcan _ H) as Ec.
    unfold upair in Ec. cbn in Ec. injection Ec as E1 E2. assert (x ≠ y); [|lia]. intros ->.
    assert (upair y y ∈ pg_adj g) as Hyy by (unfold upair; by rewrite Nat.min_id, Nat.max_id).
    apply Hadj in Hyy as (Hy & _ & Hyv). by rewrite Hdiag in Hyv. }
  case_decide as H3; [apply Hor in H3; intuition lia|]. destruct Hv as [->|[Hv|[Hv|Hv]]]; [done|..]; exfalso; apply H3, Hor; lia.
Qed.
Example C42_pag_matrix_example :
  pag_matrix (Amat 2 2 {[(0, 1) := 2%Z; (1, 0) := 1%Z]}).
Proof.
  split; [done|]. cbn. split.
  - intros [|[|i]] Hi; [done|done|lia].
  - intros [|[|i]] [|[|j]] Hi Hj; try lia; (split; [vm_compute; auto|done]).
Qed.
(** Nothing rejects an end with two marks; then the tail is lost. *)
Theorem C42_pag_two_marks_refuted :
  ∃ g A, pag_to_amat g oracle0 = Ok A ∧ pag_from_amat A ≠ g.
Proof.
  exists (Pag (upto 2) {[(0, 1)]} {[(0, 1)]} {[(0, 1)]}).
  destruct (pag_to_amat (Pag (upto 2) {[(0, 1)]} {[(0, 1)]} {[(0, 1)]}) oracle0) as [A|] eqn:E; [|by vm_compute in E].
  exists A. split; [done|]. intros Hc.
  assert (match pag_to_amat (Pag (upto 2) {[(0, 1)]} {[(0, 1)]} {[(0, 1)]}) oracle0 with
    Ok A => bool_decide (pg_tails (pag_from_amat A) = ∅) | _ => false end = true) as H by by vm_compute.
  rewrite E, Hc in H. apply bool_decide_eq_true in H. cbn in H. clear -H. set_solver.
Qed.

Print Assumptions C42_to_amat.
Print Assumptions C42_ag_roundtrip.
Print Assumptions C42_ag_matrix_roundtrip.
Print Assumptions C42_labels_refuted.
Print Assumptions C42_pag_roundtrip.
Print Assumptions C42_pag_matrix_roundtrip.
Print Assumptions C42_pag_two_marks_refuted.
