(** Effect of the DAG mutators on consistent states. *)
From Verif Require Import Py Spec DagModel TopoProofs.

Definition oriented (E : arcset) : Prop := ∀ x y, (x, y) ∈ E → (y, x) ∉ E.

(** The two states cannot be told apart through the public queries. *)
Record same_view (d d' : dag) : Prop := SameView {
  sv_nodes : d_nodes d = d_nodes d';
  sv_arcs : d_arcs d = d_arcs d';
  sv_par : ∀ n, parents d n = parents d' n;
  sv_chi : ∀ n, children d n = children d' n;
  sv_nbr : ∀ n, nbrs d n = nbrs d' n
}.

Lemma same_view_wf d d' : wf d → wf d' → d_nodes d = d_nodes d' → d_arcs d = d_arcs d' → same_view d d'.
Proof.
  intros H H' Hn Ha. split; [done|done|..]; intros n; apply set_eq; intros x.
  - by rewrite (wf_par _ H), (wf_par _ H'), Ha.
  - by rewrite (wf_chi _ H), (wf_chi _ H'), Ha.
  - by rewrite (wf_nbr _ H), (wf_nbr _ H'), Ha.
Qed.

Lemma acyclic_oriented E : acyclic E → oriented E.
Proof. intros H x y H1 H2. apply (H x). eapply tc_l; [exact H1|]. by apply tc_once. Qed.

Lemma oriented_irrefl E x : oriented E → (x, x) ∉ E.
Proof. intros H Hx. by apply (H x x). Qed.

Lemma tc_mono (E E' : arcset) x y : E ⊆ E' → tc (edge E) x y → tc (edge E') x y.
Proof.
  intros Hs H. induction H as [x y H|x y z H _ IH].
  - apply tc_once. by apply Hs.
  - eapply tc_l; [|exact IH]. by apply Hs.
Qed.

Lemma acyclic_mono E E' : E ⊆ E' → acyclic E' → acyclic E.
Proof. intros Hs H x Hx. apply (H x). by eapply tc_mono. Qed.

Lemma wf_init N : wf (dag_init N).
Proof.
  split; cbn.
  - intros x y H. set_solver.
  - intros i j. unfold parents. cbn. rewrite dget_empty. set_solver.
  - intros i j. unfold children. cbn. rewrite dget_empty. set_solver.
  - intros i j. unfold nbrs, adjacent. cbn. rewrite dget_empty. set_solver.
Qed.

Lemma insert_arc_wf i j d : wf d → wf (insert_arc i j d).
Proof.
  intros [Ho Hp Hc Hn]. split.
  - intros x y. cbn. rewrite elem_of_union, elem_of_singleton. intros [[= -> ->]|H]; [set_solver|].
    apply Ho in H. set_solver.
  - intros x y. unfold parents, insert_arc. cbn. rewrite dget_dadd, elem_of_union, elem_of_singleton.
    fold (parents d y). destruct (decide (j = y)) as [->|].
    + rewrite elem_of_union, elem_of_singleton, Hp. naive_solver.
    + rewrite Hp. naive_solver.
  - intros x y. unfold children, insert_arc. cbn. rewrite dget_dadd, elem_of_union, elem_of_singleton.
    fold (children d x). destruct (decide (i = x)) as [->|].
    + rewrite elem_of_union, elem_of_singleton, Hc. naive_solver.
    + rewrite Hc. naive_solver.
  - intros x y. unfold nbrs, insert_arc, adjacent. cbn. rewrite !dget_dadd, !elem_of_union, !elem_of_singleton.
    fold (nbrs d x). pose proof (Hn x y) as Hxy. unfold adjacent in Hxy.
    destruct (decide (j = x)) as [->|]; destruct (decide (i = x)) as [->|];
      rewrite ?elem_of_union, ?elem_of_singleton, Hxy; naive_solver.
Qed.

Lemma insert_arcs_wf (l : list arc) d : wf d → wf (foldl (λ d a, insert_arc a.1 a.2 d) d l).
Proof. revert d. induction l as [|a l IH]; intros d H; cbn; [done|]. apply IH. by apply insert_arc_wf. Qed.

Lemma insert_arcs_arcs (l : list arc) d :
  d_arcs (foldl (λ d a, insert_arc a.1 a.2 d) d l) = list_to_set l ∪ d_arcs d.
Proof.
  revert d. induction l as [|[i j] l IH]; intros d; cbn; [set_solver|]. rewrite IH. cbn. set_solver.
Qed.

Lemma insert_arcs_nodes (l : list arc) d :
  d_nodes (foldl (λ d a, insert_arc a.1 a.2 d) d l) = list_to_set (l.*1) ∪ list_to_set (l.*2) ∪ d_nodes d.
Proof.
  revert d. induction l as [|[i j] l IH]; intros d; cbn; [set_solver|]. rewrite IH. cbn. set_solver.
Qed.

(** State after a successful [remove_arc]. *)
Definition erase_arc (i j : node) (d : dag) : dag :=
  Dag (d_nodes d) (d_arcs d ∖ {[(i, j)]}) (ddel (ddel (d_nbr d) j i) i j) (ddel (d_par d) j i) (ddel (d_chi d) i j).

Lemma remove_arc_absent i j ign d :
  (i, j) ∉ d_arcs d → remove_arc i j ign d = (d, if ign then Ok tt else Raise KeyError).
Proof.
  intros H. unfold remove_arc, guard_keyerror, mcatch, mthen, mbind', arcs_remove.
  rewrite decide_False by done. by destruct ign.
Qed.

Lemma remove_arc_present i j ign d :
  wf d → (i, j) ∈ d_arcs d → i ≠ j → remove_arc i j ign d = (erase_arc i j d, Ok tt).
Proof.
  intros [Ho Hp Hc Hn] H Hij.
  unfold remove_arc, guard_keyerror, mcatch, mthen, mbind', arcs_remove.
  rewrite decide_True by done. unfold par_remove. rewrite decide_True; cycle 1.
  { change (i ∈ parents d j). by apply Hp. }
  cbn. unfold chi_remove. rewrite decide_True; cycle 1.
  { change (j ∈ children d i). by apply Hc. }
  cbn. unfold nbr_remove. rewrite decide_True; cycle 1.
  { change (i ∈ nbrs d j). apply Hn. by right. }
  cbn. rewrite decide_True; cycle 1.
  { unfold nbrs. cbn. rewrite dget_ddel, decide_False by done. change (j ∈ nbrs d i). apply Hn. by left. }
  done.
Qed.

Lemma erase_arc_wf i j d : wf d → (j, i) ∉ d_arcs d → wf (erase_arc i j d).
Proof.
  intros [Ho Hp Hc Hn] Hji. split.
  - intros x y. cbn. rewrite elem_of_difference. intros [H _]. by apply Ho.
  - intros x y. unfold parents, erase_arc. cbn. rewrite dget_ddel. fold (parents d y).
    rewrite elem_of_difference, elem_of_singleton. destruct (decide (j = y)) as [->|].
    + rewrite elem_of_difference, elem_of_singleton, Hp. naive_solver.
    + rewrite Hp. naive_solver.
  - intros x y. unfold children, erase_arc. cbn. rewrite dget_ddel. fold (children d x).
    rewrite elem_of_difference, elem_of_singleton. destruct (decide (i = x)) as [->|].
    + rewrite elem_of_difference, elem_of_singleton, Hc. naive_solver.
    + rewrite Hc. naive_solver.
  - intros x y. unfold nbrs, erase_arc, adjacent. cbn. rewrite !dget_ddel. fold (nbrs d x).
    rewrite !elem_of_difference, !elem_of_singleton. pose proof (Hn x y) as Hxy. unfold adjacent in Hxy.
    destruct (decide (i = x)) as [->|]; destruct (decide (j = x)) as [->|];
      rewrite ?elem_of_difference, ?elem_of_singleton, Hxy; naive_solver.
Qed.

(** Summary for consistent states without loops and 2-cycles. *)
Lemma remove_arc_spec i j ign d :
  wf d → oriented (d_arcs d) →
  let r := remove_arc i j ign d in
  wf r.1 ∧ oriented (d_arcs r.1) ∧ d_nodes r.1 = d_nodes d ∧ d_arcs r.1 = d_arcs d ∖ {[(i, j)]} ∧
  r.2 = if decide ((i, j) ∈ d_arcs d) then Ok tt else if ign then Ok tt else Raise KeyError.
Proof.
  intros Hwf Hor. cbn zeta. destruct (decide ((i, j) ∈ d_arcs d)) as [Hin|Hin].
  - assert (i ≠ j) by (intros ->; by apply (Hor j j)).
    rewrite remove_arc_present by done. cbn. split; [apply erase_arc_wf; [done|by apply Hor]|].
    split; [|done]. intros x y. rewrite !elem_of_difference. intros [H1 _] [H2 _]. by apply (Hor x y).
  - rewrite remove_arc_absent by done. cbn. split; [done|]. split; [done|]. split; [done|].
    split; [|done]. set_solver.
Qed.

Lemma remove_arcs_spec (l : list arc) ign d :
  wf d → oriented (d_arcs d) →
  let r := mfor l (λ a, remove_arc a.1 a.2 ign) d in
  wf r.1 ∧ oriented (d_arcs r.1) ∧ d_nodes r.1 = d_nodes d ∧ d_arcs r.1 ⊆ d_arcs d ∧
  (r.2 = Ok tt → d_arcs r.1 = d_arcs d ∖ list_to_set l) ∧
  (NoDup l → (∀ a, a ∈ l → a ∈ d_arcs d) → r.2 = Ok tt) ∧
  (ign = true → r.2 = Ok tt) ∧ (r.2 = Ok tt ∨ r.2 = Raise KeyError).
Proof.
  revert d. induction l as [|[i j] l IH]; intros d Hwf Hor; cbn zeta.
  { cbn. do 4 (split; [done|]). split; [set_solver|]. naive_solver. }
  cbn [mfor]. unfold mthen, mbind'. cbn [fst snd].
  destruct (remove_arc_spec i j ign d Hwf Hor) as (Hwf1 & Hor1 & Hn1 & Ha1 & Hr1).
  destruct (remove_arc i j ign d) as [d1 r1]. cbn in *. destruct r1 as [[]|e].
  - destruct (IH d1 Hwf1 Hor1) as (Hwf2 & Hor2 & Hn2 & Hs2 & Ha2 & Hok2 & Hig2 & He2).
    split; [done|]. split; [done|]. split; [congruence|].
    split; [rewrite Ha1 in Hs2; clear -Hs2; set_solver|].
    split. { intros H. rewrite (Ha2 H), Ha1. clear. set_solver. }
    split; [|done]. intros [Hni Hnd]%NoDup_cons Hin. apply Hok2; [done|]. intros a Ha. rewrite Ha1.
    apply elem_of_difference. split; [apply Hin; by right|]. intros ->%elem_of_singleton. done.
  - cbn. split; [done|]. split; [done|]. split; [done|]. split; [rewrite Ha1; clear; set_solver|].
    split; [done|]. destruct (decide ((i, j) ∈ d_arcs d)) as [H|H]; [done|].
    split. { intros _ Hin. destruct H. apply Hin. left. }
    destruct ign; [done|]. injection Hr1 as ->. naive_solver.
Qed.

Lemma check_acyclic_spec o d :
  wf d → (check_acyclic o d).1 = d ∧
  (((check_acyclic o d).2 = Ok tt ∧ acyclic (d_arcs d)) ∨
   ∃ w, (check_acyclic o d).2 = Raise (CycleError w) ∧ closes_cycle (d_arcs d) w ∧ ¬ acyclic (d_arcs d)).
Proof.
  intros Hwf. unfold check_acyclic. pose proof (topological_sort_spec d o Hwf) as H.
  destruct (topological_sort d o) as [l|e]; cbn.
  - split; [done|]. left. split; [done|]. eapply topo_order_acyclic; [apply Hwf|exact H].
  - split; [done|]. right. destruct H as (w & -> & Hw). exists w. split; [done|]. split; [done|].
    by eapply closes_cycle_not_acyclic.
Qed.

(** [add_arc] when the new arc is neither a loop nor the reverse of an arc. *)
Lemma add_arc_spec o i j chk d :
  wf d → oriented (d_arcs d) → i ≠ j → (j, i) ∉ d_arcs d →
  let r := add_arc o i j chk d in
  let E' := {[(i, j)]} ∪ d_arcs d in
  wf r.1 ∧ oriented (d_arcs r.1) ∧ d_nodes r.1 = d_nodes d ∪ {[i; j]} ∧
  ((r.2 = Ok tt ∧ d_arcs r.1 = E' ∧ (chk = true → acyclic E')) ∨
   (∃ w, chk = true ∧ r.2 = Raise (CycleError w) ∧ closes_cycle E' w ∧ ¬ acyclic E' ∧
         d_arcs r.1 = d_arcs d ∖ {[(i, j)]})).
Proof.
  intros Hwf Hor Hij Hji. cbn zeta.
  assert (wf (insert_arc i j d)) as Hwf1 by (by apply insert_arc_wf).
  assert (oriented (d_arcs (insert_arc i j d))) as Hor1.
  { intros x y. cbn. rewrite !elem_of_union, !elem_of_singleton. intros [H1|H1] [H2|H2]; [congruence|congruence|congruence|by apply (Hor x y)]. }
  unfold add_arc. destruct chk; cycle 1.
  { cbn. split; [done|]. split; [done|]. split; [set_solver|]. left. done. }
  unfold on_cycle_error, mcatch.
  destruct (check_acyclic_spec o _ Hwf1) as [Hs Hr].
  destruct (check_acyclic o (insert_arc i j d)) as [d1 r1]. cbn in Hs, Hr. subst d1.
  destruct Hr as [[-> Hac]|(w & -> & Hw & Hnac)].
  - cbn. split; [done|]. split; [done|]. split; [set_solver|]. left. done.
  - unfold mthen, mbind'.
    destruct (remove_arc_spec i j false _ Hwf1 Hor1) as (Hwf2 & Hor2 & Hn2 & Ha2 & Hr2).
    rewrite decide_True in Hr2 by (cbn; set_solver).
    destruct (remove_arc i j false (insert_arc i j d)) as [d2 r2]. cbn in *. subst r2. cbn.
    split; [done|]. split; [done|]. split; [rewrite Hn2; clear; set_solver|]. right. exists w.
    do 4 (split; [done|]). rewrite Ha2. clear. set_solver.
Qed.

(** [add_arcs_from] when the result has no loops and 2-cycles. *)
Lemma add_arcs_from_spec o arcs chk d :
  wf d → oriented (arcs ∪ d_arcs d) →
  let r := add_arcs_from o arcs chk d in
  let E' := arcs ∪ d_arcs d in
  wf r.1 ∧ oriented (d_arcs r.1) ∧ d_nodes r.1 = d_nodes d ∪ set_map fst arcs ∪ set_map snd arcs ∧
  ((r.2 = Ok tt ∧ d_arcs r.1 = E' ∧ (chk = true → arcs ≠ ∅ → acyclic E')) ∨
   (∃ w, chk = true ∧ r.2 = Raise (CycleError w) ∧ closes_cycle E' w ∧ ¬ acyclic E' ∧
         d_arcs r.1 = d_arcs d ∖ arcs)).
Proof.
  intros Hwf Hor. cbn zeta. unfold add_arcs_from.
  set (l := oa o [2] arcs). set (d1 := foldl _ d l).
  assert (wf d1) as Hwf1 by (by apply insert_arcs_wf).
  assert (∀ a, a ∈ l ↔ a ∈ arcs) as Hl by (intros a; apply elem_of_oa).
  assert (list_to_set l = arcs) as Hl' by (apply set_eq; intros a; by rewrite elem_of_list_to_set).
  assert (d_arcs d1 = arcs ∪ d_arcs d) as Ha1.
  { unfold d1. by rewrite insert_arcs_arcs, Hl'. }
  assert (d_nodes d1 = d_nodes d ∪ set_map fst arcs ∪ set_map snd arcs) as Hn1.
  { unfold d1. rewrite insert_arcs_nodes. apply set_eq. intros x.
    rewrite !elem_of_union, !elem_of_list_to_set, !elem_of_map, !elem_of_list_fmap.
    setoid_rewrite Hl. naive_solver. }
  assert (oriented (d_arcs d1)) as Hor1 by (by rewrite Ha1).
  destruct (decide (arcs = ∅)) as [->|Hne].
  { cbn. split; [done|]. rewrite !(left_id_L ∅ (∪)) in *. split; [done|]. split; [set_solver|]. by left. }
  destruct chk; cycle 1.
  { cbn. split; [done|]. split; [done|]. split; [done|]. left. done. }
  unfold on_cycle_error, mcatch.
  destruct (check_acyclic_spec o _ Hwf1) as [Hs Hr].
  destruct (check_acyclic o d1) as [d1' r1]. cbn in Hs, Hr. subst d1'.
  destruct Hr as [[-> Hac]|(w & -> & Hw & Hnac)].
  - cbn. split; [done|]. split; [done|]. split; [done|]. left. rewrite <-Ha1. done.
  - unfold mthen, mbind'.
    destruct (remove_arcs_spec l false _ Hwf1 Hor1) as (Hwf2 & Hor2 & Hn2 & _ & Ha2 & Hok2 & _).
    specialize (Hok2 (NoDup_oa _ _ _)).
    destruct (mfor l _ d1) as [d2 r2]. cbn in *.
    rewrite Hok2 in * by (intros a Ha; rewrite Ha1; apply elem_of_union; left; by apply Hl).
    cbn. specialize (Ha2 eq_refl). split; [done|]. split; [done|]. split; [congruence|].
    right. exists w. rewrite <-Ha1. do 4 (split; [done|]). rewrite Ha2, Ha1, Hl'. set_solver.
Qed.

Lemma reverse_arc_spec o i j ign chk d :
  wf d → oriented (d_arcs d) → i ≠ j →
  let r := reverse_arc o i j ign chk d in
  let E' := {[(j, i)]} ∪ (d_arcs d ∖ {[(i, j)]}) in
  wf r.1 ∧ oriented (d_arcs r.1) ∧
  ((r.2 = Raise KeyError ∧ ign = false ∧ (i, j) ∉ d_arcs d ∧ r.1 = d) ∨
   (r.2 = Ok tt ∧ d_nodes r.1 = d_nodes d ∪ {[i; j]} ∧ d_arcs r.1 = E' ∧ (chk = true → acyclic E')) ∨
   (∃ w, chk = true ∧ r.2 = Raise (CycleError w) ∧ closes_cycle E' w ∧ ¬ acyclic E' ∧
         d_nodes r.1 = d_nodes d ∪ {[i; j]} ∧ d_arcs r.1 = d_arcs d ∖ {[(i, j); (j, i)]})).
Proof.
  intros Hwf Hor Hij. cbn zeta. unfold reverse_arc, mthen, mbind'.
  destruct (remove_arc_spec i j ign d Hwf Hor) as (Hwf1 & Hor1 & Hn1 & Ha1 & Hr1).
  destruct (decide ((i, j) ∈ d_arcs d)) as [Hin|Hin].
  - destruct (remove_arc i j ign d) as [d1 r1]. cbn in *. subst r1.
    destruct (add_arc_spec o j i chk d1 Hwf1 Hor1) as (Hwf2 & Hor2 & Hn2 & Hr2).
    { done. } { rewrite Ha1. set_solver. }
    destruct (add_arc o j i chk d1) as [d2 r2]. cbn in *. rewrite Ha1 in *.
    split; [done|]. split; [done|]. right. destruct Hr2 as [(-> & Ha2 & Hac)|(w & Hchk & -> & Hw & Hnac & Ha2)].
    + left. split; [done|]. split; [rewrite Hn2, Hn1; clear; set_solver|]. done.
    + right. exists w. do 4 (split; [done|]). split; [rewrite Hn2, Hn1; clear; set_solver|].
      rewrite Ha2. clear. set_solver.
  - rewrite remove_arc_absent in * by done. destruct ign; cycle 1.
    { cbn. split; [done|]. split; [done|]. by left. }
    destruct (add_arc_spec o j i chk d Hwf Hor) as (Hwf2 & Hor2 & Hn2 & Hr2); [done|done|].
    destruct (add_arc o j i chk d) as [d2 r2]. cbn in *.
    assert (d_arcs d ∖ {[(i, j)]} = d_arcs d) as Heq by set_solver. rewrite Heq.
    split; [done|]. split; [done|]. right. destruct Hr2 as [(-> & Ha2 & Hac)|(w & Hchk & -> & Hw & Hnac & Ha2)].
    + left. split; [done|]. split; [rewrite Hn2; clear; set_solver|]. done.
    + right. exists w. do 4 (split; [done|]). split; [rewrite Hn2; clear; set_solver|].
      rewrite Ha2. clear -Heq. set_solver.
Qed.

Lemma remove_node_absent o n ign d :
  n ∉ d_nodes d → remove_node o n ign d = (d, if ign then Ok tt else Raise KeyError).
Proof.
  intros H. unfold remove_node, guard_keyerror, mcatch, mthen, mbind', nodes_remove.
  rewrite decide_False by done. by destruct ign.
Qed.

Lemma mthen_ok {S A B} (m : M S A) (k : M S B) s s' a : m s = (s', Ok a) → (m ;;; k) s = k s'.
Proof. intros H. unfold mthen, mbind'. by rewrite H. Qed.
Lemma guard_ok {S} ign (m : M S unit) s s' : m s = (s', Ok tt) → guard_keyerror ign m s = (s', Ok tt).
Proof. intros H. unfold guard_keyerror, mcatch. by rewrite H. Qed.

Lemma parents_loop n l d :
  NoDup l → (∀ p, p ∈ l → p ≠ n ∧ n ∈ children d p ∧ n ∈ nbrs d p) →
  ∃ d', mfor l (λ p, chi_remove p n ;;; nbr_remove p n) d = (d', Ok tt) ∧
    d_nodes d' = d_nodes d ∧ d_arcs d' = d_arcs d ∧ (∀ x, parents d' x = parents d x) ∧
    (∀ x, children d' x = if decide (x ∈ l) then children d x ∖ {[n]} else children d x) ∧
    (∀ x, nbrs d' x = if decide (x ∈ l) then nbrs d x ∖ {[n]} else nbrs d x).
Proof.
  revert d. induction l as [|p l IH]; intros d Hnd Hl.
  { exists d. cbn. do 4 (split; [done|]). split; intros x; by rewrite decide_False by set_solver. }
  apply NoDup_cons in Hnd as [Hp Hnd]. destruct (Hl p) as (Hpn & Hc & Hn); [left|].
  cbn [mfor]. unfold mthen, mbind' in *. unfold chi_remove at 1. rewrite decide_True by done. cbn.
  unfold nbr_remove at 1. rewrite decide_True by done. cbn.
  set (d1 := Dag _ _ _ _ _).
  assert (∀ x, children d1 x = if decide (p = x) then children d x ∖ {[n]} else children d x) as Hc1.
  { intros x. unfold children at 1. cbn. by rewrite dget_ddel. }
  assert (∀ x, nbrs d1 x = if decide (p = x) then nbrs d x ∖ {[n]} else nbrs d x) as Hn1.
  { intros x. unfold nbrs at 1. cbn. by rewrite dget_ddel. }
  destruct (IH d1 Hnd) as (d' & Hd' & HN & HA & HP & HC & HB).
  { intros q Hq. assert (p ≠ q) by (intros ->; done). rewrite Hc1, Hn1, !decide_False by done.
    apply Hl. by right. }
  exists d'. split; [exact Hd'|]. do 3 (split; [done|]). split; intros x.
  - rewrite HC, Hc1. destruct (decide (p = x)) as [->|].
    + rewrite (decide_False (P := x ∈ l)) by done. rewrite decide_True; [done|left].
    + destruct (decide (x ∈ l)); [rewrite decide_True by (by right); done|].
      rewrite decide_False; [done|]. intros [->|]%elem_of_cons; done.
  - rewrite HB, Hn1. destruct (decide (p = x)) as [->|].
    + rewrite (decide_False (P := x ∈ l)) by done. rewrite decide_True; [done|left].
    + destruct (decide (x ∈ l)); [rewrite decide_True by (by right); done|].
      rewrite decide_False; [done|]. intros [->|]%elem_of_cons; done.
Qed.

Lemma children_loop n l d :
  NoDup l → (∀ p, p ∈ l → p ≠ n ∧ n ∈ parents d p ∧ n ∈ nbrs d p) →
  ∃ d', mfor l (λ p, par_remove p n ;;; nbr_remove p n) d = (d', Ok tt) ∧
    d_nodes d' = d_nodes d ∧ d_arcs d' = d_arcs d ∧ (∀ x, children d' x = children d x) ∧
    (∀ x, parents d' x = if decide (x ∈ l) then parents d x ∖ {[n]} else parents d x) ∧
    (∀ x, nbrs d' x = if decide (x ∈ l) then nbrs d x ∖ {[n]} else nbrs d x).
Proof.
  revert d. induction l as [|p l IH]; intros d Hnd Hl.
  { exists d. cbn. do 4 (split; [done|]). split; intros x; by rewrite decide_False by set_solver. }
  apply NoDup_cons in Hnd as [Hp Hnd]. destruct (Hl p) as (Hpn & Hc & Hn); [left|].
  cbn [mfor]. unfold mthen, mbind' in *. unfold par_remove at 1. rewrite decide_True by done. cbn.
  unfold nbr_remove at 1. rewrite decide_True by done. cbn.
  set (d1 := Dag _ _ _ _ _).
  assert (∀ x, parents d1 x = if decide (p = x) then parents d x ∖ {[n]} else parents d x) as Hc1.
  { intros x. unfold parents at 1. cbn. by rewrite dget_ddel. }
  assert (∀ x, nbrs d1 x = if decide (p = x) then nbrs d x ∖ {[n]} else nbrs d x) as Hn1.
  { intros x. unfold nbrs at 1. cbn. by rewrite dget_ddel. }
  destruct (IH d1 Hnd) as (d' & Hd' & HN & HA & HP & HC & HB).
  { intros q Hq. assert (p ≠ q) by (intros ->; done). rewrite Hc1, Hn1, !decide_False by done.
    apply Hl. by right. }
  exists d'. split; [exact Hd'|]. do 3 (split; [done|]). split; intros x.
  - rewrite HC, Hc1. destruct (decide (p = x)) as [->|].
    + rewrite (decide_False (P := x ∈ l)) by done. rewrite decide_True; [done|left].
    + destruct (decide (x ∈ l)); [rewrite decide_True by (by right); done|].
      rewrite decide_False; [done|]. intros [->|]%elem_of_cons; done.
  - rewrite HB, Hn1. destruct (decide (p = x)) as [->|].
    + rewrite (decide_False (P := x ∈ l)) by done. rewrite decide_True; [done|left].
    + destruct (decide (x ∈ l)); [rewrite decide_True by (by right); done|].
      rewrite decide_False; [done|]. intros [->|]%elem_of_cons; done.
Qed.

Lemma remove_node_spec o n ign d :
  wf d → oriented (d_arcs d) →
  let r := remove_node o n ign d in
  wf r.1 ∧ oriented (d_arcs r.1) ∧
  (if decide (n ∈ d_nodes d) then
     r.2 = Ok tt ∧ d_nodes r.1 = d_nodes d ∖ {[n]} ∧ d_arcs r.1 = filter (λ a, a.1 ≠ n ∧ a.2 ≠ n) (d_arcs d)
   else r = (d, if ign then Ok tt else Raise KeyError)).
Proof.
  intros Hwf Hor. cbn zeta. destruct (decide (n ∈ d_nodes d)) as [Hn|Hn]; cycle 1.
  { rewrite remove_node_absent by done. done. }
  pose proof Hwf as [Ho Hp Hc Hb].
  assert (∀ x y, adjacent (d_arcs d) x y → x ≠ y) as Hirr.
  { intros x y [H|H] ->; by apply (Hor y y). }
  set (d0 := Dag (d_nodes d ∖ {[n]}) (d_arcs d) (d_nbr d) (d_par d) (d_chi d)).
  assert (nodes_remove n d = (d0, Ok tt)) as H0.
  { unfold nodes_remove. by rewrite decide_True by done. }
  destruct (parents_loop n (on o [3] (parents d0 n)) d0 (NoDup_on _ _ _)) as (d1 & H1 & HN1 & HA1 & HP1 & HC1 & HB1).
  { intros p Hin%elem_of_on. change (p ∈ parents d n) in Hin. apply Hp in Hin.
    split; [apply Hirr; by left|]. split.
    - change (n ∈ children d p). by apply Hc.
    - change (n ∈ nbrs d p). apply Hb. by left. }
  assert (∀ x, x ∈ on o [3] (parents d0 n) ↔ (x, n) ∈ d_arcs d) as Hin1.
  { intros x. rewrite elem_of_on. apply Hp. }
  assert (children d1 n = children d n) as Hcn.
  { rewrite HC1, decide_False; [done|]. rewrite Hin1. by apply oriented_irrefl. }
  destruct (children_loop n (on o [4] (children d1 n)) d1 (NoDup_on _ _ _)) as (d2 & H2 & HN2 & HA2 & HC2 & HP2 & HB2).
  { intros p Hin%elem_of_on. rewrite Hcn in Hin. apply Hc in Hin.
    split; [apply not_eq_sym; apply Hirr; by left|]. split.
    - rewrite HP1. change (n ∈ parents d p). by apply Hp.
    - rewrite HB1, decide_False.
      + change (n ∈ nbrs d p). apply Hb. by right.
      + rewrite Hin1. by apply Hor. }
  assert (∀ x, x ∈ on o [4] (children d1 n) ↔ (n, x) ∈ d_arcs d) as Hin2.
  { intros x. rewrite elem_of_on, Hcn. apply Hc. }
  unfold remove_node. erewrite guard_ok; cycle 1.
  { erewrite mthen_ok by exact H0. erewrite mthen_ok by exact H1. erewrite mthen_ok by exact H2. reflexivity. }
  cbn. rewrite HN2, HN1, HA2, HA1. cbn. split; [split|split; [|done]].
  - intros x y. cbn. rewrite elem_of_filter, !elem_of_difference, !elem_of_singleton. cbn.
    intros [[Hx1 Hx2] Hxy]. apply Ho in Hxy. naive_solver.
  - intros x y. unfold parents. cbn. rewrite dget_delete, elem_of_filter. cbn.
    destruct (decide (n = y)) as [<-|]; [set_solver|].
    change (dget (d_par d2) y) with (parents d2 y). rewrite HP2, HP1. change (parents d0 y) with (parents d y).
    destruct (decide (y ∈ on o [4] (children d1 n))) as [Hy|Hy]; rewrite Hin2 in Hy.
    + rewrite elem_of_difference, elem_of_singleton, Hp. naive_solver.
    + rewrite Hp. naive_solver.
  - intros x y. unfold children. cbn. rewrite dget_delete, elem_of_filter. cbn.
    destruct (decide (n = x)) as [<-|]; [set_solver|].
    change (dget (d_chi d2) x) with (children d2 x). rewrite HC2, HC1. change (children d0 x) with (children d x).
    destruct (decide (x ∈ on o [3] (parents d0 n))) as [Hy|Hy]; rewrite Hin1 in Hy.
    + rewrite elem_of_difference, elem_of_singleton, Hc. naive_solver.
    + rewrite Hc. naive_solver.
  - intros x y. unfold nbrs, adjacent. cbn. rewrite dget_delete, !elem_of_filter. cbn.
    destruct (decide (n = x)) as [<-|]; [set_solver|].
    change (dget (d_nbr d2) x) with (nbrs d2 x). rewrite HB2, HB1. change (nbrs d0 x) with (nbrs d x).
    pose proof (Hb x y) as Hxy. unfold adjacent in Hxy.
    destruct (decide (x ∈ on o [3] (parents d0 n))) as [H3|H3];
    destruct (decide (x ∈ on o [4] (children d1 n))) as [H4|H4];
      rewrite Hin1 in H3; rewrite Hin2 in H4;
      rewrite ?elem_of_difference, ?elem_of_singleton, Hxy; naive_solver.
  - intros x y. rewrite !elem_of_filter. intros [_ H] [_ H']. by apply (Hor x y).
Qed.

(** Histories *)
Definition call_ok (d : dag) (c : call) : Prop :=
  match c with
  | CAddArc _ i j _ => i ≠ j ∧ (j, i) ∉ d_arcs d
  | CAddArcsFrom _ arcs _ => oriented (arcs ∪ d_arcs d)
  | CReverseArc _ i j _ _ => i ≠ j
  | _ => True
  end.

Fixpoint history_ok (d : dag) (h : list call) : Prop :=
  match h with
  | [] => True
  | c :: h' => call_ok d c ∧ history_ok (exec c d).1 h'
  end.

Definition checked (c : call) : Prop :=
  match c with
  | CAddArc _ _ _ chk | CAddArcsFrom _ _ chk | CReverseArc _ _ _ _ chk => chk = true
  | _ => True
  end.

Lemma add_nodes_spec l d : 
  let r := add_nodes_from l d in
  r.2 = Ok tt ∧ d_nodes r.1 = d_nodes d ∪ list_to_set l ∧ d_arcs r.1 = d_arcs d ∧ d_nbr r.1 = d_nbr d ∧
  d_par r.1 = d_par d ∧ d_chi r.1 = d_chi d.
Proof.
  revert d. induction l as [|n l IH]; intros d; cbn zeta.
  { cbn. do 1 (split; [done|]). split; [set_solver|done]. }
  unfold add_nodes_from in *. cbn [mfor]. unfold mthen, mbind', add_node at 1 3 5 7 9 11. cbn -[mfor].
  destruct (IH (Dag ({[n]} ∪ d_nodes d) (d_arcs d) (d_nbr d) (d_par d) (d_chi d))) as (H1 & H2 & H3 & H4).
  split; [done|]. split; [rewrite H2; cbn; set_solver|]. split; [by rewrite H3|]. done.
Qed.

Lemma wf_more_nodes N' d :
  wf d → d_nodes d ⊆ N' → wf (Dag N' (d_arcs d) (d_nbr d) (d_par d) (d_chi d)).
Proof.
  intros [Ho Hp Hc Hn] Hs. split; cbn; try done. intros x y H. apply Ho in H. set_solver.
Qed.

Lemma exec_wf c d :
  wf d → oriented (d_arcs d) → call_ok d c → wf (exec c d).1 ∧ oriented (d_arcs (exec c d).1).
Proof.
  intros Hwf Hor Hok. destruct c as [n|l|o i j chk|o arcs chk|i j ign|l ign|o i j ign chk|o n ign]; cbn -[add_nodes_from] in *.
  - split; [|done]. apply wf_more_nodes; [done|set_solver].
  - destruct (add_nodes_spec l d) as (_ & H1 & H2 & H3 & H4 & H5).
    destruct (add_nodes_from l d) as [[N A nb pa ch] r]. cbn in *. subst. split; [|done].
    apply wf_more_nodes; [done|set_solver].
  - destruct Hok as [H1 H2]. destruct (add_arc_spec o i j chk d Hwf Hor H1 H2) as (? & ? & _). done.
  - destruct (add_arcs_from_spec o arcs chk d Hwf Hok) as (? & ? & _). done.
  - destruct (remove_arc_spec i j ign d Hwf Hor) as (? & ? & _). done.
  - destruct (remove_arcs_spec l ign d Hwf Hor) as (? & ? & _). done.
  - destruct (reverse_arc_spec o i j ign chk d Hwf Hor Hok) as (? & ? & _). done.
  - destruct (remove_node_spec o n ign d Hwf Hor) as (? & ? & _). done.
Qed.

Lemma run_wf h d :
  wf d → oriented (d_arcs d) → history_ok d h → wf (run h d) ∧ oriented (d_arcs (run h d)).
Proof.
  revert d. induction h as [|c h IH]; intros d Hwf Hor Hok; [done|].
  destruct Hok as [Hc Hh]. destruct (exec_wf c d Hwf Hor Hc) as [Hwf1 Hor1].
  cbn. by apply IH.
Qed.

Lemma exec_acyclic c d :
  wf d → acyclic (d_arcs d) → call_ok d c → checked c → acyclic (d_arcs (exec c d).1).
Proof.
  intros Hwf Hac Hok Hck. pose proof (acyclic_oriented _ Hac) as Hor.
  destruct c as [n|l|o i j chk|o arcs chk|i j ign|l ign|o i j ign chk|o n ign]; cbn -[add_nodes_from] in *.
  - done.
  - destruct (add_nodes_spec l d) as (_ & H1 & H2 & H3 & H4 & H5). by rewrite H2.
  - destruct Hok as [H1 H2]. destruct (add_arc_spec o i j chk d Hwf Hor H1 H2) as (_ & _ & _ & [(_ & -> & H)|(w & _ & _ & _ & _ & ->)]).
    + by apply H.
    + eapply acyclic_mono; [|exact Hac]. set_solver.
  - destruct (add_arcs_from_spec o arcs chk d Hwf Hok) as (_ & _ & _ & [(_ & -> & H)|(w & _ & _ & _ & _ & ->)]).
    + destruct (decide (arcs = ∅)) as [->|Hne]; [by rewrite (left_id_L ∅ (∪))|]. by apply H.
    + eapply acyclic_mono; [|exact Hac]. set_solver.
  - destruct (remove_arc_spec i j ign d Hwf Hor) as (_ & _ & _ & -> & _). eapply acyclic_mono; [|exact Hac]. set_solver.
  - destruct (remove_arcs_spec l ign d Hwf Hor) as (_ & _ & _ & Hs & _). by eapply acyclic_mono.
  - destruct (reverse_arc_spec o i j ign chk d Hwf Hor Hok)
      as (_ & _ & [(_ & _ & _ & ->)|[(_ & _ & -> & H)|(w & _ & _ & _ & _ & _ & ->)]]).
    + done.
    + by apply H.
    + eapply acyclic_mono; [|exact Hac]. set_solver.
  - destruct (remove_node_spec o n ign d Hwf Hor) as (_ & _ & H). destruct (decide (n ∈ d_nodes d)).
    + destruct H as (_ & _ & ->). eapply acyclic_mono; [|exact Hac]. intros a Ha. by apply elem_of_filter in Ha as [_ Ha].
    + by rewrite H.
Qed.

Lemma run_acyclic h d :
  wf d → acyclic (d_arcs d) → history_ok d h → Forall checked h → acyclic (d_arcs (run h d)).
Proof.
  revert d. induction h as [|c h IH]; intros d Hwf Hac Hok Hck; [done|].
  destruct Hok as [Hc Hh]. apply Forall_cons in Hck as [Hck Hcks].
  destruct (exec_wf c d Hwf (acyclic_oriented _ Hac) Hc) as [Hwf1 Hor1].
  cbn. apply IH; try done. by apply exec_acyclic.
Qed.

(** A rejected [add_arc] involves only existing nodes. *)
Lemma tc_over N E x y : over N E → tc (edge E) x y → x ∈ N ∧ y ∈ N.
Proof.
  intros Ho H. induction H as [x y H|x y z H _ IH]; [by apply Ho|]. split; [by apply (Ho x y)|apply IH].
Qed.

(** A cycle through a new arc gives a path back. *)
Lemma tc_add_arc E i j x y :
  tc (edge ({[(i, j)]} ∪ E)) x y →
  tc (edge E) x y ∨ (rtc (edge E) x i ∧ rtc (edge E) j y).
Proof.
  intros H. induction H as [x y H|x y z H _ IH].
  - apply elem_of_union in H as [H%elem_of_singleton|H].
    + injection H as -> ->. right. split; apply rtc_refl.
    + left. by apply tc_once.
  - apply elem_of_union in H as [H%elem_of_singleton|H].
    + injection H as -> ->. right. destruct IH as [IH|[IH1 IH2]].
      * split; [apply rtc_refl|]. by apply tc_rtc.
      * split; [apply rtc_refl|]. done.
    + destruct IH as [IH|[IH1 IH2]].
      * left. by eapply tc_l.
      * right. split; [|done]. by eapply rtc_l.
Qed.


(** Constructor. *)
Lemma dag_make_spec o N E d :
  dag_make o N E = Ok d →
  wf d ∧ acyclic (d_arcs d) ∧ d_arcs d = E ∧ d_nodes d = N ∪ set_map fst E ∪ set_map snd E.
Proof.
  unfold dag_make, dag_new, add_arcs_from. destruct (decide (E = ∅)) as [->|HE].
  { intros [= <-]. split; [apply wf_init|]. cbn. split; [|set_solver].
    intros x Hx. clear -Hx. induction Hx; set_solver. }
  set (d1 := foldl _ _ _). unfold on_cycle_error, mcatch.
  assert (wf d1) as Hwf by apply insert_arcs_wf, wf_init.
  assert (d_arcs d1 = E) as Ha.
  { unfold d1. rewrite insert_arcs_arcs. cbn. apply set_eq. intros x.
    rewrite elem_of_union, elem_of_list_to_set, elem_of_oa. set_solver. }
  destruct (check_acyclic_spec o d1 Hwf) as [H1 [[H2 H3]|(w & H2 & _ & _)]];
    destruct (check_acyclic o d1) as [d2 r]; cbn in H1, H2; subst d2 r.
  - intros [= <-]. split; [done|]. split; [done|]. split; [done|].
    unfold d1. rewrite insert_arcs_nodes. cbn. apply set_eq. intros x.
    rewrite !elem_of_union, !elem_of_list_to_set, !elem_of_list_fmap, !elem_of_map.
    setoid_rewrite elem_of_oa. naive_solver.
  - unfold mthen, mbind'. destruct (mfor _ _ d1) as [d3 [|]]; done.
Qed.

Lemma dag_make_ok o N E : acyclic E → ∃ d, dag_make o N E = Ok d.
Proof.
  intros Hac. unfold dag_make, dag_new.
  destruct (add_arcs_from_spec o E true (dag_init N)) as (_ & _ & _ & H).
  { apply wf_init. } { cbn. rewrite union_empty_r_L. by apply acyclic_oriented. }
  destruct (add_arcs_from o E true (dag_init N)) as [d r]; cbn in *.
  destruct H as [(-> & _)|(w & _ & _ & _ & H & _)]; [by eexists|].
  rewrite union_empty_r_L in H. done.
Qed.

(** The object built by a successful constructor call (for concrete examples). *)
Definition dag_of (N : nset) (E : arcset) : dag :=
  match dag_make oracle0 N E with Ok d => d | Raise _ => dag_init ∅ end.

(** Decision procedures used for concrete examples. *)
Global Instance oriented_dec E : Decision (oriented E).
Proof.
  refine (cast_if (decide (set_Forall (λ a, (a.2, a.1) ∉ E) E))).
  - intros x y H. by apply (s (x, y)).
  - intros H. apply n. intros [x y] Hxy. by apply H.
Defined.
Global Instance call_ok_dec d c : Decision (call_ok d c).
Proof. destruct c; cbn; apply _. Defined.
Global Instance history_ok_dec d h : Decision (history_ok d h).
Proof. revert d. induction h as [|c h IH]; intros d; cbn; apply _. Defined.

Definition acyclicb (E : arcset) : bool :=
  match dag_make oracle0 ∅ E with Ok _ => true | Raise _ => false end.
Lemma acyclicb_spec E : acyclicb E = true → acyclic E.
Proof.
  unfold acyclicb. destruct (dag_make oracle0 ∅ E) as [d|] eqn:H; [|done].
  intros _. apply dag_make_spec in H as (_ & H & <- & _). done.
Qed.
Lemma acyclicb_iff E : acyclicb E = true ↔ acyclic E.
Proof.
  split; [apply acyclicb_spec|]. intros H. unfold acyclicb. by destruct (dag_make_ok oracle0 ∅ E H) as [d ->].
Qed.
Global Instance acyclic_dec E : Decision (acyclic E).
Proof.
  refine (match acyclicb E as b return acyclicb E = b → _ with
          | true => λ H, left _ | false => λ H, right _ end eq_refl).
  - by apply acyclicb_iff.
  - rewrite <- acyclicb_iff. by rewrite H.
Defined.

Lemma dag_of_wf N E : wf (dag_of N E).
Proof.
  unfold dag_of. destruct (dag_make oracle0 N E) eqn:H; [|apply wf_init]. by apply dag_make_spec in H as [? _].
Qed.
Lemma dag_of_make N E : acyclic E → dag_make oracle0 N E = Ok (dag_of N E).
Proof. intros H. unfold dag_of. by destruct (dag_make_ok oracle0 N E H) as [d ->]. Qed.
