(** Consistency of [UndirectedGraph]. *)
From Verif Require Import Py Spec DagModel UGraphModel.

Lemma upair_inj i j k l : upair i j = upair k l ↔ (i = k ∧ j = l) ∨ (i = l ∧ j = k).
Proof.
  unfold upair. split.
  - intros [= H1 H2]. lia.
  - intros [[-> ->]|[-> ->]]; [done|]. by rewrite Nat.min_comm, Nat.max_comm.
Qed.
Lemma upair_comm i j : upair i j = upair j i.
Proof. apply upair_inj. by right. Qed.
Lemma upair_lt i j : i ≠ j → (upair i j).1 < (upair i j).2.
Proof. unfold upair. cbn. lia. Qed.
Lemma upair_id e : e.1 < e.2 → upair e.1 e.2 = e.
Proof. destruct e as [i j]. unfold upair. cbn. intros. f_equal; lia. Qed.

Lemma zget_zadd m k z k' : zget (zadd m k z) k' = if decide (k = k') then (zget m k' + z)%Z else zget m k'.
Proof.
  unfold zget at 1, zadd. destruct (decide (k = k')) as [->|].
  - by rewrite lookup_insert.
  - by rewrite lookup_insert_ne by done.
Qed.

(** No self-loop, symmetric neighbor sets matching the edges, degrees counting
    the neighbors. *)
Record uok (g : ug) : Prop := Uok {
  uok_irr : ∀ e, e ∈ u_edges g → e.1 < e.2;
  uok_nbr : ∀ x y, y ∈ unbrs g x ↔ x ≠ y ∧ upair x y ∈ u_edges g;
  uok_deg : ∀ x, udeg g x = Z.of_nat (size (unbrs g x))
}.
Definition uover (g : ug) : Prop := ∀ i j, upair i j ∈ u_edges g → i ∈ u_nodes g ∧ j ∈ u_nodes g.

Lemma size_add (X : nset) x : x ∉ X → size ({[x]} ∪ X) = S (size X).
Proof. intros H. rewrite size_union by set_solver. by rewrite size_singleton. Qed.
Lemma size_del (X : nset) x : x ∈ X → S (size (X ∖ {[x]})) = size X.
Proof. intros H. rewrite <-(size_add (X ∖ {[x]}) x) by set_solver. f_equal. symmetry. apply union_difference_L. set_solver. Qed.

Lemma ulink_ok i j g : i ≠ j → uok g → upair i j ∉ u_edges g →
  uok (ulink i j (Ug (u_nodes g) ({[upair i j]} ∪ u_edges g) (u_nbr g) (u_deg g))).
Proof.
  intros Hij [H1 H2 H3] Hn.
  assert (∀ x y, y ∈ unbrs (ulink i j (Ug (u_nodes g) ({[upair i j]} ∪ u_edges g) (u_nbr g) (u_deg g))) x ↔
     y ∈ unbrs g x ∨ (x = i ∧ y = j) ∨ (x = j ∧ y = i)) as Hnb.
  { intros x y. unfold unbrs, ulink. cbn. rewrite !dget_dadd. repeat case_decide; subst; set_solver. }
  split; cbn.
  - intros e [->%elem_of_singleton|He]%elem_of_union; [by apply upair_lt|by apply H1].
  - intros x y. rewrite Hnb, H2, elem_of_union, elem_of_singleton, upair_inj. naive_solver.
  - intros x. unfold udeg. cbn. rewrite !zget_zadd.
    assert (j ∉ unbrs g i ∧ i ∉ unbrs g j) as [Hi Hj].
    { rewrite !H2, (upair_comm j i). naive_solver. }
    unfold unbrs, ulink. cbn. rewrite !dget_dadd. fold (unbrs g x). unfold udeg in H3.
    repeat case_decide; subst; try congruence; rewrite ?size_add by done; rewrite H3; lia.
Qed.

Lemma ug_make_ok o flip N es : uok (ug_make o flip N es) ∧ uover (ug_make o flip N es) ∧
  (∀ i j, upair i j ∈ u_edges (ug_make o flip N es) ↔ i ≠ j ∧ ((i, j) ∈ es ∨ (j, i) ∈ es)) ∧
  (∀ x, x ∈ u_nodes (ug_make o flip N es) ↔ x ∈ N ∨ ∃ y, x ≠ y ∧ adjacent es x y).
Proof.
  unfold ug_make. set (es' := set_map _ _ : arcset).
  assert (∀ i j, upair i j ∈ es' ↔ i ≠ j ∧ ((i, j) ∈ es ∨ (j, i) ∈ es)) as Hes'.
  { intros i j. unfold es'. rewrite elem_of_map. setoid_rewrite elem_of_filter. split.
    - intros ([a b] & Heq & Hne & Hab). cbn in *. apply upair_inj in Heq. naive_solver.
    - intros [Hne [H|H]]; [by exists (i, j)|exists (j, i)]. cbn. split; [apply upair_comm|]. done. }
  assert (∀ e, e ∈ es' → e.1 < e.2) as Hlt.
  { intros e. unfold es'. rewrite elem_of_map. setoid_rewrite elem_of_filter. intros ([a b] & -> & Hne & _). by apply upair_lt. }
  match goal with |- context [foldl ?f _ _] => set (step := f) end.
  (* the loop has treated the edges [R] *)
  assert (∀ l g (R : arcset), NoDup l → (∀ e, e ∈ l → e ∈ es' ∧ e ∉ R) → u_edges g = es' →
    uok (Ug (u_nodes g) R (u_nbr g) (u_deg g)) →
    (∀ x, x ∈ u_nodes g ↔ x ∈ N ∨ ∃ e, e ∈ R ∧ (x = e.1 ∨ x = e.2)) →
    let g' := foldl step g l in
    u_edges g' = es' ∧ uok (Ug (u_nodes g') (R ∪ list_to_set l) (u_nbr g') (u_deg g')) ∧
    (∀ x, x ∈ u_nodes g' ↔ x ∈ N ∨ ∃ e, e ∈ R ∪ list_to_set l ∧ (x = e.1 ∨ x = e.2))) as Hloop.
  { induction l as [|e l IH]; intros g R Hnd Hl Hg Hok HN; cbn [foldl].
    - cbn zeta. rewrite list_to_set_nil, union_empty_r_L. split; [done|]. split; [exact Hok|]. clear -HN. set_solver.
    - apply NoDup_cons in Hnd as [Hel Hnd]. destruct (Hl e) as [He1 He2]; [left|].
      pose proof (Hlt e He1) as Helt.
      specialize (IH (step g e) ({[e]} ∪ R)).
      rewrite list_to_set_cons. replace (R ∪ ({[e]} ∪ list_to_set l)) with ({[e]} ∪ R ∪ list_to_set l) by (clear; set_solver).
      apply IH; [done| | | |].
      + intros e' He'. destruct (Hl e') as [? ?]; [by right|]. split; [done|]. assert (e' ≠ e) as Hee by (intros ->; done). clear -Hee H0. set_solver.
      + unfold step. cbn. done.
      + assert (upair (if flip e then e.2 else e.1) (if flip e then e.1 else e.2) = e) as Hup.
        { destruct (flip e); [rewrite upair_comm|]; by apply upair_id. }
        assert ((if flip e then e.2 else e.1) ≠ (if flip e then e.1 else e.2)) as Hne by (destruct (flip e); lia).
        unfold step. pose proof (ulink_ok _ _ (Ug (u_nodes g) R (u_nbr g) (u_deg g)) Hne Hok) as Hu. rewrite Hup in Hu.
        specialize (Hu He2). destruct Hu as [U1 U2 U3]. split; [exact U1|exact U2|exact U3].
      + intros x. unfold step. cbn [u_nodes ulink]. rewrite !elem_of_union, !elem_of_singleton, HN.
        setoid_rewrite elem_of_union. setoid_rewrite elem_of_singleton. clear. destruct (flip e); naive_solver. }
  destruct (Hloop (oa o [30] es') (Ug N es' ∅ ∅) ∅) as (H1 & H2 & H3).
  - apply NoDup_oa.
  - intros e He. apply elem_of_oa in He. split; [done|]. apply not_elem_of_empty.
  - done.
  - split; cbn.
    + intros e He. by apply not_elem_of_empty in He.
    + intros x y. unfold unbrs. cbn. rewrite dget_empty. clear. set_solver.
    + intros x. unfold udeg, unbrs. cbn. rewrite dget_empty. done.
  - cbn. intros x. clear. set_solver.
  - assert (∅ ∪ list_to_set (oa o [30] es') = es') as Hre.
    { rewrite union_empty_l_L. apply set_eq. intros x. rewrite elem_of_list_to_set. apply elem_of_oa. }
    rewrite Hre in *.
    assert (∀ x, x ∈ u_nodes (foldl step (Ug N es' ∅ ∅) (oa o [30] es')) ↔ x ∈ N ∨ ∃ y, x ≠ y ∧ upair x y ∈ es') as H3'.
    { intros x. rewrite H3. apply or_iff_compat_l. rewrite <-Hre. split.
      - intros (e & He & Hx). rewrite Hre in He. pose proof (Hlt e He) as Hl. destruct Hx as [->| ->].
        + exists e.2. split; [lia|]. rewrite Hre. by rewrite upair_id.
        + exists e.1. split; [lia|]. rewrite Hre. by rewrite upair_comm, upair_id.
      - intros (y & Hy & He). eexists. split; [done|]. unfold upair. cbn. lia. }
    clear H3. rename H3' into H3. split; [|split; [|split]].
    + destruct H2 as [U1 U2 U3]. cbn in *. split; [by rewrite H1|by rewrite H1|done].
    + intros i j Hij. rewrite H1 in Hij. assert (i ≠ j) as Hne by (by apply Hes' in Hij as []). rewrite !H3. split; right.
      * by exists j.
      * exists i. by rewrite upair_comm.
    + intros i j. rewrite H1. apply Hes'.
    + intros x. rewrite H3. setoid_rewrite Hes'. unfold adjacent. clear. naive_solver.
Qed.

Definition no_loop (c : ucall) : Prop :=
  match c with
  | UAddEdge i j => i ≠ j
  | UAddEdges l => Forall (λ e, e.1 ≠ e.2) l
  | _ => True
  end.
Definition adds_inside (g : ug) (c : ucall) : Prop :=
  match c with
  | UAddEdge i j => i ∈ u_nodes g ∧ j ∈ u_nodes g
  | UAddEdges l => Forall (λ e, e.1 ∈ u_nodes g ∧ e.2 ∈ u_nodes g) l
  | _ => True
  end.

Lemma u_add_edge_ok i j g : i ≠ j → uok g → uok (u_add_edge i j g).1.
Proof. intros Hij Hok. unfold u_add_edge. case_decide; [done|]. by apply ulink_ok. Qed.
Lemma u_add_edge_over i j g : i ∈ u_nodes g → j ∈ u_nodes g → uover g → uover (u_add_edge i j g).1.
Proof.
  intros Hi Hj Ho. unfold u_add_edge. case_decide; [done|]. intros x y. cbn. rewrite elem_of_union, elem_of_singleton, upair_inj.
  intros [[[-> ->]|[-> ->]]|H']; [done|done|by apply Ho].
Qed.
Lemma u_add_edge_nodes i j g : u_nodes (u_add_edge i j g).1 = u_nodes g.
Proof. unfold u_add_edge. by case_decide. Qed.

Lemma u_delete_edge_ok i j g : uok g →
  (upair i j ∈ u_edges g → (u_delete_edge i j g).2 = Ok tt ∧ uok (u_delete_edge i j g).1 ∧
     u_edges (u_delete_edge i j g).1 = u_edges g ∖ {[upair i j]} ∧ u_nodes (u_delete_edge i j g).1 = u_nodes g) ∧
  (upair i j ∉ u_edges g → u_delete_edge i j g = (g, Raise KeyError)).
Proof.
  intros [H1 H2 H3]. split.
  - intros He. assert (i ≠ j) as Hij. { pose proof (H1 _ He) as Hl. unfold upair in Hl. cbn in Hl. lia. }
    assert (j ∈ unbrs g i ∧ i ∈ unbrs g j) as [Hi Hj]. { rewrite !H2, (upair_comm j i). naive_solver. }
    assert (u_delete_edge i j g = (Ug (u_nodes g) (u_edges g ∖ {[upair i j]}) (ddel (ddel (u_nbr g) i j) j i)
      (zadd (zadd (u_deg g) i (-1)) j (-1)), Ok tt)) as ->.
    { unfold u_delete_edge. unfold mthen at 1, mbind'. unfold u_edges_remove. rewrite decide_True by done.
      unfold mthen at 1, mbind'. unfold u_nbr_remove at 1. rewrite decide_True by exact Hi.
      unfold mthen at 1, mbind'. unfold u_nbr_remove at 1. rewrite decide_True; [done|].
      unfold unbrs. cbn. rewrite dget_ddel, decide_False by done. exact Hj. }
    cbn. split; [done|]. split; [|done].
    assert (∀ x, unbrs (Ug (u_nodes g) (u_edges g ∖ {[upair i j]}) (ddel (ddel (u_nbr g) i j) j i) (zadd (zadd (u_deg g) i (-1)) j (-1))) x =
       if decide (x = i) then unbrs g i ∖ {[j]} else if decide (x = j) then unbrs g j ∖ {[i]} else unbrs g x) as Hnb.
    { intros x. unfold unbrs. cbn. rewrite !dget_ddel. repeat case_decide; subst; done. }
    split; cbn.
    + intros e He'. apply H1. set_solver.
    + intros x y. rewrite Hnb, elem_of_difference, elem_of_singleton, upair_inj.
      repeat case_decide; subst; rewrite ?elem_of_difference, ?elem_of_singleton, !H2; naive_solver.
    + intros x. rewrite Hnb. unfold udeg. cbn. rewrite !zget_zadd. unfold udeg in H3.
      pose proof (size_del _ _ Hi). pose proof (size_del _ _ Hj).
      repeat case_decide; subst; try congruence; rewrite H3; lia.
  - intros He. unfold u_delete_edge, mthen, mbind', u_edges_remove. by rewrite decide_False.
Qed.

Section delete_node.
  Context (o : oracle) (n : node) (g0 : ug) (Hok : uok g0).
  Let body (j : node) : M ug unit :=
    u_nbr_remove j n ;;; u_deg_decr j ;;; u_edges_remove n j ;;;
            (if decide (j = n) then mraise RuntimeError else mret tt).

  Definition dinv (R : nset) (g : ug) : Prop :=
    (∀ e, e ∈ u_edges g ↔ e ∈ u_edges g0 ∧ ¬ ∃ j, j ∈ R ∧ e = upair n j) ∧
    (∀ x y, y ∈ unbrs g x ↔ y ∈ unbrs g0 x ∧ ¬ (y = n ∧ x ∈ R)) ∧
    (∀ x, udeg g x = (udeg g0 x - if decide (x ∈ R) then 1 else 0)%Z).

  Lemma delete_loop l : ∀ g R, NoDup l → (∀ j, j ∈ l → j ∈ unbrs g0 n ∧ j ∉ R) → n ∉ R → dinv R g →
    ∃ g', mfor l body g = (g', Ok tt) ∧ dinv (R ∪ list_to_set l) g' ∧ u_nodes g' = u_nodes g.
  Proof.
    induction l as [|j l IH]; intros g R Hnd Hl HnR (I1 & I2 & I3); cbn [mfor].
    - exists g. split; [done|]. rewrite list_to_set_nil, union_empty_r_L. done.
    - apply NoDup_cons in Hnd as [Hjl Hnd]. destruct (Hl j) as [Hj HjR]; [left|].
      assert (n ≠ j ∧ upair n j ∈ u_edges g0) as [Hnj Hej] by (by apply (uok_nbr g0 Hok)).
      assert (n ∈ unbrs g0 j) as Hnj' by (apply (uok_nbr g0 Hok); by rewrite upair_comm).
      assert (n ∈ unbrs g j) as Hnb by (apply I2; naive_solver).
      assert (upair n j ∈ u_edges g) as Hed.
      { apply I1. split; [done|]. intros (k & Hk & Heq%upair_inj). destruct Heq as [[_ ->]|[-> ->]]; done. }
      set (g1 := Ug (u_nodes g) (u_edges g ∖ {[upair n j]}) (ddel (u_nbr g) j n) (zadd (u_deg g) j (-1))).
      assert (body j g = (g1, Ok tt)) as Hb.
      { unfold body, mthen, mbind', u_nbr_remove. rewrite decide_True by done. unfold u_deg_decr, u_edges_remove. cbn.
        rewrite decide_True by done. rewrite decide_False by done. done. }
      unfold mthen at 1, mbind'. rewrite Hb.
      destruct (IH g1 ({[j]} ∪ R)) as (g' & -> & Hg' & Hn').
      + done.
      + intros k Hk. destruct (Hl k) as [? ?]; [by right|]. split; [done|]. assert (k ≠ j) by (intros ->; done). set_solver.
      + set_solver.
      + split; [|split].
        * intros e. unfold g1. cbn. rewrite elem_of_difference, I1, elem_of_singleton. set_solver.
        * intros x y. unfold g1, unbrs. cbn. rewrite dget_ddel. fold (unbrs g x). fold (unbrs g0 x).
          destruct (decide (j = x)) as [->|]; rewrite ?elem_of_difference, I2, ?elem_of_singleton, elem_of_union, elem_of_singleton; naive_solver.
        * intros x. unfold g1, udeg. cbn. rewrite zget_zadd. fold (udeg g x). fold (udeg g0 x). rewrite I3.
          repeat case_decide; subst; set_solver by lia.
      + exists g'. split; [done|]. split; [|done]. rewrite list_to_set_cons.
        by replace (R ∪ ({[j]} ∪ list_to_set l)) with ({[j]} ∪ R ∪ list_to_set l) by (clear; set_solver).
  Qed.

  Lemma u_delete_node_ok :
    (n ∈ u_nodes g0 → ∃ g', u_delete_node o n g0 = (g', Ok tt) ∧ uok g' ∧ u_nodes g' = u_nodes g0 ∖ {[n]} ∧
        (∀ e, e ∈ u_edges g' ↔ e ∈ u_edges g0 ∧ e.1 ≠ n ∧ e.2 ≠ n)) ∧
    (n ∉ u_nodes g0 → u_delete_node o n g0 = (g0, Raise KeyError)).
  Proof.
    split; [|intros H; unfold u_delete_node; by rewrite decide_False].
    intros Hn. unfold u_delete_node. rewrite decide_True by done.
    destruct (delete_loop (on o [31] (unbrs g0 n)) (Ug (u_nodes g0 ∖ {[n]}) (u_edges g0) (u_nbr g0) (u_deg g0)) ∅)
      as (g' & Hg' & (I1 & I2 & I3) & Hnod).
    { apply NoDup_on. } { intros j Hj. apply elem_of_on in Hj. set_solver. } { set_solver. }
    { split; [set_solver|]. split; [cbn; unfold unbrs; cbn; set_solver|]. intros x. rewrite decide_False by set_solver. unfold udeg. cbn. lia. }
    unfold mthen at 1, mbind'. unfold body in Hg'. rewrite Hg'. eexists. split; [done|]. cbn [u_nodes u_edges].
    assert (∅ ∪ list_to_set (on o [31] (unbrs g0 n)) = unbrs g0 n) as Hre.
    { rewrite union_empty_l_L. apply set_eq. intros x. rewrite elem_of_list_to_set. apply elem_of_on. }
    rewrite Hre in *.
    assert (∀ e, e ∈ u_edges g' ↔ e ∈ u_edges g0 ∧ e.1 ≠ n ∧ e.2 ≠ n) as He.
    { intros e. rewrite I1. split.
      - intros [He1 He2]. split; [done|]. pose proof (uok_irr g0 Hok e He1) as Hlt.
        split; intros <-; apply He2.
        + exists e.2. split; [|symmetry; by apply upair_id]. apply (uok_nbr g0 Hok). split; [lia|]. by rewrite upair_id.
        + exists e.1. split; [|rewrite upair_comm; symmetry; by apply upair_id]. apply (uok_nbr g0 Hok). split; [lia|]. by rewrite upair_comm, upair_id.
      - intros (He1 & He2 & He3). split; [done|]. intros (j & Hj & ->). unfold upair in *. cbn in *. lia. }
    assert (∀ x, unbrs (Ug (u_nodes g') (u_edges g') (delete n (u_nbr g')) (delete n (u_deg g'))) x =
              if decide (n = x) then ∅ else unbrs g' x) as Hnb.
    { intros x. unfold unbrs. cbn. by rewrite dget_delete. }
    split; [|split; [by rewrite Hnod|done]]. split; cbn.
    - intros e He'. apply (uok_irr g0 Hok). by apply He in He' as [].
    - intros x y. rewrite Hnb. destruct (decide (n = x)) as [<-|Hnx].
      + split; [set_solver|]. intros [H1 H2]. apply He in H2 as (_ & H2 & H3). unfold upair in *; cbn in *. lia.
      + rewrite I2, He, !(uok_nbr g0 Hok), (upair_comm n x). split.
        * intros [[H1 H2] H3]. split; [done|]. split; [done|]. assert (y ≠ n) by (intros ->; naive_solver).
          unfold upair. cbn. lia.
        * intros (H1 & H2 & H3 & H4). split; [done|]. intros [-> _]. unfold upair in *. cbn in *. lia.
    - intros x. rewrite Hnb. unfold udeg. cbn. destruct (decide (n = x)) as [<-|Hnx].
      + unfold zget. rewrite lookup_delete. done.
      + unfold zget. rewrite lookup_delete_ne by done. fold (zget (u_deg g') x). fold (udeg g' x). rewrite I3, (uok_deg g0 Hok).
        destruct (decide (x ∈ unbrs g0 n)) as [Hx|Hx].
        * assert (unbrs g' x = unbrs g0 x ∖ {[n]}) as ->. { apply set_eq. intros y. rewrite I2. set_solver. }
          assert (n ∈ unbrs g0 x) as Hx'. { rewrite !(uok_nbr g0 Hok) in *. rewrite upair_comm. naive_solver. }
          pose proof (size_del _ _ Hx'). lia.
        * assert (unbrs g' x = unbrs g0 x) as ->. { apply set_eq. intros y. rewrite I2. naive_solver. }
          lia.
  Qed.
End delete_node.

Lemma uexec_ok c g : uok g → no_loop c → uok (uexec c g).1.
Proof.
  intros Hok Hc. destruct c as [i j|l|i j|l|o n]; cbn [uexec no_loop] in *.
  - by apply u_add_edge_ok.
  - unfold u_add_edges_from. revert g Hok. induction l as [|e l IH]; intros g Hok; [done|]. cbn [mfor].
    apply Forall_cons in Hc as [He Hc]. pose proof (u_add_edge_ok e.1 e.2 g He Hok) as Hok1.
    unfold mthen, mbind'. destruct (u_add_edge e.1 e.2 g) as [g1 [r|x]]; [by apply IH|done].
  - destruct (u_delete_edge_ok i j g Hok) as [H1 H2]. destruct (decide (upair i j ∈ u_edges g)) as [H|H]; [by apply H1|by rewrite H2].
  - unfold u_delete_edges_from. revert g Hok. induction l as [|e l IH]; intros g Hok; [done|]. cbn [mfor].
    assert (uok (u_delete_edge e.1 e.2 g).1) as Hok1.
    { destruct (u_delete_edge_ok e.1 e.2 g Hok) as [H1 H2]. destruct (decide (upair e.1 e.2 ∈ u_edges g)) as [H|H]; [by apply H1|by rewrite H2]. }
    unfold mthen, mbind'. destruct (u_delete_edge e.1 e.2 g) as [g1 [r|x]]; [by apply IH|done].
  - destruct (u_delete_node_ok o n g Hok) as [H1 H2]. destruct (decide (n ∈ u_nodes g)) as [H|H].
    + destruct (H1 H) as (g' & -> & ? & _). done.
    + by rewrite H2.
Qed.

Lemma u_delete_edge_over i j g : uok g → uover g → uover (u_delete_edge i j g).1.
Proof.
  intros Hok Ho. destruct (u_delete_edge_ok i j g Hok) as [H1 H2]. destruct (decide (upair i j ∈ u_edges g)) as [H|H].
  - destruct (H1 H) as (_ & _ & He & Hn). intros x y. rewrite He, Hn. intros Hxy. apply Ho. set_solver.
  - by rewrite H2.
Qed.

Lemma uexec_over c g : uok g → uover g → no_loop c → adds_inside g c → uover (uexec c g).1.
Proof.
  intros Hok Ho Hl Hc. destruct c as [i j|l|i j|l|o n]; cbn [uexec no_loop adds_inside] in *.
  - destruct Hc. by apply u_add_edge_over.
  - unfold u_add_edges_from. assert (∀ g', u_nodes g' = u_nodes g → uover g' → uover (mfor l (λ e, u_add_edge e.1 e.2) g').1) as H; [|by apply H].
    induction l as [|e l IH]; intros g' Hn Ho'; [done|]. cbn [mfor]. apply Forall_cons in Hc as [He Hc]. apply Forall_cons in Hl as [_ Hl].
    pose proof (u_add_edge_over e.1 e.2 g') as H1. pose proof (u_add_edge_nodes e.1 e.2 g') as H2. rewrite Hn in *.
    unfold mthen, mbind'. destruct (u_add_edge e.1 e.2 g') as [g1 [r|x]]; cbn in *; [apply IH; naive_solver|naive_solver].
  - by apply u_delete_edge_over.
  - unfold u_delete_edges_from. clear Hl Hc. revert g Hok Ho. induction l as [|e l IH]; intros g Hok Ho; [done|]. cbn [mfor].
    pose proof (u_delete_edge_over e.1 e.2 g Hok Ho) as Ho1. pose proof (uexec_ok (UDelEdge e.1 e.2) g Hok I) as Hok1. cbn in Hok1.
    unfold mthen, mbind'. destruct (u_delete_edge e.1 e.2 g) as [g1 [r|x]]; [by apply IH|done].
  - destruct (u_delete_node_ok o n g Hok) as [H1 H2]. destruct (decide (n ∈ u_nodes g)) as [H|H].
    + destruct (H1 H) as (g' & -> & _ & Hn & He). cbn. intros x y Hxy. rewrite Hn.
      apply He in Hxy as (Hxy & Hx & Hy). apply Ho in Hxy as HH. unfold upair in *. cbn in *.
      rewrite !elem_of_difference, !elem_of_singleton. destruct HH. repeat split; [done|lia|done|lia].
    + by rewrite H2.
Qed.
