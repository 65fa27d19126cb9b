(** Consistent states of [AncestralGraph]; insertion and removal of one edge. *)
From Verif Require Import Py Spec SpecMixed DagModel UGraphModel AncestralModel TopoProofs StateProofs UGraphProofs PdagProofs.

(** The mixed graph an instance stores. *)
Definition gmix (g : ag) : mixed := Mixed (g_dir g) (g_bi g) (g_un g).

Record gok (g : ag) : Prop := GOk {
  gok_dirN : over (g_nodes g) (g_dir g);
  gok_biN : over (g_nodes g) (g_bi g);
  gok_unN : over (g_nodes g) (g_un g);
  gok_bilt : ∀ x y, (x, y) ∈ g_bi g → x < y;
  gok_unlt : ∀ x y, (x, y) ∈ g_un g → x < y;
  gok_par : ∀ i j, i ∈ g_parents g j ↔ (i, j) ∈ g_dir g;
  gok_chi : ∀ i j, j ∈ g_children g i ↔ (i, j) ∈ g_dir g;
  gok_spo : ∀ i j, j ∈ g_spouses g i ↔ upair i j ∈ g_bi g;
  gok_nei : ∀ i j, j ∈ g_neighbors g i ↔ upair i j ∈ g_un g;
  gok_adj : ∀ i j, j ∈ g_adjacent g i ↔ (i, j) ∈ g_dir g ∨ (j, i) ∈ g_dir g ∨ upair i j ∈ g_bi g ∨ upair i j ∈ g_un g;
  gok_dir1 : ∀ i j, (i, j) ∈ g_dir g → i ≠ j ∧ (j, i) ∉ g_dir g ∧ upair i j ∉ g_bi g ∧ upair i j ∉ g_un g;
  gok_bi1 : ∀ i j, upair i j ∈ g_bi g → upair i j ∉ g_un g;
  gok_sepd : ∀ i j k, (i, j) ∈ g_dir g → upair j k ∉ g_un g;
  gok_sepb : ∀ i j k, upair i j ∈ g_bi g → upair j k ∉ g_un g
}.

Local Ltac drop_all :=
  repeat match goal with H : ∀ _ : nat, _ |- _ => clear H | H : over _ _ |- _ => clear H end.

Lemma upair_in_lt (X : arcset) x y : (∀ x y, (x, y) ∈ X → x < y) → upair x y ∈ X ↔ (x, y) ∈ X ∨ (y, x) ∈ X.
Proof.
  intros HX. unfold upair. split.
  - intros H. destruct (decide (x ≤ y)).
    + left. by rewrite Nat.min_l, Nat.max_r in H by lia.
    + right. by rewrite Nat.min_r, Nat.max_l in H by lia.
  - intros [H|H]; specialize (HX _ _ H).
    + by rewrite Nat.min_l, Nat.max_r by lia.
    + by rewrite Nat.min_r, Nat.max_l by lia.
Qed.
Lemma upair_ne_lt (X : arcset) x y : (∀ x y, (x, y) ∈ X → x < y) → upair x y ∈ X → x ≠ y.
Proof. intros HX [H|H]%upair_in_lt; [..|done]; apply HX in H; lia. Qed.
Lemma upair_new (X : arcset) i j : i ≠ j → (∀ x y, (x, y) ∈ X → x < y) → ∀ x y, (x, y) ∈ {[upair i j]} ∪ X → x < y.
Proof.
  intros Hij HX x y [Hx|Hx]%elem_of_union; [|by apply HX]. apply elem_of_singleton in Hx.
  pose proof (upair_lt i j Hij) as Hlt. by rewrite <-Hx in Hlt.
Qed.
Lemma over_new (N : nset) (X : arcset) (i j : node) : over N X → over ({[j]} ∪ ({[i]} ∪ N)) ({[upair i j]} ∪ X).
Proof.
  intros HX x y [H|H]%elem_of_union.
  - apply elem_of_singleton in H. unfold upair in H. injection H as -> ->.
    destruct (Nat.min_spec i j) as [[? ->]|[? ->]], (Nat.max_spec i j) as [[? ->]|[? ->]]; set_solver.
  - apply HX in H. set_solver.
Qed.
Lemma over_more (N : nset) (X : arcset) (i j : node) : over N X → over ({[j]} ∪ ({[i]} ∪ N)) X.
Proof. intros HX x y H. apply HX in H. set_solver. Qed.

Lemma over_new_dir (N : nset) (X : arcset) (i j : node) : over N X → over ({[j]} ∪ ({[i]} ∪ N)) ({[(i, j)]} ∪ X).
Proof. intros HX x y [[= -> ->]%elem_of_singleton|Hx]%elem_of_union; [set_solver|]. apply HX in Hx. set_solver. Qed.

Lemma spouse_upair g x y : gok g → spouse (gmix g) x y ↔ upair x y ∈ g_bi g.
Proof. intros H. rewrite upair_in_lt; [done|apply (gok_bilt _ H)]. Qed.
Lemma neighbor_upair g x y : gok g → neighbor (gmix g) x y ↔ upair x y ∈ g_un g.
Proof. intros H. rewrite upair_in_lt; [done|apply (gok_unlt _ H)]. Qed.

Lemma gok_init N : gok (ag_init N).
Proof.
  split; unfold g_parents, g_children, g_spouses, g_neighbors, g_adjacent, over; cbn; intros;
    rewrite ?dget_empty in *; set_solver.
Qed.

(** The eight attributes seen as functions, for a state changed by one link. *)
Lemma link_directed_ok i j g :
  gok g → i ≠ j → j ∉ g_adjacent g i → g_neighbors g j = ∅ → gok (link_directed i j g).
Proof.
  intros H Hij Hna Hnn. pose proof (gok_adj _ H i j) as Ha.
  assert (∀ k, upair j k ∉ g_un g) as Hj.
  { intros k Hk. apply (gok_nei _ H) in Hk. rewrite Hnn in Hk. set_solver. }
  destruct H as [H1 H2 H3 H4 H5 H6 H7 H8 H9 H10 H11 H12 H13 H14].
  split; unfold g_parents, g_children, g_spouses, g_neighbors, g_adjacent in *; cbn.
  - by apply over_new_dir.
  - by apply over_more.
  - by apply over_more.
  - done.
  - done.
  - intros x y. rewrite dget_dadd, elem_of_union, elem_of_singleton.
    destruct (decide (j = y)) as [<-|]; rewrite ?elem_of_union, ?elem_of_singleton, H6; drop_all; naive_solver.
  - intros x y. rewrite dget_dadd, elem_of_union, elem_of_singleton.
    destruct (decide (i = x)) as [<-|]; rewrite ?elem_of_union, ?elem_of_singleton, H7; drop_all; naive_solver.
  - done.
  - done.
  - intros x y. rewrite !dget_dadd, !elem_of_union, !elem_of_singleton.
    destruct (decide (j = x)) as [Hjx|]; destruct (decide (i = x)) as [Hix|]; [congruence|try subst x..];
      rewrite ?elem_of_union, ?elem_of_singleton, (H10); drop_all; naive_solver.
  - intros x y. rewrite !elem_of_union, !elem_of_singleton. intros [[= -> ->]|Hx].
    + split; [done|]. split; [|split]; [intros [?|?]; [congruence|tauto]|tauto|tauto].
    + destruct (H11 _ _ Hx) as (? & ? & ? & ?). split; [done|]. split; [|done].
      intros [[= -> ->]|?]; [|done]. tauto.
  - done.
  - intros x y z. rewrite elem_of_union, elem_of_singleton. intros [[= -> ->]|Hx]; [apply Hj|by eapply H13].
  - done.
Qed.

Lemma link_bidirected_ok i j g :
  gok g → i ≠ j → j ∉ g_adjacent g i → g_neighbors g i = ∅ → g_neighbors g j = ∅ → gok (link_bidirected i j g).
Proof.
  intros H Hij Hna Hni Hnj. pose proof (gok_adj _ H i j) as Ha.
  assert (∀ k, upair j k ∉ g_un g) as Hj.
  { intros k Hk. apply (gok_nei _ H) in Hk. rewrite Hnj in Hk. set_solver. }
  assert (∀ k, upair i k ∉ g_un g) as Hi.
  { intros k Hk. apply (gok_nei _ H) in Hk. rewrite Hni in Hk. set_solver. }
  destruct H as [H1 H2 H3 H4 H5 H6 H7 H8 H9 H10 H11 H12 H13 H14].
  split; unfold g_parents, g_children, g_spouses, g_neighbors, g_adjacent in *; cbn.
  - by apply over_more.
  - by apply over_new.
  - by apply over_more.
  - by apply upair_new.
  - done.
  - done.
  - done.
  - intros x y. rewrite !dget_dadd, elem_of_union, elem_of_singleton, upair_eq_or.
    destruct (decide (j = x)) as [Hjx|]; destruct (decide (i = x)) as [Hix|]; [congruence|try subst x..];
      rewrite ?elem_of_union, ?elem_of_singleton, H8; drop_all; naive_solver.
  - done.
  - intros x y. rewrite !dget_dadd, !elem_of_union, !elem_of_singleton, upair_eq_or.
    destruct (decide (j = x)) as [Hjx|]; destruct (decide (i = x)) as [Hix|]; [congruence|try subst x..];
      rewrite ?elem_of_union, ?elem_of_singleton, (H10); drop_all; naive_solver.
  - intros x y Hx. destruct (H11 _ _ Hx) as (? & ? & ? & ?). split; [done|]. split; [done|]. split; [|done].
    rewrite elem_of_union, elem_of_singleton, upair_eq_or. intros [[[-> ->]|[-> ->]]|?]; [tauto|tauto|done].
  - intros x y. rewrite elem_of_union, elem_of_singleton. intros [->|?]; [tauto|by apply H12].
  - done.
  - intros x y z. rewrite elem_of_union, elem_of_singleton, upair_eq_or. intros [[[-> ->]|[-> ->]]|?]; [done|done|by eapply H14].
Qed.

Lemma link_undirected_ok i j g :
  gok g → i ≠ j → j ∉ g_adjacent g i →
  g_parents g i = ∅ → g_spouses g i = ∅ → g_parents g j = ∅ → g_spouses g j = ∅ → gok (link_undirected i j g).
Proof.
  intros H Hij Hna Hpi Hsi Hpj Hsj. pose proof (gok_adj _ H i j) as Ha.
  assert (∀ x k, (x = i ∨ x = j) → (k, x) ∉ g_dir g) as Hp.
  { intros x k Hx Hk. apply (gok_par _ H) in Hk. destruct Hx as [-> | ->]; rewrite ?Hpi, ?Hpj in Hk; set_solver. }
  assert (∀ x k, (x = i ∨ x = j) → upair k x ∉ g_bi g) as Hs.
  { intros x k Hx Hk. rewrite upair_comm in Hk. apply (gok_spo _ H) in Hk. destruct Hx as [-> | ->]; rewrite ?Hsi, ?Hsj in Hk; set_solver. }
  destruct H as [H1 H2 H3 H4 H5 H6 H7 H8 H9 H10 H11 H12 H13 H14].
  split; unfold g_parents, g_children, g_spouses, g_neighbors, g_adjacent in *; cbn.
  - by apply over_more.
  - by apply over_more.
  - by apply over_new.
  - done.
  - by apply upair_new.
  - done.
  - done.
  - done.
  - intros x y. rewrite !dget_dadd, elem_of_union, elem_of_singleton, upair_eq_or.
    destruct (decide (j = x)) as [Hjx|]; destruct (decide (i = x)) as [Hix|]; [congruence|try subst x..];
      rewrite ?elem_of_union, ?elem_of_singleton, H9; drop_all; naive_solver.
  - intros x y. rewrite !dget_dadd, !elem_of_union, !elem_of_singleton, upair_eq_or.
    destruct (decide (j = x)) as [Hjx|]; destruct (decide (i = x)) as [Hix|]; [congruence|try subst x..];
      rewrite ?elem_of_union, ?elem_of_singleton, (H10); drop_all; naive_solver.
  - intros x y Hx. destruct (H11 _ _ Hx) as (? & ? & ? & ?). split; [done|]. split; [done|]. split; [done|].
    rewrite elem_of_union, elem_of_singleton, upair_eq_or. intros [[[-> ->]|[-> ->]]|?]; [tauto|tauto|done].
  - intros x y Hx. rewrite elem_of_union, elem_of_singleton. intros [Hxy|?]; [|by eapply H12].
    rewrite Hxy in Hx. tauto.
  - intros x y z Hx. rewrite elem_of_union, elem_of_singleton, upair_eq_or. intros [[[-> ->]|[-> ->]]|?];
      [by apply (Hp i x); [left|]|by apply (Hp j x); [right|]|by eapply H13].
  - intros x y z Hx. rewrite elem_of_union, elem_of_singleton, upair_eq_or. intros [[[-> ->]|[-> ->]]|?];
      [by apply (Hs i x); [left|]|by apply (Hs j x); [right|]|by eapply H14].
Qed.

(** ** Removal of one edge *)
Definition cut_directed (i j : node) (g : ag) : ag :=
  Ag (g_nodes g) (g_dir g ∖ {[(i, j)]}) (g_bi g) (g_un g) (g_nei g) (g_spo g)
    (ddel (g_par g) j i) (ddel (g_chi g) i j) (ddel (ddel (g_adj g) i j) j i).
Definition cut_bidirected (i j : node) (g : ag) : ag :=
  Ag (g_nodes g) (g_dir g) (g_bi g ∖ {[upair i j]}) (g_un g) (g_nei g) (ddel (ddel (g_spo g) i j) j i)
    (g_par g) (g_chi g) (ddel (ddel (g_adj g) i j) j i).
Definition cut_undirected (i j : node) (g : ag) : ag :=
  Ag (g_nodes g) (g_dir g) (g_bi g) (g_un g ∖ {[upair i j]}) (ddel (ddel (g_nei g) i j) j i) (g_spo g)
    (g_par g) (g_chi g) (ddel (ddel (g_adj g) i j) j i).

Lemma remove_directed_absent i j ign g :
  (i, j) ∉ g_dir g → remove_directed i j ign g = (g, if ign then Ok tt else Raise KeyError).
Proof.
  intros H. unfold remove_directed, guard_keyerror, mcatch, mthen, mbind', dir_remove.
  rewrite decide_False by done. by destruct ign.
Qed.
Lemma remove_bidirected_absent i j ign g :
  upair i j ∉ g_bi g → remove_bidirected i j ign g = (g, if ign then Ok tt else Raise KeyError).
Proof.
  intros H. unfold remove_bidirected, guard_keyerror, mcatch, mthen, mbind', bi_remove.
  rewrite decide_False by done. by destruct ign.
Qed.
Lemma remove_undirected_absent i j ign g :
  upair i j ∉ g_un g → remove_undirected i j ign g = (g, if ign then Ok tt else Raise KeyError).
Proof.
  intros H. unfold remove_undirected, guard_keyerror, mcatch, mthen, mbind', un_remove.
  rewrite decide_False by done. by destruct ign.
Qed.

Lemma remove_directed_present i j ign g :
  gok g → (i, j) ∈ g_dir g → remove_directed i j ign g = (cut_directed i j g, Ok tt).
Proof.
  intros H Hin. destruct (gok_dir1 _ H _ _ Hin) as [Hij _].
  unfold remove_directed. apply guard_ok. unfold mthen, mbind', dir_remove. rewrite decide_True by done.
  unfold chi_remove'. rewrite decide_True by (by apply (gok_chi _ H)).
  unfold par_remove'. cbn [g_parents g_par]. rewrite decide_True by (by apply (gok_par _ H)).
  unfold adj_remove at 1. rewrite decide_True by (apply (gok_adj _ H); by left). cbn.
  unfold adj_remove at 1. rewrite decide_True; [done|].
  unfold g_adjacent. cbn. rewrite dget_ddel, decide_False by done. apply (gok_adj _ H). by right; left.
Qed.
Lemma remove_bidirected_present i j ign g :
  gok g → upair i j ∈ g_bi g → remove_bidirected i j ign g = (cut_bidirected i j g, Ok tt).
Proof.
  intros H Hin. pose proof (upair_ne_lt _ _ _ (gok_bilt _ H) Hin) as Hij.
  pose proof Hin as Hin'. rewrite upair_comm in Hin'.
  unfold remove_bidirected. apply guard_ok. unfold mthen, mbind', bi_remove. rewrite decide_True by done.
  unfold spo_remove at 1. rewrite decide_True by (by apply (gok_spo _ H)). cbn.
  unfold spo_remove at 1. rewrite decide_True by
    (unfold g_spouses; cbn; rewrite dget_ddel, decide_False by done; by apply (gok_spo _ H)). cbn.
  unfold adj_remove at 1. rewrite decide_True by (apply (gok_adj _ H); tauto). cbn.
  unfold adj_remove at 1. rewrite decide_True; [done|].
  unfold g_adjacent. cbn. rewrite dget_ddel, decide_False by done. apply (gok_adj _ H). tauto.
Qed.
Lemma remove_undirected_present i j ign g :
  gok g → upair i j ∈ g_un g → remove_undirected i j ign g = (cut_undirected i j g, Ok tt).
Proof.
  intros H Hin. pose proof (upair_ne_lt _ _ _ (gok_unlt _ H) Hin) as Hij.
  pose proof Hin as Hin'. rewrite upair_comm in Hin'.
  unfold remove_undirected. apply guard_ok. unfold mthen, mbind', un_remove. rewrite decide_True by done.
  unfold nei_remove at 1. rewrite decide_True by (by apply (gok_nei _ H)). cbn.
  unfold nei_remove at 1. rewrite decide_True by
    (unfold g_neighbors; cbn; rewrite dget_ddel, decide_False by done; by apply (gok_nei _ H)). cbn.
  unfold adj_remove at 1. rewrite decide_True by (apply (gok_adj _ H); tauto). cbn.
  unfold adj_remove at 1. rewrite decide_True; [done|].
  unfold g_adjacent. cbn. rewrite dget_ddel, decide_False by done. apply (gok_adj _ H). tauto.
Qed.

Lemma over_less (N : nset) (X Y : arcset) : over N X → over N (X ∖ Y).
Proof. intros HX x y [H _]%elem_of_difference. by apply HX. Qed.

Lemma cut_directed_ok i j g : gok g → (i, j) ∈ g_dir g → gok (cut_directed i j g).
Proof.
  intros H Hin. destruct (gok_dir1 _ H _ _ Hin) as (Hij & Hc1 & Hc2 & Hc3).
  destruct H as [H1 H2 H3 H4 H5 H6 H7 H8 H9 H10 H11 H12 H13 H14].
  split; unfold g_parents, g_children, g_spouses, g_neighbors, g_adjacent in *; cbn.
  - by apply over_less.
  - done.
  - done.
  - done.
  - done.
  - intros x y. rewrite dget_ddel, elem_of_difference, elem_of_singleton.
    destruct (decide (j = y)) as [<-|]; rewrite ?elem_of_difference, ?elem_of_singleton, H6; drop_all; naive_solver.
  - intros x y. rewrite dget_ddel, elem_of_difference, elem_of_singleton.
    destruct (decide (i = x)) as [<-|]; rewrite ?elem_of_difference, ?elem_of_singleton, H7; drop_all; naive_solver.
  - done.
  - done.
  - intros x y. rewrite !dget_ddel, !elem_of_difference, !elem_of_singleton.
    pose proof (upair_comm i j) as Huc.
    destruct (decide (j = x)) as [Hjx|]; destruct (decide (i = x)) as [Hix|]; [congruence|try subst x..];
      rewrite ?elem_of_difference, ?elem_of_singleton, (H10); drop_all.
    + destruct (decide (y = i)) as [->|]; [|naive_solver]. rewrite <-Huc. naive_solver.
    + destruct (decide (y = j)) as [->|]; naive_solver.
    + naive_solver.
  - intros x y [Hx _]%elem_of_difference. destruct (H11 _ _ Hx) as (? & ? & ? & ?). set_solver.
  - done.
  - intros x y z [Hx _]%elem_of_difference. by eapply H13.
  - done.
Qed.
Lemma cut_bidirected_ok i j g : gok g → upair i j ∈ g_bi g → gok (cut_bidirected i j g).
Proof.
  intros H Hin. pose proof (upair_ne_lt _ _ _ (gok_bilt _ H) Hin) as Hij.
  pose proof (gok_bi1 _ H _ _ Hin) as Hc1.
  assert ((i, j) ∉ g_dir g) as Hc2. { intros Hd. by apply (gok_dir1 _ H) in Hd as (_ & _ & ? & _). }
  assert ((j, i) ∉ g_dir g) as Hc3.
  { intros Hd. apply (gok_dir1 _ H) in Hd as (_ & _ & Hd & _). apply Hd. by rewrite upair_comm. }
  destruct H as [H1 H2 H3 H4 H5 H6 H7 H8 H9 H10 H11 H12 H13 H14].
  split; unfold g_parents, g_children, g_spouses, g_neighbors, g_adjacent in *; cbn.
  - done.
  - by apply over_less.
  - done.
  - intros x y [Hx _]%elem_of_difference. by apply H4.
  - done.
  - done.
  - done.
  - intros x y. rewrite !dget_ddel, elem_of_difference, elem_of_singleton, upair_eq_or.
    destruct (decide (j = x)) as [Hjx|]; destruct (decide (i = x)) as [Hix|]; [congruence|try subst x..];
      rewrite ?elem_of_difference, ?elem_of_singleton, H8; drop_all; naive_solver.
  - done.
  - intros x y. rewrite !dget_ddel, !elem_of_difference, !elem_of_singleton, upair_eq_or.
    pose proof (upair_comm i j) as Huc.
    destruct (decide (j = x)) as [Hjx|]; destruct (decide (i = x)) as [Hix|]; [congruence|try subst x..];
      rewrite ?elem_of_difference, ?elem_of_singleton, (H10); drop_all.
    + destruct (decide (y = i)) as [->|]; [|naive_solver]. rewrite <-Huc. naive_solver.
    + destruct (decide (y = j)) as [->|]; naive_solver.
    + naive_solver.
  - intros x y Hx. destruct (H11 _ _ Hx) as (? & ? & ? & ?). set_solver.
  - intros x y [Hx _]%elem_of_difference. by apply H12.
  - done.
  - intros x y z [Hx _]%elem_of_difference. by eapply H14.
Qed.
Lemma cut_undirected_ok i j g : gok g → upair i j ∈ g_un g → gok (cut_undirected i j g).
Proof.
  intros H Hin. pose proof (upair_ne_lt _ _ _ (gok_unlt _ H) Hin) as Hij.
  assert (upair i j ∉ g_bi g) as Hc1. { intros Hb. by apply (gok_bi1 _ H _ _ Hb). }
  assert ((i, j) ∉ g_dir g) as Hc2. { intros Hd. by apply (gok_dir1 _ H) in Hd as (_ & _ & _ & ?). }
  assert ((j, i) ∉ g_dir g) as Hc3.
  { intros Hd. apply (gok_dir1 _ H) in Hd as (_ & _ & _ & Hd). apply Hd. by rewrite upair_comm. }
  destruct H as [H1 H2 H3 H4 H5 H6 H7 H8 H9 H10 H11 H12 H13 H14].
  split; unfold g_parents, g_children, g_spouses, g_neighbors, g_adjacent in *; cbn.
  - done.
  - done.
  - by apply over_less.
  - done.
  - intros x y [Hx _]%elem_of_difference. by apply H5.
  - done.
  - done.
  - done.
  - intros x y. rewrite !dget_ddel, elem_of_difference, elem_of_singleton, upair_eq_or.
    destruct (decide (j = x)) as [Hjx|]; destruct (decide (i = x)) as [Hix|]; [congruence|try subst x..];
      rewrite ?elem_of_difference, ?elem_of_singleton, H9; drop_all; naive_solver.
  - intros x y. rewrite !dget_ddel, !elem_of_difference, !elem_of_singleton, upair_eq_or.
    pose proof (upair_comm i j) as Huc.
    destruct (decide (j = x)) as [Hjx|]; destruct (decide (i = x)) as [Hix|]; [congruence|try subst x..];
      rewrite ?elem_of_difference, ?elem_of_singleton, (H10); drop_all.
    + destruct (decide (y = i)) as [->|]; [|naive_solver]. rewrite <-Huc. naive_solver.
    + destruct (decide (y = j)) as [->|]; naive_solver.
    + naive_solver.
  - intros x y Hx. destruct (H11 _ _ Hx) as (? & ? & ? & ?). set_solver.
  - intros x y Hx [Hu _]%elem_of_difference. by apply (H12 x y).
  - intros x y z Hx [Hu _]%elem_of_difference. by eapply (H13 x y z).
  - intros x y z Hx [Hu _]%elem_of_difference. by eapply (H14 x y z).
Qed.
