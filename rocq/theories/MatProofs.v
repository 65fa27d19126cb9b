(** Adjacency matrices. *)
From Coq Require Import QArith.
From Verif Require Import Py Spec DagModel UGraphModel PdagModel CompareModel TopoProofs StateProofs ReachProofs
  UGraphProofs PdagProofs ShdProofs.
#[local] Open Scope nat_scope.

Lemma fold_insert_lookup (ps : list (nat * node)) (m : gmap node nat) x i : NoDup ps.*2 →
  foldl (λ m p, <[p.2 := p.1]> m) m ps !! x = Some i ↔ (i, x) ∈ ps ∨ (x ∉ ps.*2 ∧ m !! x = Some i).
Proof.
  revert m. induction ps as [|[j y] ps IH]; intros m Hnd; cbn [foldl].
  - rewrite elem_of_nil. cbn. split; [intros H; right; split; [apply not_elem_of_nil|done]|intros [?|[_ ?]]; done].
  - cbn in Hnd. apply NoDup_cons in Hnd as [Hy Hnd]. rewrite IH by done. cbn [fst snd fmap list_fmap]. rewrite !elem_of_cons. split.
    + intros [H|[H1 H2]]; [tauto|]. destruct (decide (x = y)) as [->|Hne].
      * rewrite lookup_insert in H2. left. left. congruence.
      * rewrite lookup_insert_ne in H2 by congruence. right. split; [|done]. cbn. intros [?|?]; done.
    + intros [[[= -> ->]|H]|[H1 H2]].
      * right. split; [done|]. by rewrite lookup_insert.
      * by left.
      * right. split; [intros ?; apply H1; by right|]. rewrite lookup_insert_ne; [done|]. intros ->. apply H1. by left.
Qed.
Lemma node2ix_lookup l x i : NoDup l → node2ix l !! x = Some i ↔ l !! i = Some x.
Proof.
  intros Hnd. unfold node2ix. assert ((imap (λ i n, (i, n)) l).*2 = l) as Hl.
  { rewrite fmap_imap. apply list_eq. intros k. rewrite list_lookup_imap. by destruct (l !! k). }
  rewrite fold_insert_lookup by by rewrite Hl. rewrite Hl, lookup_empty. split.
  - intros [H|[_ ?]]; [|done]. apply elem_of_lookup_imap in H as (k & y & [= -> ->] & ?). done.
  - intros H. left. apply elem_of_lookup_imap. by exists i, x.
Qed.

(** The entries of [A] are 1 at the positions in [R] and 0 elsewhere. *)
Definition marks (n : nat) (R : nat → nat → Prop) (A : amat) : Prop :=
  a_rows A = n ∧ a_cols A = n ∧ ∀ i j v, a_at A !! (i, j) = Some v ↔ v = 1%Z ∧ R i j.

Lemma marks_ext n R R' A : marks n R A → (∀ i j, R i j ↔ R' i j) → marks n R' A.
Proof. intros (H1 & H2 & H3) HR. split; [done|]. split; [done|]. intros i j v. by rewrite H3, HR. Qed.

Lemma put_ok n l R A x y i j : marks n R A → NoDup l → length l = n → l !! i = Some x → l !! j = Some y →
  ∃ A', put (node2ix l) x y (Ok A) = Ok A' ∧ marks n (λ a b, (a = i ∧ b = j) ∨ R a b) A'.
Proof.
  intros (H1 & H2 & H3) Hnd Hl Hi Hj. unfold put. cbn [res_bind].
  assert (ix (node2ix l) x = Ok i) as -> by (unfold ix; apply node2ix_lookup in Hi; [by rewrite Hi|done]). cbn [res_bind].
  assert (ix (node2ix l) y = Ok j) as -> by (unfold ix; apply node2ix_lookup in Hj; [by rewrite Hj|done]). cbn [res_bind].
  apply lookup_lt_Some in Hi. apply lookup_lt_Some in Hj. unfold a_set. rewrite decide_True by lia.
  eexists. split; [done|]. split; [done|]. split; [done|]. intros a b v. cbn. destruct (decide ((a, b) = (i, j))) as [[= -> ->]|Hne].
  - rewrite lookup_insert. split; [intros [= <-]; tauto|]. intros [-> _]. done.
  - rewrite lookup_insert_ne by congruence. rewrite H3. split; [tauto|]. intros [-> [[-> ->]|?]]; done.
Qed.

Definition at_ (l : list node) (P : node → node → Prop) (i j : nat) : Prop := ∃ x y, l !! i = Some x ∧ l !! j = Some y ∧ P x y.

Lemma put_fold n l (f : arc → arc) (L : list arc) R A : marks n R A → NoDup l → length l = n →
  (∀ a, a ∈ L → (f a).1 ∈ l ∧ (f a).2 ∈ l) →
  ∃ A', foldl (λ A a, put (node2ix l) (f a).1 (f a).2 A) (Ok A) L = Ok A' ∧
    marks n (λ i j, R i j ∨ at_ l (λ x y, ∃ a, a ∈ L ∧ f a = (x, y)) i j) A'.
Proof.
  revert R A. induction L as [|a L IH]; intros R A HA Hnd Hl Hin.
  - exists A. split; [done|]. eapply marks_ext; [done|]. intros i j. split; [by left|]. intros [?|(x & y & _ & _ & a & Ha & _)]; [done|].
    by apply elem_of_nil in Ha.
  - destruct (Hin a) as [H1 H2]; [left|]. apply elem_of_list_lookup in H1 as [i Hi]. apply elem_of_list_lookup in H2 as [j Hj].
    destruct (put_ok n l R A _ _ i j HA Hnd Hl Hi Hj) as (A1 & HA1 & HM1). cbn [foldl]. rewrite HA1.
    destruct (IH _ A1 HM1 Hnd Hl) as (A' & HA' & HM'); [intros b Hb; apply Hin; by right|]. exists A'. split; [done|].
    eapply marks_ext; [done|]. intros i' j'. split.
    + intros [[[-> ->]|?]|(x & y & Hx & Hy & b & Hb & Heq)]; [|by left|].
      * right. exists (f a).1, (f a).2. split; [done|]. split; [done|]. exists a. split; [left|]. by destruct (f a).
      * right. exists x, y. split; [done|]. split; [done|]. exists b. split; [by right|done].
    + intros [?|(x & y & Hx & Hy & b & Hb & Heq)]; [tauto|]. apply elem_of_cons in Hb as [->|Hb].
      * rewrite Heq in Hi, Hj. cbn in Hi, Hj. left. left. split; eapply NoDup_lookup; done.
      * right. exists x, y. split; [done|]. split; [done|]. by exists b.
Qed.

Lemma marks_zeros n : marks n (λ _ _, False) (a_zeros n).
Proof. split; [done|]. split; [done|]. intros i j v. cbn. rewrite lookup_empty. split; [done|tauto]. Qed.

Lemma sorted_listing X : listing X (sorted_nodes X).
Proof.
  unfold sorted_nodes. split.
  - rewrite merge_sort_Permutation. apply NoDup_elements.
  - intros x. rewrite merge_sort_Permutation. apply elem_of_elements.
Qed.
Lemma listing_length (X : nset) l : listing X l → length l = size X.
Proof.
  intros [Hnd Hin]. assert (X = list_to_set l) as ->; [|by rewrite size_list_to_set].
  apply set_eq. intros x. by rewrite elem_of_list_to_set, Hin.
Qed.

(** ** [to_amat] *)
Definition order_of (X : nset) (nl : option (list node)) : list node :=
  match nl with Some (x :: l) => x :: l | _ => sorted_nodes X end.

Lemma to_amat_ok d o nl : wf d → listing (d_nodes d) (order_of (d_nodes d) nl) →
  ∃ A, to_amat d o nl = Ok (A, order_of (d_nodes d) nl) ∧
    marks (size (d_nodes d)) (at_ (order_of (d_nodes d) nl) (λ x y, (x, y) ∈ d_arcs d)) A.
Proof.
  intros Hwf Hl. unfold to_amat. fold (order_of (d_nodes d) nl). set (l := order_of (d_nodes d) nl) in *.
  destruct (put_fold (size (d_nodes d)) l (λ a, a) (oa o [60] (d_arcs d)) _ _ (marks_zeros _)) as (A & HA & HM).
  - apply Hl. - by apply listing_length.
  - intros [x y] Ha. apply elem_of_oa in Ha. destruct Hl as [_ Hl]. rewrite !Hl. by apply (wf_over d Hwf).
  - exists A. rewrite HA. cbn [res_bind]. split; [done|]. eapply marks_ext; [done|]. intros i j. split.
    + intros [[]|(x & y & Hx & Hy & a & Ha & ->)]. apply elem_of_oa in Ha. by exists x, y.
    + intros (x & y & Hx & Hy & Ha). right. exists x, y. split; [done|]. split; [done|]. exists (x, y). by rewrite elem_of_oa.
Qed.

(** ** [from_amat] *)
Definition entry (A : amat) (i j : nat) : Z := default 0%Z (a_at A !! (i, j)).
Lemma a_get_ok A i j : i < a_rows A → j < a_cols A → a_get A i j = Ok (entry A i j).
Proof. intros H1 H2. unfold a_get. by rewrite decide_True. Qed.
Lemma marks_entry n R A i j : marks n R A → entry A i j ≠ 0%Z ↔ R i j.
Proof.
  intros (_ & _ & H). unfold entry. destruct (a_at A !! (i, j)) as [v|] eqn:Hv; cbn.
  - apply H in Hv as [-> Hr]. split; [done|]. intros _. done.
  - split; [done|]. intros Hr. assert (a_at A !! (i, j) = Some 1%Z) as H1 by (apply H; done). congruence.
Qed.
Lemma res_filter_ok (f : arc → res bool) (g : arc → bool) l : (∀ a, a ∈ l → f a = Ok (g a)) →
  res_filter f l = Ok (filter (λ a, g a = true) l).
Proof.
  induction l as [|a l IH]; intros H; [done|]. cbn [res_filter]. rewrite (H a) by left. cbn [res_bind]. rewrite IH by (intros b Hb; apply H; by right).
  cbn [res_bind]. destruct (g a) eqn:Hg; [rewrite filter_cons_True by done|rewrite filter_cons_False by (by rewrite Hg)]; done.
Qed.
Lemma elem_of_pairs n i j : (i, j) ∈ pairs n ↔ i < n ∧ j < n ∧ i ≠ j.
Proof.
  unfold pairs. rewrite elem_of_list_bind. setoid_rewrite elem_of_list_bind. setoid_rewrite elem_of_seq. split.
  - intros (u & (v & Huv & Hv) & Hu). case_decide; [by apply elem_of_nil in Huv|]. apply elem_of_list_singleton in Huv. injection Huv as -> ->. lia.
  - intros (H1 & H2 & H3). exists i. split; [|lia]. exists j. split; [|lia]. rewrite decide_False by done. by apply elem_of_list_singleton.
Qed.

(** The off-diagonal support of the square part of a matrix. *)
Definition support (A : amat) : arcset :=
  list_to_set (filter (λ a, bool_decide (entry A a.1 a.2 ≠ 0%Z) = true) (pairs (a_rows A))).
Lemma elem_of_support A i j : (i, j) ∈ support A ↔ i < a_rows A ∧ j < a_rows A ∧ i ≠ j ∧ entry A i j ≠ 0%Z.
Proof. unfold support. rewrite elem_of_list_to_set, elem_of_list_filter, elem_of_pairs, bool_decide_eq_true. tauto. Qed.
Lemma from_amat_eq A o : a_rows A ≤ a_cols A → from_amat A o = dag_make o (list_to_set (seq 0 (a_rows A))) (support A).
Proof.
  intros Hle. unfold from_amat. rewrite (res_filter_ok _ (λ a, bool_decide (entry A a.1 a.2 ≠ 0%Z))); [done|].
  intros [i j] H. apply elem_of_pairs in H as (H1 & H2 & _). cbn. by rewrite a_get_ok by lia.
Qed.

(** ** [PDAG.to_amat] *)
Lemma p_to_amat_ok g o nl axis : pok g → listing (p_nodes g) (default (sorted_nodes (p_nodes g)) nl) →
  let l := default (sorted_nodes (p_nodes g)) nl in
  ∃ A, p_to_amat g o nl axis = Ok (A, l) ∧
    marks (size (p_nodes g)) (at_ l (λ x y, (if decide (axis = 0) then (x, y) ∈ p_arcs g else (y, x) ∈ p_arcs g) ∨ upair x y ∈ p_edges g)) A.
Proof.
  intros Hg Hl l. fold l in Hl. unfold p_to_amat. fold l.
  pose (f := λ a : arc, if decide (axis = 0) then a else (a.2, a.1)).
  destruct (put_fold (size (p_nodes g)) l f (oa o [61] (p_arcs g)) _ _ (marks_zeros _)) as (A & HA & HM).
  { apply Hl. } { by apply listing_length. }
  { intros [x y] Ha. apply elem_of_oa in Ha. destruct Hl as [_ Hl]. rewrite !Hl. apply (pok_over g Hg) in Ha. unfold f. case_decide; cbn; tauto. }
  assert (∀ L A0, foldl (λ A (a : arc), if decide (axis = 0) then put (node2ix l) a.1 a.2 A else put (node2ix l) a.2 a.1 A) A0 L =
    foldl (λ A a, put (node2ix l) (f a).1 (f a).2 A) A0 L) as Hf.
  { unfold f. case_decide; done. }
  rewrite Hf, HA. clear Hf HA.
  assert (∀ L, (∀ a, a ∈ L → a.1 ∈ l ∧ a.2 ∈ l) → ∀ R A, marks (size (p_nodes g)) R A →
    ∃ A', foldl (λ A (a : arc), put (node2ix l) a.2 a.1 (put (node2ix l) a.1 a.2 A)) (Ok A) L = Ok A' ∧
    marks (size (p_nodes g)) (λ i j, R i j ∨ at_ l (λ x y, (x, y) ∈ L ∨ (y, x) ∈ L) i j) A') as Hedges.
  { assert (length l = size (p_nodes g)) as Hlen by by apply listing_length. destruct Hl as [Hnd _].
    induction L as [|a L IH]; intros Hin R B HB.
    - exists B. split; [done|]. eapply marks_ext; [done|]. intros i j. split; [by left|]. intros [?|(x & y & _ & _ & [Ha|Ha])]; [done|..]; by apply elem_of_nil in Ha.
    - destruct (Hin a) as [H1 H2]; [left|]. apply elem_of_list_lookup in H1 as [i Hi]. apply elem_of_list_lookup in H2 as [j Hj].
      destruct (put_ok _ l R B _ _ i j HB Hnd Hlen Hi Hj) as (B1 & HB1 & HM1). cbn [foldl]. rewrite HB1.
      destruct (put_ok _ l _ B1 _ _ j i HM1 Hnd Hlen Hj Hi) as (B2 & HB2 & HM2). rewrite HB2.
      destruct (IH ltac:(intros b Hb; apply Hin; by right) _ B2 HM2) as (B' & HB' & HM'). exists B'. split; [done|].
      eapply marks_ext; [done|]. destruct a as [u v]. cbn in *. intros i' j'. split.
      + intros [[[-> ->]|[[-> ->]|?]]|(x & y & Hx & Hy & Ha)]; [| |by left|].
        * right. exists v, u. split; [done|]. split; [done|]. right. left.
        * right. exists u, v. split; [done|]. split; [done|]. left. left.
        * right. exists x, y. split; [done|]. split; [done|]. rewrite !elem_of_cons. tauto.
      + intros [?|(x & y & Hx & Hy & Ha)]; [tauto|]. rewrite !elem_of_cons in Ha.
        destruct Ha as [[[= -> ->]|Ha]|[[= -> ->]|Ha]].
        * left. right. left. split; eapply NoDup_lookup; done.
        * right. exists x, y. tauto.
        * left. left. split; eapply NoDup_lookup; done.
        * right. exists x, y. tauto. }
  destruct (Hedges (oa o [62] (p_edges g))) with (R := λ i j, False ∨ at_ l (λ x y, ∃ a, a ∈ oa o [61] (p_arcs g) ∧ f a = (x, y)) i j) (A := A)
    as (A' & HA' & HM'); [|done|].
  { intros [x y] Ha. apply elem_of_oa in Ha. destruct Hl as [_ Hl]. rewrite !Hl. by apply (pok_over g Hg) in Ha. }
  rewrite HA'. cbn [res_bind]. exists A'. split; [done|]. eapply marks_ext; [done|]. intros i j. clear Hedges HM' HA' HM.
  assert (∀ x y, (x, y) ∈ p_edges g ∨ (y, x) ∈ p_edges g ↔ upair x y ∈ p_edges g) as Hu.
  { intros x y. unfold upair. split.
    - intros [H|H]; pose proof (pok_edge g Hg _ H) as Hlt; cbn in Hlt; [rewrite Nat.min_l, Nat.max_r by lia|rewrite Nat.min_r, Nat.max_l by lia]; done.
    - destruct (decide (x < y)); [rewrite Nat.min_l, Nat.max_r by lia|rewrite Nat.min_r, Nat.max_l by lia]; tauto. }
  split.
  - intros [[[]|(x & y & Hx & Hy & [u v] & Ha & Heq)]|(x & y & Hx & Hy & Ha)].
    + apply elem_of_oa in Ha. exists x, y. split; [done|]. split; [done|]. left. unfold f in Heq. case_decide; cbn in Heq; congruence.
    + rewrite !elem_of_oa, Hu in Ha. exists x, y. tauto.
  - intros (x & y & Hx & Hy & [Ha|Ha]).
    + left. right. exists x, y. split; [done|]. split; [done|]. unfold f. case_decide.
      * exists (x, y). by rewrite elem_of_oa.
      * exists (y, x). by rewrite elem_of_oa.
    + right. exists x, y. rewrite !elem_of_oa, Hu. tauto.
Qed.

(** ** [PDAG.from_amat] *)
Lemma elem_of_upper A i j : (i, j) ∈ upper A ↔ i < a_rows A ∧ j < a_cols A ∧ i < j.
Proof.
  unfold upper. rewrite elem_of_list_bind. setoid_rewrite elem_of_list_bind. setoid_rewrite elem_of_seq. split.
  - intros (u & (v & Huv & Hv) & Hu). case_decide; [|by apply elem_of_nil in Huv]. apply elem_of_list_singleton in Huv. injection Huv as -> ->. lia.
  - intros (H1 & H2 & H3). exists i. split; [|lia]. exists j. split; [|lia]. rewrite decide_True by done. by apply elem_of_list_singleton.
Qed.
Definition oriented_as (axis : nat) (fl : bool) (A : amat) (i j : nat) (a : arc) : Prop :=
  (entry A i j ≠ 0%Z ∧ entry A j i = 0%Z ∧ a = (if decide (axis = 0) then (i, j) else (j, i))) ∨
  (entry A i j = 0%Z ∧ entry A j i ≠ 0%Z ∧ a = (if decide (axis = 0) then (j, i) else if fl then (i, j) else (j, i))).
Lemma read_upper_ok A axis fl l : a_rows A = a_cols A → (∀ i j, (i, j) ∈ l → i < a_rows A ∧ j < a_rows A) →
  ∃ arcs edges, read_upper A axis fl l = Ok (arcs, edges) ∧
    (∀ i j, (i, j) ∈ edges ↔ (i, j) ∈ l ∧ entry A i j ≠ 0%Z ∧ entry A j i ≠ 0%Z) ∧
    (∀ a, a ∈ arcs ↔ ∃ i j, (i, j) ∈ l ∧ oriented_as axis fl A i j a).
Proof.
  intros Hsq. induction l as [|[i j] l IH]; intros Hin.
  - exists [], []. split; [done|]. split; [intros i j; rewrite elem_of_nil; tauto|]. intros a. rewrite elem_of_nil. split; [done|].
    intros (i & j & H & _). by apply elem_of_nil in H.
  - destruct IH as (arcs & edges & Heq & He & Ha); [intros; apply Hin; by right|]. destruct (Hin i j) as [Hi Hj]; [left|].
    cbn [read_upper]. rewrite !a_get_ok by lia. cbn [res_bind]. rewrite Heq. cbn [res_bind].
    set (u := entry A i j). set (v := entry A j i).
    assert (∀ a, (∃ i' j', (i', j') ∈ (i, j) :: l ∧ oriented_as axis fl A i' j' a) ↔ oriented_as axis fl A i j a ∨ a ∈ arcs) as Ha'.
    { intros a. rewrite Ha. split.
      - intros (i' & j' & [[= -> ->]|H]%elem_of_cons & Ho); [by left|]. right. by exists i', j'.
      - intros [Ho|(i' & j' & H & Ho)]; [exists i, j|exists i', j']; rewrite elem_of_cons; tauto. }
    destruct (decide (u = 0%Z)) as [Hu|Hu], (decide (v = 0%Z)) as [Hv|Hv].
    + rewrite (decide_False (P := u ≠ 0%Z ∧ v ≠ 0%Z)) by tauto. rewrite (decide_False (P := u ≠ 0%Z)) by tauto.
      rewrite (decide_False (P := v ≠ 0%Z)) by tauto. exists arcs, edges. split; [done|]. split.
      * intros i' j'. rewrite He, elem_of_cons. split; [tauto|]. intros [[[= -> ->]|?] [??]]; done.
      * intros a. rewrite Ha'. unfold oriented_as. fold u v. tauto.
    + rewrite (decide_False (P := u ≠ 0%Z ∧ v ≠ 0%Z)) by tauto. rewrite (decide_False (P := u ≠ 0%Z)) by tauto.
      rewrite (decide_True (P := v ≠ 0%Z)) by tauto. eexists _, edges. split; [done|]. split.
      * intros i' j'. rewrite He, elem_of_cons. split; [tauto|]. intros [[[= -> ->]|?] [??]]; done.
      * intros a. rewrite Ha', elem_of_cons. unfold oriented_as. fold u v. tauto.
    + rewrite (decide_False (P := u ≠ 0%Z ∧ v ≠ 0%Z)) by tauto. rewrite (decide_True (P := u ≠ 0%Z)) by tauto.
      eexists _, edges. split; [done|]. split.
      * intros i' j'. rewrite He, elem_of_cons. split; [tauto|]. intros [[[= -> ->]|?] [??]]; done.
      * intros a. rewrite Ha', elem_of_cons. unfold oriented_as. fold u v. tauto.
    + rewrite (decide_True (P := u ≠ 0%Z ∧ v ≠ 0%Z)) by tauto. exists arcs, ((i, j) :: edges). split; [done|]. split.
      * intros i' j'. rewrite !elem_of_cons, He. split; [|tauto]. intros [[= -> ->]|?]; tauto.
      * intros a. rewrite Ha'. unfold oriented_as. fold u v. tauto.
Qed.

Lemma acyclic_img (E F : arcset) (f : node → node) : acyclic F → (∀ i j, (i, j) ∈ E → (f i, f j) ∈ F) → acyclic E.
Proof.
  intros HF Hf x Hx. apply (HF (f x)). assert (∀ u v, tc (edge E) u v → tc (edge F) (f u) (f v)) as Htc; [|by apply Htc].
  clear -Hf. intros u v H. induction H as [u v H|u v t H _ IH]; [apply tc_once; by apply Hf|]. eapply tc_l; [|exact IH]. by apply Hf.
Qed.

(** The PDAG built from a matrix, with positions named by [nm]. *)
Lemma build_ok A axis fl (nm : nat → node) (N : nset) o : a_rows A = a_cols A →
  (∀ i j, i < a_rows A → j < a_rows A → nm i = nm j → i = j) → (∀ i, i < a_rows A → nm i ∈ N) →
  ∃ arcs edges, read_upper A axis fl (upper A) = Ok (arcs, edges) ∧
    let g := pdag_make o N (list_to_set ((λ a : arc, (nm a.1, nm a.2)) <$> arcs)) (list_to_set ((λ a : arc, (nm a.1, nm a.2)) <$> edges)) ∅ in
    pok g ∧ p_nodes g = N ∧
    (∀ x y, (x, y) ∈ p_arcs g → ∃ i j, i < a_rows A ∧ j < a_rows A ∧ x = nm i ∧ y = nm j) ∧
    (∀ x y, upair x y ∈ p_edges g → ∃ i j, i < a_rows A ∧ j < a_rows A ∧ x = nm i ∧ y = nm j) ∧
    (∀ i j, i < a_rows A → j < a_rows A → (nm i, nm j) ∈ p_arcs g ↔
       (i < j ∧ oriented_as axis fl A i j (i, j)) ∨ (j < i ∧ oriented_as axis fl A j i (i, j))) ∧
    (∀ i j, i < a_rows A → j < a_rows A → upair (nm i) (nm j) ∈ p_edges g ↔ i ≠ j ∧ entry A i j ≠ 0%Z ∧ entry A j i ≠ 0%Z).
Proof.
  intros Hsq Hinj HN. destruct (read_upper_ok A axis fl (upper A) Hsq) as (arcs & edges & Heq & He & Ha).
  { intros i j H. apply elem_of_upper in H. lia. }
  exists arcs, edges. split; [done|]. set (f := λ a : arc, (nm a.1, nm a.2)).
  assert (∀ a b, oriented_as axis fl A a b (a, b) ∨ oriented_as axis fl A a b (b, a) → entry A a b = 0%Z ∨ entry A b a = 0%Z) as Hz.
  { intros a b. unfold oriented_as. tauto. }
  assert (∀ i j a, oriented_as axis fl A i j a → a = (i, j) ∨ a = (j, i)) as Hor.
  { intros i j a. unfold oriented_as. intros [(_ & _ & ->)|(_ & _ & ->)]; repeat case_decide; destruct fl; tauto. }
  assert (∀ i j, (i, j) ∈ arcs ↔ i < a_rows A ∧ j < a_rows A ∧
    ((i < j ∧ oriented_as axis fl A i j (i, j)) ∨ (j < i ∧ oriented_as axis fl A j i (i, j)))) as Harcs.
  { intros i j. rewrite Ha. split.
    - intros (u & v & Huv & Ho). apply elem_of_upper in Huv as (H1 & H2 & H3). destruct (Hor _ _ _ Ho) as [[= -> ->]|[= -> ->]].
      + split; [lia|]. split; [lia|]. by left.
      + split; [lia|]. split; [lia|]. by right.
    - intros (H1 & H2 & [[H3 Ho]|[H3 Ho]]); [exists i, j|exists j, i]; rewrite elem_of_upper; (split; [lia|done]). }
  assert (∀ i j, (i, j) ∈ edges ↔ i < j ∧ j < a_rows A ∧ entry A i j ≠ 0%Z ∧ entry A j i ≠ 0%Z) as Hedges.
  { intros i j. rewrite He, elem_of_upper. split; [intros ((?&?&?)&?&?)|intros (?&?&?&?)]; repeat split; try done; lia. }
  assert (∀ L x y, (x, y) ∈ (list_to_set (f <$> L) : arcset) ↔ ∃ i j, (i, j) ∈ L ∧ x = nm i ∧ y = nm j) as Himg.
  { intros L x y. rewrite elem_of_list_to_set, elem_of_list_fmap. split.
    - intros ([i j] & [= -> ->] & H). by exists i, j.
    - intros (i & j & H & -> & ->). by exists (i, j). }
  assert (∀ i j i' j', oriented_as axis fl A i j (i', j') → ¬ oriented_as axis fl A i j (j', i') ∨ i' = j') as Hone.
  { intros i j i' j'. unfold oriented_as. intros [(H1 & H2 & H3)|(H1 & H2 & H3)].
    - destruct (decide (i' = j')); [by right|]. left. intros [(H4 & H5 & H6)|(H4 & H5 & H6)]; [|done]. rewrite <-H3 in H6. congruence.
    - destruct (decide (i' = j')); [by right|]. left. intros [(H4 & H5 & H6)|(H4 & H5 & H6)]; [done|]. rewrite <-H3 in H6. congruence. }
  destruct (pdag_make_ok o N (list_to_set (f <$> arcs)) (list_to_set (f <$> edges)) ∅) as (Hok & HA & _ & HE & Hnodes & _).
  - intros x y H1 H2. apply Himg in H1 as (i & j & H1 & -> & ->). apply Himg in H2 as (j' & i' & H2 & Hj & Hi).
    apply Harcs in H1 as (L1 & L2 & H1). apply Harcs in H2 as (L3 & L4 & H2).
    apply Hinj in Hj; [|done|done]. apply Hinj in Hi; [|done|done]. subst i' j'.
    destruct H1 as [[H1 O1]|[H1 O1]], H2 as [[H2 O2]|[H2 O2]]; try lia; destruct (Hone _ _ _ _ O1); done || lia.
  - intros x H. apply Himg in H as (i & j & H & -> & Hij). apply Hedges in H as (H1 & H2 & _). apply Hinj in Hij; lia.
  - intros x y H. apply Himg in H as (i & j & H & -> & ->). apply Hedges in H as (H1 & H2 & H3 & H4).
    intros [H|H]; apply Himg in H as (i' & j' & H & Hi & Hj); apply Harcs in H as (L1 & L2 & H);
      (apply Hinj in Hi; [|lia|lia]); (apply Hinj in Hj; [|lia|lia]); subst i' j'; destruct H as [[H O]|[H O]]; try lia;
      destruct (Hz i j); [tauto|done|done|tauto|done|done].
  - cbv zeta. split; [done|]. rewrite HA. split; [|split; [|split; [|split]]].
    + apply Hnodes.
      * intros x y H. apply Himg in H as (i & j & H & -> & ->). apply Harcs in H as (H1 & H2 & _). split; by apply HN.
      * intros x y H. apply Himg in H as (i & j & H & -> & ->). apply Hedges in H as (H1 & H2 & _). split; apply HN; lia.
    + intros x y H. apply Himg in H as (i & j & H & -> & ->). apply Harcs in H as (H1 & H2 & _). by exists i, j.
    + intros x y H. apply HE in H as [H|H]; apply Himg in H as (i & j & H & -> & ->); apply Hedges in H as (H1 & H2 & _).
      * exists i, j. repeat split; lia. * exists j, i. repeat split; lia.
    + intros i j Hi Hj. rewrite Himg. split.
      * intros (i' & j' & H & Hi' & Hj'). apply Harcs in H as (L1 & L2 & H). apply Hinj in Hi'; [|lia|lia]. apply Hinj in Hj'; [|lia|lia]. by subst.
      * intros H. exists i, j. split; [|done]. by apply Harcs.
    + intros i j Hi Hj. rewrite HE. unfold adjacent. rewrite !Himg. split.
      * intros [(i' & j' & H & Hi' & Hj')|(i' & j' & H & Hi' & Hj')]; apply Hedges in H as (H1 & H2 & H3 & H4);
          (apply Hinj in Hi'; [|lia|lia]); (apply Hinj in Hj'; [|lia|lia]); subst; (split; [lia|done]).
      * intros (Hne & H1 & H2). destruct (decide (i < j)).
        -- left. exists i, j. split; [|done]. apply Hedges. done.
        -- right. exists j, i. split; [|done]. apply Hedges. repeat split; try done. lia.
Qed.
