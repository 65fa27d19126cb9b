(** Matrices of ancestral graphs and PAGs. *)
From Coq Require Import ZArith.
From Verif Require Import Py Spec SpecMixed DagModel UGraphModel PdagModel CompareModel AncestralModel MagMatModel
  TopoProofs StateProofs UGraphProofs PdagProofs QueryProofs MatProofs AncestralState AncestralProofs AncestralCopy MWalkProofs MsepProofs PropertiesAncestral.
#[local] Open Scope nat_scope.

Lemma elem_of_upto p x : x ∈ upto p ↔ x < p.
Proof. unfold upto. rewrite elem_of_list_to_set, elem_of_seq. lia. Qed.
Lemma size_upto p : size (upto p) = p.
Proof. unfold upto. rewrite size_list_to_set by apply NoDup_seq. by rewrite seq_length. Qed.

(** ** Sequences of writes *)
Lemma writes_ok l A n :
  a_rows A = n → a_cols A = n → (∀ i j v, (i, j, v) ∈ l → i < n ∧ j < n) →
  ∃ A', writes l A = Ok A' ∧ a_rows A' = n ∧ a_cols A' = n ∧
    (∀ i j v, (i, j, v) ∈ l → (∀ w, (i, j, w) ∈ l → w = v) → entry A' i j = v) ∧
    (∀ i j, (∀ w, (i, j, w) ∉ l) → entry A' i j = entry A i j).
Proof.
  revert A. induction l as [|[[i j] v] l IH]; intros A Hr Hc Hl.
  { exists A. split_and!; [done..| |done]. intros i j v H. by apply elem_of_nil in H. }
  unfold writes. cbn [loopR fst snd]. unfold a_set at 1. destruct (Hl i j v) as [Hi Hj]; [apply elem_of_list_here|].
  rewrite decide_True by lia. set (A1 := Amat _ _ _).
  assert (∀ a b, entry A1 a b = if decide ((a, b) = (i, j)) then v else entry A a b) as HA1.
  { intros a b. unfold entry, A1. cbn. case_decide as Hd; [injection Hd as -> ->; by rewrite lookup_insert|by rewrite lookup_insert_ne by congruence]. }
  destruct (IH A1) as (A' & E & H1 & H2 & H3 & H4); [done|done|intros a b w H; apply (Hl a b w); by apply elem_of_list_further|].
  exists A'. split; [exact E|]. split_and!; [done..| |].
  - intros a b w Hin Huniq. destruct (decide (Exists (λ e : nat * nat * Z, e.1 = (a, b)) l)) as [Hex|Hex].
    + apply Exists_exists in Hex as ([[a' b'] w'] & Hin' & [= -> ->]). apply H3.
      * rewrite <-(Huniq w') by by apply elem_of_list_further. done.
      * intros z Hz. apply Huniq. by apply elem_of_list_further.
    + assert (∀ z, (a, b, z) ∉ l) as Hno by (intros z Hz; apply Hex, Exists_exists; by exists (a, b, z)).
      rewrite H4 by done. apply elem_of_cons in Hin as [[= -> -> ->]|Hin]; [|by apply Hno in Hin]. rewrite HA1. by rewrite decide_True.
  - intros a b Hno. rewrite H4, HA1.
    + rewrite decide_False; [done|]. intros [= -> ->]. apply (Hno v), elem_of_list_here.
    + intros w Hw. apply (Hno w). by apply elem_of_list_further.
Qed.

Lemma elem_of_both v w e i j (u : Z) : (i, j, u) ∈ both v w e ↔ ((i, j) = e ∧ u = v) ∨ ((j, i) = e ∧ u = w).
Proof. unfold both. destruct e as [a b]. rewrite !elem_of_cons, elem_of_nil. cbn. naive_solver. Qed.
Lemma elem_of_boths (l : list arc) v w i j (u : Z) : (i, j, u) ∈ l ≫= both v w ↔ ((i, j) ∈ l ∧ u = v) ∨ ((j, i) ∈ l ∧ u = w).
Proof.
  rewrite elem_of_list_bind. split.
  - intros (e & [[<- ->]|[<- ->]]%elem_of_both & He); auto.
  - intros [[H ->]|[H ->]]; [exists (i, j)|exists (j, i)]; (split; [|done]); apply elem_of_both; auto.
Qed.

(** ** [AncestralGraph.to_amat] *)
(** The entry the documentation calls the meaning of the numbers: 2 an arrowhead at
    the column node, 3 a tail at it, 0 no edge. *)
Definition marked (G : mixed) (i j : node) (v : Z) : Prop :=
  (v = 2%Z ∧ into G i j) ∨ (v = 3%Z ∧ ((j, i) ∈ mx_dir G ∨ neighbor G i j)) ∨ (v = 0%Z ∧ ¬ madj G i j).

Lemma ag_to_amat_ok g o :
  gok g → g_nodes g = upto (size (g_nodes g)) →
  ∃ A, ag_to_amat g o = Ok A ∧ a_rows A = size (g_nodes g) ∧ a_cols A = size (g_nodes g) ∧
    ∀ i j, marked (gmix g) i j (entry A i j).
Proof.
  intros Hg HN. unfold ag_to_amat. set (n := size (g_nodes g)) in *.
  set (l := _ ++ _ ++ _).
  assert (∀ i j v, (i, j, v) ∈ l ↔ (v = 2%Z ∧ into (gmix g) i j) ∨ (v = 3%Z ∧ ((j, i) ∈ mx_dir (gmix g) ∨ neighbor (gmix g) i j))) as Hl.
  { intros i j v. unfold l. rewrite !elem_of_app, !elem_of_boths, !elem_of_oa. unfold into, spouse, neighbor. cbn. tauto. }
  assert (∀ i j v, (i, j, v) ∈ l → madj (gmix g) i j) as Hadj.
  { intros i j v [[_ H]|[_ H]]%Hl; unfold into, madj in *; tauto. }
  destruct (writes_ok l (a_zeros n) n) as (A & E & H1 & H2 & H3 & H4); [done|done| |].
  { intros i j v H%Hadj. apply (madj_nodes g Hg) in H. by rewrite HN, !elem_of_upto in H. }
  exists A. split_and!; [done..|]. intros i j.
  pose proof (gmix_simple g Hg) as Hsi.
  destruct (decide (madj (gmix g) i j)) as [Ha|Hna].
  - assert (into (gmix g) i j ∨ ((j, i) ∈ mx_dir (gmix g) ∨ neighbor (gmix g) i j)) as Hor by (unfold into, madj in *; tauto).
    assert (into (gmix g) i j → ¬ ((j, i) ∈ mx_dir (gmix g) ∨ neighbor (gmix g) i j)) as Hex.
    { intros [Hd|Hs] [Hd'|Hn].
      - by destruct (simple_dir _ Hsi i j Hd) as (? & _).
      - by destruct (simple_dir _ Hsi i j Hd) as (_ & _ & ?).
      - destruct (simple_dir _ Hsi j i Hd') as (_ & Hns & _). by apply Hns, spouse_sym.
      - by apply (simple_bi _ Hsi i j). }
    destruct Hor as [Hi|Ht].
    + left. split; [|done]. apply H3; [apply Hl; by left|]. intros w [[-> _]|[_ H]]%Hl; [done|]. by destruct (Hex Hi).
    + right. left. split; [|done]. apply H3; [apply Hl; by right|]. intros w [[_ H]|[-> _]]%Hl; [|done]. by destruct (Hex H).
  - right. right. split; [|done]. rewrite H4; [done|]. intros w H%Hadj. done.
Qed.

(** ** [AncestralGraph.from_amat] *)
Lemma read_pairs_ok A l :
  (∀ i j, (i, j) ∈ l → i < a_rows A ∧ j < a_rows A) → a_rows A = a_cols A →
  ∃ D B U, read_pairs A l = Ok (D, B, U) ∧
    (∀ i j, (i, j) ∈ D ↔ ((i, j) ∈ l ∨ (j, i) ∈ l) ∧ entry A i j = 2%Z ∧ entry A j i = 3%Z) ∧
    (∀ i j, (i, j) ∈ B ↔ (i, j) ∈ l ∧ entry A i j = 2%Z ∧ entry A j i = 2%Z) ∧
    (∀ i j, (i, j) ∈ U ↔ (i, j) ∈ l ∧ entry A i j = 3%Z ∧ entry A j i = 3%Z).
Proof.
  intros Hl Hsq. induction l as [|[i j] l IH].
  { exists [], [], []. split; [done|]. split_and!; intros i j; rewrite !elem_of_nil; tauto. }
  destruct IH as (D & B & U & E & HD & HB & HU); [intros a b H; apply Hl; by apply elem_of_list_further|].
  destruct (Hl i j) as [Hi Hj]; [apply elem_of_list_here|].
  cbn [read_pairs]. rewrite !a_get_ok by lia. cbn [res_bind]. rewrite E. cbn [res_bind].
  assert (∀ a b, (b, a) = (i, j) ↔ (a, b) = (j, i)) as Hsw by (intros a b; split; intros [= -> ->]; done).
  repeat case_decide; eexists _, _, _; (split; [reflexivity|]); (split_and!; intros a b;
    rewrite ?elem_of_cons, ?HD, ?HB, ?HU, ?Hsw; clear HD HB HU E Hl Hsq Hi Hj Hsw);
    (destruct (decide ((a, b) = (i, j))) as [[= -> ->]|N1]; [|destruct (decide ((a, b) = (j, i))) as [[= -> ->]|N2]]);
    intuition congruence.
Qed.

(** ** [PAG] *)
Lemma writes_app l l' A : writes (l ++ l') A = res_bind (writes l A) (writes l').
Proof. revert A. induction l as [|w l IH]; intros A; [done|]. unfold writes in *. cbn. destruct (a_set _ _ _ A); [apply IH|done]. Qed.
Lemma adj_loop l A : (∀ e : arc, e ∈ l → e.1 ≠ e.2) →
  loopR (λ e A, if decide (e.1 = e.2) then Raise ValueError else writes (both 1 1 e) A) l A = writes (l ≫= both 1 1) A.
Proof.
  revert A. induction l as [|e l IH]; intros A Hl; [done|]. cbn [loopR]. rewrite decide_False by apply Hl, elem_of_list_here.
  rewrite bind_cons, writes_app. destruct (writes (both 1 1 e) A); [|done]. cbn [res_bind]. apply IH. intros f Hf. apply Hl. by apply elem_of_list_further.
Qed.
(** What [PAG.to_amat] writes; heads win over tails. *)
Definition pag_entry (g : pag) (i j : node) : Z :=
  if decide ((i, j) ∈ pg_heads g) then 2 else if decide ((i, j) ∈ pg_tails g) then 3
  else if decide ((i, j) ∈ pg_adj g ∨ (j, i) ∈ pg_adj g) then 1 else 0.
Lemma pag_to_amat_ok g o :
  (∀ e : arc, e ∈ pg_adj g → e.1 ≠ e.2) →
  (∀ e : arc, e ∈ pg_adj g ∪ pg_heads g ∪ pg_tails g → e.1 < size (pg_nodes g) ∧ e.2 < size (pg_nodes g)) →
  ∃ A, pag_to_amat g o = Ok A ∧ a_rows A = size (pg_nodes g) ∧ a_cols A = size (pg_nodes g) ∧ ∀ i j, entry A i j = pag_entry g i j.
Proof.
  intros Hne Hin. unfold pag_to_amat. set (n := size (pg_nodes g)) in *. rewrite adj_loop by (intros e He; apply Hne; by rewrite elem_of_oa in He).
  destruct (writes_ok (oa o [108] (pg_adj g) ≫= both 1 1) (a_zeros n) n) as (A1 & -> & R1 & C1 & P1 & Q1); [done|done| |].
  { intros i j v. rewrite elem_of_boths, !elem_of_oa. intros [[H _]|[H _]].
    - apply (Hin (i, j)). clear -H. set_solver.
    - assert (j < n ∧ i < n); [|tauto]. apply (Hin (j, i)). clear -H. set_solver. }
  assert (∀ (X : arcset) (l : list nat) (v : Z) (i j : nat) (w : Z), (i, j, w) ∈ (λ e : arc, (e.1, e.2, v)) <$> oa o l X ↔ (i, j) ∈ X ∧ w = v) as Hone.
  { intros X l v i j w. rewrite elem_of_list_fmap. setoid_rewrite elem_of_oa. split; [intros ([a b] & [= -> -> ->] & H); done|].
    intros [H ->]. by exists (i, j). }
  cbn [res_bind]. destruct (writes_ok ((λ e : arc, (e.1, e.2, 3%Z)) <$> oa o [109] (pg_tails g)) A1 n) as (A2 & -> & R2 & C2 & P2 & Q2); [done|done| |].
  { intros i j v [H _]%Hone. apply (Hin (i, j)). clear -H. set_solver. }
  cbn [res_bind]. destruct (writes_ok ((λ e : arc, (e.1, e.2, 2%Z)) <$> oa o [110] (pg_heads g)) A2 n) as (A3 & -> & R3 & C3 & P3 & Q3); [done|done| |].
  { intros i j v [H _]%Hone. apply (Hin (i, j)). clear -H. set_solver. }
  exists A3. split_and!; [done..|]. intros i j. unfold pag_entry. case_decide as H1.
  { apply P3; [by apply Hone|]. by intros w [_ ->]%Hone. }
  rewrite Q3 by (by intros w [? _]%Hone). case_decide as H2.
  { apply P2; [by apply Hone|]. by intros w [_ ->]%Hone. }
  rewrite Q2 by (by intros w [? _]%Hone). case_decide as H3.
  - apply P1; [rewrite elem_of_boths, !elem_of_oa; tauto|]. intros w. rewrite elem_of_boths. naive_solver.
  - rewrite Q1; [done|]. intros w. rewrite elem_of_boths, !elem_of_oa. tauto.
Qed.
Lemma elem_of_cells A i j : (i, j) ∈ cells A ↔ i < a_rows A ∧ j < a_cols A.
Proof.
  unfold cells. rewrite elem_of_list_bind. setoid_rewrite elem_of_list_bind. split.
  - intros (x & (y & H & Hy) & Hx). apply elem_of_list_singleton in H. injection H as -> ->. rewrite elem_of_seq in Hx, Hy. lia.
  - intros [Hi Hj]. exists i. rewrite elem_of_seq. split; [|lia]. exists j. rewrite elem_of_seq. split; [by apply elem_of_list_singleton|lia].
Qed.
Lemma pag_from_amat_ok A :
  let g := pag_from_amat A in
  pg_nodes g = upto (a_rows A) ∧
  (∀ i j, (i, j) ∈ pg_heads g ↔ i < a_rows A ∧ j < a_cols A ∧ entry A i j = 2%Z) ∧
  (∀ i j, (i, j) ∈ pg_tails g ↔ i < a_rows A ∧ j < a_cols A ∧ entry A i j = 3%Z) ∧
  (∀ e, e ∈ pg_adj g ↔ ∃ i j, e = upair i j ∧ i < a_rows A ∧ j < a_cols A ∧ (entry A i j = 1%Z ∨ entry A i j = 2%Z ∨ entry A i j = 3%Z)).
Proof.
  cbn. split; [done|]. split_and!.
  - intros i j. rewrite elem_of_list_to_set, elem_of_list_filter, elem_of_cells, bool_decide_eq_true. unfold entry. tauto.
  - intros i j. rewrite elem_of_list_to_set, elem_of_list_filter, elem_of_cells, bool_decide_eq_true. unfold entry. tauto.
  - intros e. rewrite elem_of_list_to_set, elem_of_list_fmap. split.
    + intros ([i j] & -> & H). rewrite elem_of_list_filter, elem_of_cells, bool_decide_eq_true in H. exists i, j. unfold entry. tauto.
    + intros (i & j & -> & H). exists (i, j). split; [done|]. rewrite elem_of_list_filter, elem_of_cells, bool_decide_eq_true. unfold entry in H. tauto.
Qed.
