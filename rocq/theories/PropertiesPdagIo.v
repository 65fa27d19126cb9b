(** Final theorems about the rows, data frames and sparse matrices written for a PDAG: C131. *)
From Coq Require Import QArith.Qcanon.
From Verif Require Import Py Spec SpecMec SpecCompare DagModel DsepModel UGraphModel PdagModel CompareModel QMatModel ConvModel PdagIoModel TopoProofs StateProofs
  UGraphProofs PdagProofs CpdagProofs MatProofs PropertiesDag PropertiesMec PropertiesEnum PropertiesCompare.
#[local] Open Scope nat_scope.

(** ** C131: [to_csv], [to_df], [to_sparse] *)

(** The rows: every arc once in its direction, every edge once in both, nothing else. *)
Theorem C131_to_csv g o : pdag_wf g →
  NoDup (p_to_csv g o) ∧ (∀ x y, (x, y) ∈ p_to_csv g o ↔ x ∈ p_parents g y ∨ y ∈ p_unbrs g x) ∧
  length (p_to_csv g o) = size (p_arcs g) + 2 * size (p_edges g).
Proof.
  rewrite <-pok_pdag_wf. intros Hg.
  assert (∀ x y, (x, y) ∈ (e ← oa o [213] (p_edges g); [e; (e.2, e.1)]) ↔ y ∈ p_unbrs g x) as HE.
  { intros x y. rewrite elem_of_list_bind, (pok_unb g Hg). split.
    - intros ([a b] & H & He). rewrite elem_of_oa in He. pose proof (pok_edge g Hg _ He) as Hlt. cbn in *.
      rewrite elem_of_cons, elem_of_list_singleton in H. unfold upair. destruct H as [[= -> ->]|[= -> ->]]; (split; [lia|]).
      + by rewrite Nat.min_l, Nat.max_r by lia.
      + by rewrite Nat.min_r, Nat.max_l by lia.
    - intros [Hne H]. exists (upair x y). rewrite elem_of_oa. split; [|done]. unfold upair. cbn. rewrite elem_of_cons, elem_of_list_singleton.
      destruct (decide (x < y)); [left; by rewrite Nat.min_l, Nat.max_r by lia|right; by rewrite Nat.min_r, Nat.max_l by lia]. }
  unfold p_to_csv. split; [|split].
  - apply NoDup_app. split; [apply NoDup_oa|]. split.
    + intros [x y] H Hb. rewrite elem_of_oa in H. apply HE in Hb. apply (pok_unb g Hg) in Hb as [_ Hb]. by apply (pok_disj g Hg _ _ H).
    + assert (∀ l : list arc, NoDup l → (∀ e, e ∈ l → e.1 < e.2) → NoDup (e ← l; [e; (e.2, e.1)])) as Hnd; [|apply Hnd; [apply NoDup_oa|intros e He; apply (pok_edge g Hg); by rewrite elem_of_oa in He]].
      clear. induction l as [|[a b] l IH]; intros Hnd Hlt; [apply NoDup_nil_2|]. apply NoDup_cons in Hnd as [Hn Hnd].
      assert (a < b) as Hab by (apply (Hlt (a, b)); left).
      assert (∀ x y, (x, y) ∈ (e ← l; [e; (e.2, e.1)]) → (x, y) ∈ l ∨ (y, x) ∈ l) as Hin.
      { intros x y H. apply elem_of_list_bind in H as ([c d] & H & He). rewrite elem_of_cons, elem_of_list_singleton in H. destruct H as [[= -> ->]|[= -> ->]]; auto. }
      cbn [mbind list_bind app]. change (list_bind arc arc (λ e, [e; (e.2, e.1)]) l) with (e ← l; [e; (e.2, e.1)]). cbn [fst snd].
      assert (∀ e, e ∈ l → e.1 < e.2) as Hlt' by (intros e He; apply Hlt; by right).
      apply NoDup_cons. split; [|apply NoDup_cons; split; [|by apply IH]].
      * rewrite elem_of_cons. intros [[= ? ?]|H]; [lia|]. apply Hin in H as [H|H]; [done|]. specialize (Hlt' _ H). cbn in Hlt'. lia.
      * intros H. apply Hin in H as [H|H]; [|done]. specialize (Hlt' _ H). cbn in Hlt'. lia.
  - intros x y. rewrite elem_of_app, HE, elem_of_oa, (pok_par g Hg). done.
  - rewrite app_length. assert (∀ l : list arc, length (e ← l; [e; (e.2, e.1)]) = 2 * length l) as Hl.
    { clear. induction l as [|e l IH]; [done|]. cbn [mbind list_bind app length]. change (list_bind arc arc (λ e, [e; (e.2, e.1)]) l) with (e ← l; [e; (e.2, e.1)]). rewrite IH. lia. }
    rewrite Hl. assert (∀ k X, length (oa o k X) = size X) as Hs.
    { intros k X. unfold size, set_size. cbn. apply Permutation_length, NoDup_Permutation; [apply NoDup_oa|apply NoDup_elements|]. intros a. by rewrite elem_of_oa, elem_of_elements. }
    by rewrite !Hs.
Qed.

(** The rows, in any order, determine arcs and edges; only isolated nodes are lost. *)
Theorem C131_csv_determines g h o o' : pdag_wf g → pdag_wf h → (∀ e, e ∈ p_to_csv g o ↔ e ∈ p_to_csv h o') →
  p_arcs g = p_arcs h ∧ p_edges g = p_edges h.
Proof.
  intros Hg Hh H. destruct (C131_to_csv g o Hg) as (_ & Rg & _). destruct (C131_to_csv h o' Hh) as (_ & Rh & _).
  assert (∀ x y, x ∈ p_parents g y ∨ y ∈ p_unbrs g x ↔ x ∈ p_parents h y ∨ y ∈ p_unbrs h x) as E by (intros x y; by rewrite <-Rg, <-Rh).
  rewrite <-pok_pdag_wf in Hg, Hh. clear H Rg Rh.
  assert (∀ k x y, pok k → (x, y) ∈ p_arcs k ↔ (x ∈ p_parents k y ∨ y ∈ p_unbrs k x) ∧ ¬ (y ∈ p_parents k x ∨ x ∈ p_unbrs k y)) as HA.
  { intros k x y Hk. rewrite !(pok_par k Hk), !(pok_unb k Hk), (upair_comm y x). split; [|intros [[?|[? ?]] Hn]; [done|]; exfalso; apply Hn; right; split; [by apply not_eq_sym|done]].
    intros H. split; [by left|]. intros [H'|[_ H']]; [by apply (pok_asym k Hk _ _ H)|by apply (pok_disj k Hk _ _ H)]. }
  split; apply set_eq; intros [x y]; [by rewrite !HA, !E by done|].
  assert (∀ k, pok k → (x, y) ∈ p_edges k ↔ x < y ∧ (x ∈ p_parents k y ∨ y ∈ p_unbrs k x) ∧ (y ∈ p_parents k x ∨ x ∈ p_unbrs k y)) as HU.
  { intros k Hk. rewrite !(pok_par k Hk), !(pok_unb k Hk), (upair_comm y x). split.
    - intros H. pose proof (pok_edge k Hk _ H) as Hlt. cbn in Hlt. split; [done|]. unfold upair. rewrite Nat.min_l, Nat.max_r by lia. split; right; (split; [lia|done]).
    - intros (Hlt & H1 & H2). assert (upair x y ∈ p_edges k) as H.
      { destruct H1 as [H1|[_ ?]]; [|done]. destruct H2 as [H2|[_ ?]]; [|done]. by destruct (pok_asym k Hk _ _ H1). }
      unfold upair in H. by rewrite Nat.min_l, Nat.max_r in H by lia. }
  by rewrite !HU, !E by done.
Qed.
Theorem C131_csv_nodes_refuted : ∃ g h, pdag_wf g ∧ pdag_wf h ∧ p_nodes g ≠ p_nodes h ∧ p_to_csv g oracle0 ≠ [] ∧ ∀ o, p_to_csv g o = p_to_csv h o.
Proof.
  exists (pdag_make oracle0 {[1; 2]} {[(1, 2)]} ∅ ∅), (pdag_make oracle0 {[1; 2; 3]} {[(1, 2)]} ∅ ∅).
  assert (∀ N, pdag_wf (pdag_make oracle0 N {[(1, 2)]} ∅ ∅)) as Hw.
  { intros N. apply pok_pdag_wf. apply (pdag_make_ok oracle0 N {[(1, 2)]} ∅ ∅); [|set_solver|set_solver]. intros x y H H'. apply elem_of_singleton in H, H'. congruence. }
  split; [apply Hw|]. split; [apply Hw|]. split; [by_vm|]. split; [by_vm|]. intros o. unfold p_to_csv. f_equal.
Qed.

(** For any list of the nodes [to_df] labels rows and columns with it, an entry is 1 for an arc (in
    the direction of the axis) or an edge, else 0; [from_df] gives the graph back; [to_sparse] has the
    same entries. *)
Theorem C131_to_df g o o' nl axis : pdag_wf g → (∀ l, nl = Some l → listing (p_nodes g) l) →
  ∃ A l g', p_to_df g o nl axis = Ok (Df A l l) ∧ listing (p_nodes g) l ∧ (∀ l', nl = Some l' → l = l') ∧
    (∀ i j x y, l !! i = Some x → l !! j = Some y →
      entry A i j = if decide ((if decide (axis = 0) then (x, y) else (y, x)) ∈ p_arcs g ∨ upair x y ∈ p_edges g) then 1%Z else 0%Z) ∧
    p_from_df A l o' axis = Ok g' ∧ pdag_wf g' ∧ p_nodes g' = p_nodes g ∧ p_arcs g' = p_arcs g ∧ p_edges g' = p_edges g ∧
    p_to_sparse g o nl axis = Ok (A, l).
Proof.
  intros Hw Hnl. destruct (C30_data_frame g o o' nl axis Hw Hnl) as (A & l & g' & HA & Hdf & Hrest).
  exists A, l, g'. pose proof (proj2 (pok_pdag_wf g) Hw) as Hg.
  destruct (p_matrix g o nl axis Hg Hnl) as (A' & l' & HA' & Hl & Hlen & Heq & Hr & Hc & _). rewrite HA in HA'. injection HA' as <- <-.
  unfold p_to_df, p_to_sparse. rewrite HA. cbn [res_bind fst snd]. unfold df_make. rewrite decide_True by (split; congruence).
  split; [done|]. split; [done|]. split; [done|]. split; [|by destruct Hrest as (? & ? & ? & ?)].
  assert (l = default (sorted_nodes (p_nodes g)) nl) as Hld.
  { destruct nl as [l0|]; [by apply Heq|]. unfold p_to_amat in HA. cbn [default] in HA. destruct (foldl _ _ _); [|done]. cbn in HA. by injection HA. }
  destruct (p_to_amat_ok g o nl axis Hg) as (A' & HA' & HM); [by rewrite <-Hld|]. rewrite HA in HA'. injection HA' as <- _. rewrite <-Hld in HM.
  destruct HM as (_ & _ & HM). intros i j x y Hi Hj. unfold entry. destruct (decide (_ ∨ _)) as [D|D].
  - assert (a_at A !! (i, j) = Some 1%Z) as ->; [|done]. apply HM. split; [done|]. exists x, y. split; [done|]. split; [done|]. by destruct (decide (axis = 0)).
  - destruct (a_at A !! (i, j)) as [v|] eqn:Hv; [|done]. exfalso. apply D. apply HM in Hv as [_ (x' & y' & Hx & Hy & H)].
    rewrite Hi in Hx. rewrite Hj in Hy. injection Hx as <-. injection Hy as <-. by destruct (decide (axis = 0)).
Qed.
(** A list with another number of nodes is never accepted by [to_df]. *)
Theorem C131_to_df_length g o l axis : length l ≠ size (p_nodes g) → ∃ e, p_to_df g o (Some l) axis = Raise e.
Proof.
  intros Hlen. assert (∀ A r, p_to_amat g o (Some l) axis = Ok (A, r) → a_rows A = size (p_nodes g) ∧ r = l) as H.
  { pose (P := λ R : res amat, ∀ A, R = Ok A → a_rows A = size (p_nodes g)).
    assert (∀ x y R, P R → P (put (node2ix l) x y R)) as Hput.
    { intros x y R HR A. unfold put. destruct R as [B|]; [|done]. cbn [res_bind]. unfold ix. destruct (_ !! x); [|done]. destruct (_ !! y); [|done]. cbn [res_bind].
      unfold a_set. case_decide; [|done]. intros [= <-]. cbn. by apply HR. }
    assert (∀ (f : res amat → arc → res amat) L R, (∀ R a, P R → P (f R a)) → P R → P (foldl f R L)) as Hfold.
    { clear. intros f L. induction L as [|a L IH]; intros R Hf HR; [done|]. cbn. apply IH; [done|]. by apply Hf. }
    intros A r. unfold p_to_amat. cbn [default].
    match goal with |- context [foldl ?f ?i (oa o [62] _)] => assert (P (foldl f i (oa o [62] (p_edges g)))) as HP end.
    { apply Hfold; [intros R a HR; by apply Hput, Hput|]. apply Hfold; [intros R a HR; case_decide; by apply Hput|]. intros B [= <-]. done. }
    destruct (foldl _ _ (oa o [62] _)) as [B|]; [|done]. cbn [res_bind]. intros [= <- <-]. split; [by apply HP|done]. }
  unfold p_to_df. destruct (p_to_amat g o (Some l) axis) as [[A r]|e]; [|by exists e]. destruct (H A r eq_refl) as [Hr ->]. cbn [res_bind fst snd].
  unfold df_make. rewrite decide_False; [by exists ValueError|]. rewrite Hr. tauto.
Qed.

(** One arc, an isolated node and an edge; the rows, and a data frame with the nodes listed in another order. *)
Example C131_example : let g := pdag_make oracle0 {[0; 5]} {[(1, 2)]} {[(2, 3)]} ∅ in
  pdag_wf g ∧ p_to_csv g oracle0 = [(1, 2); (2, 3); (3, 2)] ∧ listing (p_nodes g) [5; 3; 2; 1; 0] ∧
  (∃ D, p_to_df g oracle0 (Some [5; 3; 2; 1; 0]) 1 = Ok D ∧ entry (df_at D) 2 3 = 1%Z ∧ entry (df_at D) 3 2 = 0%Z ∧ entry (df_at D) 1 2 = 1%Z ∧ entry (df_at D) 2 1 = 1%Z) ∧
  p_to_df g oracle0 (Some [0; 1; 2; 3; 4; 5; 6]) 0 = Raise ValueError.
Proof.
  cbn zeta. split.
  { apply pok_pdag_wf. apply (pdag_make_ok oracle0 {[0; 5]} {[(1, 2)]} {[(2, 3)]} ∅).
    - intros x y H H'. apply elem_of_singleton in H, H'. congruence.
    - intros x H. apply elem_of_singleton in H. congruence.
    - intros x y H [H'|H']; apply elem_of_singleton in H; apply elem_of_singleton in H'; congruence. }
  split; [by_vm|]. split.
  { assert (p_nodes (pdag_make oracle0 {[0; 5]} {[(1, 2)]} {[(2, 3)]} ∅) = list_to_set [5; 3; 2; 1; 0]) as -> by by_vm. split; [by_vm|]. intros x. by rewrite elem_of_list_to_set. }
  split; [|vm_compute; reflexivity].
  assert (match p_to_df (pdag_make oracle0 {[0; 5]} {[(1, 2)]} {[(2, 3)]} ∅) oracle0 (Some [5; 3; 2; 1; 0]) 1 with
    | Ok D => bool_decide (entry (df_at D) 2 3 = 1%Z ∧ entry (df_at D) 3 2 = 0%Z ∧ entry (df_at D) 1 2 = 1%Z ∧ entry (df_at D) 2 1 = 1%Z) | _ => false end = true) as E by (vm_compute; reflexivity).
  destruct (p_to_df _ _ _ _) as [D|]; [|done]. exists D. split; [done|]. by apply bool_decide_eq_true in E.
Qed.

Print Assumptions C131_to_csv.
Print Assumptions C131_csv_determines.
Print Assumptions C131_csv_nodes_refuted.
Print Assumptions C131_to_df.
Print Assumptions C131_to_df_length.
