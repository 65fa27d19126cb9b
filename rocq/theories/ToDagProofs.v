(** [PDAG.remove_node] and [PDAG.to_dag]. *)
From Verif Require Import Py Spec SpecEnum DagModel UGraphModel PdagModel EnumModel TopoProofs StateProofs UGraphProofs MarkovProofs PdagProofs.

Lemma dget_dtouch m k k' : dget (dtouch m k) k' = dget m k'.
Proof.
  unfold dtouch. unfold dget at 1. destruct (decide (k = k')) as [->|].
  - by rewrite lookup_insert.
  - by rewrite lookup_insert_ne by done.
Qed.

Lemma dec_on {A} o k (X : nset) x (a b : A) : (if decide (x ∈ on o k X) then a else b) = if decide (x ∈ X) then a else b.
Proof. apply decide_ext, elem_of_on. Qed.

Lemma pchildren_loop n l g :
  NoDup l → (∀ c, c ∈ l → n ∈ p_parents g c ∧ n ∈ p_neighbors g c) →
  ∃ g', mfor l (λ c, pp_remove c n ;;; pn_remove c n) g = (g', Ok tt) ∧
    p_nodes g' = p_nodes g ∧ p_arcs g' = p_arcs g ∧ p_edges g' = p_edges g ∧ p_known g' = p_known g ∧
    p_chi g' = p_chi g ∧ p_unb g' = p_unb g ∧
    (∀ x, p_parents g' x = if decide (x ∈ l) then p_parents g x ∖ {[n]} else p_parents g x) ∧
    (∀ x, p_neighbors g' x = if decide (x ∈ l) then p_neighbors g x ∖ {[n]} else p_neighbors g x) ∧
    (∀ k, is_Some (p_nbr g !! k) → is_Some (p_nbr g' !! k)).
Proof.
  revert g. induction l as [|p l IH]; intros g Hnd Hl.
  { exists g. cbn. do 7 (split; [done|]). split; [|split]; intros x; by rewrite ?decide_False by set_solver. }
  apply NoDup_cons in Hnd as [Hp Hnd]. destruct (Hl p) as (Hc & Hn); [left|].
  cbn [mfor]. unfold mthen, mbind' in *. unfold pp_remove at 1. rewrite decide_True by done. cbn.
  unfold pn_remove at 1. rewrite decide_True by done. cbn.
  set (g1 := Pdag _ _ _ _ _ _ _ _).
  assert (∀ x, p_parents g1 x = if decide (p = x) then p_parents g x ∖ {[n]} else p_parents g x) as Hc1.
  { intros x. unfold p_parents at 1. cbn. by rewrite dget_ddel. }
  assert (∀ x, p_neighbors g1 x = if decide (p = x) then p_neighbors g x ∖ {[n]} else p_neighbors g x) as Hn1.
  { intros x. unfold p_neighbors at 1. cbn. by rewrite dget_ddel. }
  destruct (IH g1 Hnd) as (g' & Hg' & E1 & E2 & E3 & E4 & E5 & E6 & HC & HB & HS).
  { intros q Hq. assert (p ≠ q) by (intros ->; done). rewrite Hc1, Hn1, !decide_False by done. apply Hl. by right. }
  exists g'. split; [exact Hg'|]. do 6 (split; [done|]). split; [|split].
  - intros x. rewrite HC, Hc1. destruct (decide (p = x)) as [->|].
    + rewrite (decide_False (P := x ∈ l)) by done. rewrite decide_True; [done|left].
    + destruct (decide (x ∈ l)); [rewrite decide_True by (by right); done|].
      rewrite decide_False; [done|]. intros [->|]%elem_of_cons; done.
  - intros x. rewrite HB, Hn1. destruct (decide (p = x)) as [->|].
    + rewrite (decide_False (P := x ∈ l)) by done. rewrite decide_True; [done|left].
    + destruct (decide (x ∈ l)); [rewrite decide_True by (by right); done|].
      rewrite decide_False; [done|]. intros [->|]%elem_of_cons; done.
  - intros k Hk. apply HS. cbn. unfold ddel. destruct (decide (p = k)) as [->|]; [rewrite lookup_insert; eauto|by rewrite lookup_insert_ne].
Qed.

Lemma pparents_loop n l g :
  NoDup l → (∀ c, c ∈ l → n ∈ p_children g c ∧ n ∈ p_neighbors g c) →
  ∃ g', mfor l (λ c, pc_remove c n ;;; pn_remove c n) g = (g', Ok tt) ∧
    p_nodes g' = p_nodes g ∧ p_arcs g' = p_arcs g ∧ p_edges g' = p_edges g ∧ p_known g' = p_known g ∧
    p_par g' = p_par g ∧ p_unb g' = p_unb g ∧
    (∀ x, p_children g' x = if decide (x ∈ l) then p_children g x ∖ {[n]} else p_children g x) ∧
    (∀ x, p_neighbors g' x = if decide (x ∈ l) then p_neighbors g x ∖ {[n]} else p_neighbors g x) ∧
    (∀ k, is_Some (p_nbr g !! k) → is_Some (p_nbr g' !! k)) ∧ (∀ k, is_Some (p_chi g !! k) → is_Some (p_chi g' !! k)).
Proof.
  revert g. induction l as [|p l IH]; intros g Hnd Hl.
  { exists g. cbn. do 7 (split; [done|]). split; [|split; [|split]]; intros x; by rewrite ?decide_False by set_solver. }
  apply NoDup_cons in Hnd as [Hp Hnd]. destruct (Hl p) as (Hc & Hn); [left|].
  cbn [mfor]. unfold mthen, mbind' in *. unfold pc_remove at 1. rewrite decide_True by done. cbn.
  unfold pn_remove at 1. rewrite decide_True by done. cbn.
  set (g1 := Pdag _ _ _ _ _ _ _ _).
  assert (∀ x, p_children g1 x = if decide (p = x) then p_children g x ∖ {[n]} else p_children g x) as Hc1.
  { intros x. unfold p_children at 1. cbn. by rewrite dget_ddel. }
  assert (∀ x, p_neighbors g1 x = if decide (p = x) then p_neighbors g x ∖ {[n]} else p_neighbors g x) as Hn1.
  { intros x. unfold p_neighbors at 1. cbn. by rewrite dget_ddel. }
  destruct (IH g1 Hnd) as (g' & Hg' & E1 & E2 & E3 & E4 & E5 & E6 & HC & HB & HS & HS').
  { intros q Hq. assert (p ≠ q) by (intros ->; done). rewrite Hc1, Hn1, !decide_False by done. apply Hl. by right. }
  exists g'. split; [exact Hg'|]. do 6 (split; [done|]). split; [|split; [|split]].
  - intros x. rewrite HC, Hc1. destruct (decide (p = x)) as [->|].
    + rewrite (decide_False (P := x ∈ l)) by done. rewrite decide_True; [done|left].
    + destruct (decide (x ∈ l)); [rewrite decide_True by (by right); done|].
      rewrite decide_False; [done|]. intros [->|]%elem_of_cons; done.
  - intros x. rewrite HB, Hn1. destruct (decide (p = x)) as [->|].
    + rewrite (decide_False (P := x ∈ l)) by done. rewrite decide_True; [done|left].
    + destruct (decide (x ∈ l)); [rewrite decide_True by (by right); done|].
      rewrite decide_False; [done|]. intros [->|]%elem_of_cons; done.
  - intros k Hk. apply HS. cbn. unfold ddel. destruct (decide (p = k)) as [->|]; [rewrite lookup_insert; eauto|by rewrite lookup_insert_ne].
  - intros k Hk. apply HS'. cbn. unfold ddel. destruct (decide (p = k)) as [->|]; [rewrite lookup_insert; eauto|by rewrite lookup_insert_ne].
Qed.

Lemma punbrs_loop n l g :
  NoDup l → (∀ c, c ∈ l → n ∈ p_unbrs g c ∧ n ∈ p_neighbors g c) →
  ∃ g', mfor l (λ c, pu_remove c n ;;; pn_remove c n) g = (g', Ok tt) ∧
    p_nodes g' = p_nodes g ∧ p_arcs g' = p_arcs g ∧ p_edges g' = p_edges g ∧ p_known g' = p_known g ∧
    p_par g' = p_par g ∧ p_chi g' = p_chi g ∧
    (∀ x, p_unbrs g' x = if decide (x ∈ l) then p_unbrs g x ∖ {[n]} else p_unbrs g x) ∧
    (∀ x, p_neighbors g' x = if decide (x ∈ l) then p_neighbors g x ∖ {[n]} else p_neighbors g x) ∧
    (∀ k, is_Some (p_nbr g !! k) → is_Some (p_nbr g' !! k)) ∧ (∀ k, is_Some (p_unb g !! k) → is_Some (p_unb g' !! k)).
Proof.
  revert g. induction l as [|p l IH]; intros g Hnd Hl.
  { exists g. cbn. do 7 (split; [done|]). split; [|split; [|split]]; intros x; by rewrite ?decide_False by set_solver. }
  apply NoDup_cons in Hnd as [Hp Hnd]. destruct (Hl p) as (Hc & Hn); [left|].
  cbn [mfor]. unfold mthen, mbind' in *. unfold pu_remove at 1. rewrite decide_True by done. cbn.
  unfold pn_remove at 1. rewrite decide_True by done. cbn.
  set (g1 := Pdag _ _ _ _ _ _ _ _).
  assert (∀ x, p_unbrs g1 x = if decide (p = x) then p_unbrs g x ∖ {[n]} else p_unbrs g x) as Hc1.
  { intros x. unfold p_unbrs at 1. cbn. by rewrite dget_ddel. }
  assert (∀ x, p_neighbors g1 x = if decide (p = x) then p_neighbors g x ∖ {[n]} else p_neighbors g x) as Hn1.
  { intros x. unfold p_neighbors at 1. cbn. by rewrite dget_ddel. }
  destruct (IH g1 Hnd) as (g' & Hg' & E1 & E2 & E3 & E4 & E5 & E6 & HC & HB & HS & HS').
  { intros q Hq. assert (p ≠ q) by (intros ->; done). rewrite Hc1, Hn1, !decide_False by done. apply Hl. by right. }
  exists g'. split; [exact Hg'|]. do 6 (split; [done|]). split; [|split; [|split]].
  - intros x. rewrite HC, Hc1. destruct (decide (p = x)) as [->|].
    + rewrite (decide_False (P := x ∈ l)) by done. rewrite decide_True; [done|left].
    + destruct (decide (x ∈ l)); [rewrite decide_True by (by right); done|].
      rewrite decide_False; [done|]. intros [->|]%elem_of_cons; done.
  - intros x. rewrite HB, Hn1. destruct (decide (p = x)) as [->|].
    + rewrite (decide_False (P := x ∈ l)) by done. rewrite decide_True; [done|left].
    + destruct (decide (x ∈ l)); [rewrite decide_True by (by right); done|].
      rewrite decide_False; [done|]. intros [->|]%elem_of_cons; done.
  - intros k Hk. apply HS. cbn. unfold ddel. destruct (decide (p = k)) as [->|]; [rewrite lookup_insert; eauto|by rewrite lookup_insert_ne].
  - intros k Hk. apply HS'. cbn. unfold ddel. destruct (decide (p = k)) as [->|]; [rewrite lookup_insert; eauto|by rewrite lookup_insert_ne].
Qed.

Definition without (n : node) (E : arcset) : arcset := filter (λ a : arc, a.1 ≠ n ∧ a.2 ≠ n) E.
Lemma elem_of_without n E x y : (x, y) ∈ without n E ↔ (x, y) ∈ E ∧ x ≠ n ∧ y ≠ n.
Proof. unfold without. rewrite elem_of_filter. cbn. tauto. Qed.
Lemma upair_without n E x y : upair x y ∈ without n E ↔ upair x y ∈ E ∧ x ≠ n ∧ y ≠ n.
Proof.
  unfold upair. rewrite elem_of_without. destruct (Nat.min_spec x y) as [[H1 ->]|[H1 ->]], (Nat.max_spec x y) as [[H2 ->]|[H2 ->]]; naive_solver lia.
Qed.

Lemma p_remove_node_ok o n g :
  pok g → n ∈ p_nodes g → is_Some (p_nbr g !! n) →
  ∃ g', p_remove_node o n g = (g', Ok tt) ∧ pok g' ∧
    p_nodes g' = p_nodes g ∖ {[n]} ∧ p_arcs g' = without n (p_arcs g) ∧ p_edges g' = without n (p_edges g) ∧
    p_known g' = p_known g.
Proof.
  intros Hg Hn Hkey. unfold p_remove_node. rewrite decide_True by done.
  fold (without n (p_arcs g)). fold (without n (p_edges g)).
  set (g0 := Pdag _ _ _ _ _ _ _ _).
  assert (∀ x, x ∉ p_children g n ∨ x ≠ n) as Hirr.
  { intros x. destruct (decide (x = n)) as [->|]; [|by right]. left. rewrite (pok_chi g Hg). by apply pok_irr. }
  assert (n ∉ p_unbrs g n) as Huirr by (rewrite (pok_unb g Hg); naive_solver).
  erewrite mthen_ok by reflexivity. cbv beta.
  set (g1 := Pdag (p_nodes g0) _ _ _ _ _ _ _).
  assert (∀ x, p_children g1 x = p_children g x) as Hc1 by (intros; apply dget_dtouch).
  destruct (pchildren_loop n (on o [48] (p_children g n)) g1) as (g2 & Hg2 & A1 & A2 & A3 & A4 & A5 & A6 & A7 & A8 & A9).
  { apply NoDup_on. }
  { intros c. rewrite elem_of_on. intros Hc. change (n ∈ p_parents g c ∧ n ∈ p_neighbors g c). apply (pok_chi g Hg) in Hc.
    rewrite (pok_par g Hg), (pok_nbr g Hg). auto. }
  assert (A7' := λ x, eq_trans (A7 x) (dec_on o _ (p_children g n) x _ _)). clear A7. rename A7' into A7. assert (A8' := λ x, eq_trans (A8 x) (dec_on o _ (p_children g n) x _ _)). clear A8. rename A8' into A8.
  change (p_parents g1) with (p_parents g) in A7. change (p_neighbors g1) with (p_neighbors g) in A8.
  erewrite mthen_ok by (cbv beta; rewrite Hc1; exact Hg2). erewrite mthen_ok by reflexivity. cbv beta.
  set (g3 := Pdag (p_nodes g2) _ _ _ _ _ _ _).
  assert (∀ x, p_parents g3 x = p_parents g2 x) as Hp3 by (intros; apply dget_dtouch).
  assert (∀ x, p_children g2 x = p_children g x) as Hc2.
  { intros x. unfold p_children at 1. rewrite A5. apply Hc1. }
  assert (p_parents g3 n = p_parents g n) as Hpn.
  { rewrite Hp3, A7, decide_False; [done|]. rewrite (pok_chi g Hg). by apply pok_irr. }
  destruct (pparents_loop n (on o [49] (p_parents g n)) g3) as (g4 & Hg4 & B1 & B2 & B3 & B4 & B5 & B6 & B7 & B8 & B9 & B10).
  { apply NoDup_on. }
  { intros c. rewrite elem_of_on. intros Hc. change (n ∈ p_children g2 c ∧ n ∈ p_neighbors g2 c). apply (pok_par g Hg) in Hc.
    rewrite Hc2, (pok_chi g Hg), A8, decide_False.
    - split; [done|]. rewrite (pok_nbr g Hg). auto.
    - rewrite (pok_chi g Hg). by apply (pok_asym g Hg). }
  assert (B7' := λ x, eq_trans (B7 x) (dec_on o _ (p_parents g n) x _ _)). clear B7. rename B7' into B7. assert (B8' := λ x, eq_trans (B8 x) (dec_on o _ (p_parents g n) x _ _)). clear B8. rename B8' into B8.
  change (p_children g3) with (p_children g2) in B7. change (p_neighbors g3) with (p_neighbors g2) in B8.
  erewrite mthen_ok by (cbv beta; rewrite Hpn; exact Hg4). erewrite mthen_ok by reflexivity. cbv beta.
  set (g5 := Pdag (p_nodes g4) _ _ _ _ _ _ _).
  assert (∀ x, p_unbrs g5 x = p_unbrs g x) as Hu5.
  { intros x. unfold p_unbrs at 1. cbn. rewrite dget_dtouch, B6. cbn. by rewrite A6. }
  destruct (punbrs_loop n (on o [50] (p_unbrs g n)) g5) as (g6 & Hg6 & C1 & C2 & C3 & C4 & C5 & C6 & C7 & C8 & C9 & C10).
  { apply NoDup_on. }
  { intros c. rewrite elem_of_on. intros Hc. rewrite Hu5. change (p_neighbors g5) with (p_neighbors g4).
    assert (n ∈ p_unbrs g c) as Hc' by (rewrite (pok_unb g Hg) in *; rewrite upair_comm; naive_solver).
    assert (upair n c ∈ p_edges g) as He by (by apply (pok_unb g Hg) in Hc as []).
    split; [done|]. rewrite B8, A8, !decide_False.
    - rewrite (pok_nbr g Hg). auto.
    - rewrite (pok_chi g Hg). intros H. by apply (pok_disj g Hg) in H.
    - rewrite (pok_par g Hg). intros H. apply (pok_disj g Hg) in H. apply H. by rewrite upair_comm. }
  assert (C7' := λ x, eq_trans (C7 x) (dec_on o _ (p_unbrs g n) x _ _)). clear C7. rename C7' into C7. assert (C8' := λ x, eq_trans (C8 x) (dec_on o _ (p_unbrs g n) x _ _)). clear C8. rename C8' into C8.
  change (p_neighbors g5) with (p_neighbors g4) in C8. assert (∀ x, p_unbrs g6 x = if decide (x ∈ p_unbrs g n) then p_unbrs g x ∖ {[n]} else p_unbrs g x) as C7' by (intros x; rewrite C7, !Hu5; done). clear C7. rename C7' into C7.
  erewrite mthen_ok by (cbv beta; rewrite Hu5; exact Hg6).
  assert (is_Some (p_par g6 !! n)) as [v1 S1].
  { rewrite C5. cbn. rewrite B5. cbn. unfold dtouch. rewrite lookup_insert. eauto. }
  assert (is_Some (p_chi g6 !! n)) as [v2 S2].
  { rewrite C6. cbn. apply B10. cbn. rewrite A5. cbn. unfold dtouch. rewrite lookup_insert. eauto. }
  assert (is_Some (p_nbr g6 !! n)) as [v3 S3].
  { apply C9. cbn. apply B9. cbn. apply A9. done. }
  assert (is_Some (p_unb g6 !! n)) as [v4 S4].
  { apply C10. cbn. unfold dtouch. rewrite lookup_insert. eauto. }
  erewrite mthen_ok by (unfold del_par; rewrite S1; reflexivity).
  erewrite mthen_ok by (unfold del_chi; cbn; rewrite S2; reflexivity).
  erewrite mthen_ok by (unfold del_nbr; cbn; rewrite S3; reflexivity).
  unfold del_unb. cbn. rewrite S4. eexists. split; [reflexivity|].
  assert (∀ x, p_parents g6 x = if decide (x ∈ p_children g n) then p_parents g x ∖ {[n]} else p_parents g x) as Fp.
  { intros x. unfold p_parents at 1. rewrite C5. cbn. rewrite B5. change (p_parents g3 x = if decide (x ∈ p_children g n) then p_parents g x ∖ {[n]} else p_parents g x). rewrite Hp3. apply A7. }
  assert (∀ x, p_children g6 x = if decide (x ∈ p_parents g n) then p_children g x ∖ {[n]} else p_children g x) as Fc.
  { intros x. unfold p_children at 1. rewrite C6. change (p_children g4 x = if decide (x ∈ p_parents g n) then p_children g x ∖ {[n]} else p_children g x). rewrite B7. by rewrite Hc2. }
  split.
  2: { cbn. split; [by rewrite C1; cbn; rewrite B1; cbn; rewrite A1|]. split; [by rewrite C2; cbn; rewrite B2; cbn; rewrite A2|].
       split; [by rewrite C3; cbn; rewrite B3; cbn; rewrite A3|]. by rewrite C4; cbn; rewrite B4; cbn; rewrite A4. }
  assert (p_nodes g6 = p_nodes g ∖ {[n]}) as -> by (by rewrite C1; cbn; rewrite B1; cbn; rewrite A1).
  assert (p_arcs g6 = without n (p_arcs g)) as -> by (by rewrite C2; cbn; rewrite B2; cbn; rewrite A2).
  assert (p_edges g6 = without n (p_edges g)) as -> by (by rewrite C3; cbn; rewrite B3; cbn; rewrite A3).
  clear Hg2 Hg4 Hg6 A1 A2 A3 A4 A5 A6 A7 A9 B1 B2 B3 B4 B5 B6 B7 B9 B10 C1 C2 C3 C4 C5 C6 C9 C10 S1 S2 S3 S4 Hkey.
  assert (∀ x y, x ≠ n → y ∈ dget (p_unb g6) x ↔ y ∈ p_unbrs g x ∧ y ≠ n) as Fu.
  { intros x y Hx. change (dget (p_unb g6) x) with (p_unbrs g6 x). rewrite C7.
    assert (x ∈ p_unbrs g n ↔ n ∈ p_unbrs g x) as Hs by (rewrite !(pok_unb g Hg); rewrite (upair_comm n x); naive_solver).
    destruct (decide (x ∈ p_unbrs g n)) as [Hd|Hd]; rewrite Hs in Hd; [set_solver|]. split; [intros; split; [done|by intros ->]|by intros []]. }
  assert (∀ x y, x ≠ n → y ∈ dget (p_nbr g6) x ↔ y ∈ p_neighbors g x ∧ y ≠ n) as Fn.
  { intros x y Hx. change (dget (p_nbr g6) x) with (p_neighbors g6 x). rewrite C8, B8, A8.
    assert (x ∈ p_unbrs g n ∨ x ∈ p_parents g n ∨ x ∈ p_children g n ↔ n ∈ p_neighbors g x) as Hs.
    { rewrite (pok_nbr g Hg), !(pok_unb g Hg), (pok_par g Hg), (pok_chi g Hg), (upair_comm n x). naive_solver. }
    destruct (decide (x ∈ p_unbrs g n)); destruct (decide (x ∈ p_parents g n)); destruct (decide (x ∈ p_children g n));
      rewrite ?elem_of_difference, ?elem_of_singleton; try tauto.
    split; [intros H; split; [done|intros ->; tauto]|by intros []]. }
  clear A8 B8 C7 C8 Hp3 Hc2 Hu5 Hc1.
  constructor; cbn; unfold p_parents, p_children, p_unbrs, p_neighbors; cbn.
  - intros x y. rewrite dget_delete, elem_of_without. destruct (decide (n = y)) as [<-|Hy]; [set_solver|].
    change (dget (p_par g6) y) with (p_parents g6 y). rewrite Fp.
    pose proof (pok_par g Hg x y) as H1. pose proof (pok_chi g Hg n y) as H2.
    destruct (decide (y ∈ p_children g n)); rewrite ?elem_of_difference, ?elem_of_singleton; naive_solver.
  - intros x y. rewrite dget_delete, elem_of_without. destruct (decide (n = x)) as [<-|Hx]; [set_solver|].
    change (dget (p_chi g6) x) with (p_children g6 x). rewrite Fc.
    pose proof (pok_chi g Hg x y) as H1. pose proof (pok_par g Hg x n) as H2.
    destruct (decide (x ∈ p_parents g n)); rewrite ?elem_of_difference, ?elem_of_singleton; naive_solver.
  - intros x y. rewrite dget_delete, upair_without. destruct (decide (n = x)) as [<-|Hx]; [set_solver|].
    rewrite Fu by done. rewrite (pok_unb g Hg). naive_solver.
  - intros x y. rewrite !dget_delete, !elem_of_without. destruct (decide (n = x)) as [<-|Hx]; [set_solver|].
    rewrite Fu, Fn by done. rewrite (pok_nbr g Hg). naive_solver.
  - intros [a b]. rewrite elem_of_without. intros [H _]. by apply (pok_edge g Hg) in H.
  - intros x y. rewrite !elem_of_without. intros [H _] [H' _]. by apply (pok_asym g Hg) in H.
  - intros x y. rewrite elem_of_without, upair_without. intros [H _] [H' _]. by apply (pok_disj g Hg) in H.
  - destruct (pok_over g Hg) as [O1 O2]. split; intros x y; rewrite elem_of_without, !elem_of_difference, !elem_of_singleton.
    + intros [H ?]. apply O1 in H. naive_solver.
    + intros [H ?]. apply O2 in H. naive_solver.
Qed.

(** ** Consistent extensions *)
Definition und (g : pdag) : node → node → Prop := λ x y, upair x y ∈ p_edges g.
Definition pext (g : pdag) (E : arcset) : Prop := extends (p_arcs g) (und g) E.

Lemma pext_over g E : pok g → pext g E → over (p_nodes g) E.
Proof.
  intros Hg (_ & _ & Hadj & _) x y Hxy. destruct (pok_over g Hg) as [O1 O2].
  assert (adjacent E x y) as Ha by by left. apply Hadj in Ha as [[H|H]|H].
  - by apply O1.
  - apply O1 in H. tauto.
  - by eapply over_upair.
Qed.

Lemma eliminable_true g n : eliminable g n = true ↔
  p_children g n = ∅ ∧ ∀ u, u ∈ p_unbrs g n → p_neighbors g n ∖ {[u]} ⊆ p_neighbors g u.
Proof.
  unfold eliminable. rewrite andb_true_iff, bool_decide_eq_true, forallb_forall.
  apply and_iff_compat_l. split; intros H u Hu.
  - eapply bool_decide_eq_true_1. apply H. by apply elem_of_list_In, elem_of_elements.
  - apply bool_decide_eq_true_2. apply H. by apply elem_of_elements, elem_of_list_In.
Qed.

Lemma nbr_adj g E x y : pok g → pext g E → y ∈ p_neighbors g x ↔ adjacent E x y.
Proof.
  intros Hg (_ & _ & Hadj & _). rewrite (pok_nbr g Hg), (pok_unb g Hg), Hadj. unfold adjacent, und.
  assert (upair x y ∈ p_edges g → x ≠ y) by by apply upair_edge_ne. tauto.
Qed.

Lemma sink_eliminable g E s : pok g → pext g E → (∀ y, (s, y) ∉ E) → eliminable g s = true.
Proof.
  intros Hg He Hs. pose proof He as (Hac & Hsub & Hadj & Hvs). apply eliminable_true. split.
  - apply set_eq. intros y. split; [|set_solver]. intros Hy. apply (pok_chi g Hg) in Hy. apply Hsub in Hy. by apply Hs in Hy.
  - intros u Hu w. rewrite elem_of_difference, elem_of_singleton, !(nbr_adj g E) by done. intros [Hw Hne].
    destruct (decide ((u, w) ∈ E ∨ (w, u) ∈ E)) as [|Hn]; [done|]. exfalso.
    apply (pok_unb g Hg) in Hu as [Hsu Hu].
    assert (adjacent E s u) as [?|Hus] by (apply Hadj; by right); [by eapply Hs|].
    destruct Hw as [?|Hws]; [by eapply Hs|].
    assert (vstruct E u s w) as Hv by (split_and!; [done|done|by intros ->|done]).
    apply Hvs in Hv as (Hv & _). apply (pok_disj g Hg) in Hv. apply Hv. by rewrite upair_comm.
Qed.

Lemma exists_eliminable g E : pok g → pext g E → p_nodes g ≠ ∅ → ∃ s, s ∈ p_nodes g ∧ eliminable g s = true.
Proof.
  intros Hg He HN. pose proof He as (Hac & _). pose proof (pext_over g E Hg He) as Ho.
  destruct (exists_topo (p_nodes g) E Hac Ho) as (l & Hnd & Hl & Hord).
  destruct (exists_last (l := l)) as (l' & s & ->).
  { intros ->. apply HN. apply set_eq. intros x. rewrite <-Hl. set_solver. }
  exists s. split; [apply Hl; set_solver|]. apply (sink_eliminable g E); [done..|].
  intros y Hy. pose proof (Ho _ _ Hy) as [_ Hy']. apply Hl in Hy'. apply elem_of_list_lookup in Hy' as [j Hj].
  assert (length l' < j) as Hlt.
  { eapply Hord; [exact Hy| |exact Hj]. by rewrite list_lookup_middle. }
  apply lookup_lt_Some in Hj. rewrite app_length in Hj. cbn in Hj. lia.
Qed.

Lemma adjacent_without n E x y : adjacent (without n E) x y ↔ adjacent E x y ∧ x ≠ n ∧ y ≠ n.
Proof. unfold adjacent. rewrite !elem_of_without. tauto. Qed.

Lemma pext_without g g' n E : pext g E → p_arcs g' = without n (p_arcs g) → p_edges g' = without n (p_edges g) →
  pext g' (without n E).
Proof.
  intros (Hac & Hsub & Hadj & Hvs) HA HE. unfold pext, extends, und. rewrite HA, HE. split_and!.
  - eapply acyclic_mono; [|done]. intros [x y]. rewrite elem_of_without. tauto.
  - intros [x y]. rewrite !elem_of_without. intros [H ?]. split; [by apply Hsub|done].
  - intros x y. rewrite !adjacent_without, upair_without, Hadj. unfold und. tauto.
  - intros x z y. unfold vstruct. rewrite adjacent_without, !elem_of_without.
    pose proof (Hvs x z y) as Hv. unfold vstruct in Hv. tauto.
Qed.

Lemma acyclic_add_sink (s : node) (P : nset) (B : arcset) : s ∉ P → (∀ x y, (x, y) ∈ B → x ≠ s ∧ y ≠ s) → acyclic B →
  acyclic (set_map (λ x, (x, s)) P ∪ B).
Proof.
  intros Hs HB Hac. set (B' := set_map _ _ ∪ B).
  assert (∀ y, (s, y) ∉ B') as Hout.
  { intros y. unfold B'. rewrite elem_of_union, elem_of_map. intros [(x & [= -> ->] & ?)|H]; [done|]. by apply HB in H as []. }
  assert (∀ x y, tc (edge B') x y → y ≠ s → tc (edge B) x y) as Htc.
  { induction 1 as [x y Hxy|x y z Hxy Hyz IH]; intros Hne.
    - apply tc_once. unfold edge, B' in Hxy. rewrite elem_of_union, elem_of_map in Hxy.
      destruct Hxy as [(x' & [= -> ->] & ?)|H]; done.
    - eapply tc_l; [|by apply IH]. unfold edge, B' in Hxy. rewrite elem_of_union, elem_of_map in Hxy.
      destruct Hxy as [(x' & [= -> ->] & ?)|H]; [|done]. exfalso.
      inversion Hyz as [? ? H|? w ? H]; subst; by apply Hout in H. }
  intros x Hx. destruct (decide (x = s)) as [->|Hne].
  - inversion Hx as [? ? H|? w ? H]; subst; by apply Hout in H.
  - by apply (Hac x), Htc.
Qed.

Lemma pext_sink g g' s B : pok g → eliminable g s = true →
  p_arcs g' = without s (p_arcs g) → p_edges g' = without s (p_edges g) →
  pext g' B → pext g (set_map (λ x, (x, s)) (p_neighbors g s) ∪ B).
Proof.
  intros Hg Hs HA HE Hext. apply eliminable_true in Hs as [Hsc Hsu].
  destruct Hext as (Hac & Hsub & Hadj & Hvs). unfold und in Hadj. rewrite HA, HE in *.
  assert (∀ x y, adjacent B x y ↔ (adjacent (p_arcs g) x y ∨ und g x y) ∧ x ≠ s ∧ y ≠ s) as Hadj'.
  { intros x y. rewrite Hadj, adjacent_without, upair_without. unfold und. tauto. }
  assert (∀ x, x ∈ p_neighbors g s ↔ adjacent (p_arcs g) x s ∨ und g x s) as Hnb.
  { intros x. rewrite (pok_nbr g Hg), (pok_unb g Hg). unfold adjacent, und. rewrite (upair_comm x s).
    assert (upair s x ∈ p_edges g → s ≠ x) by by apply upair_edge_ne. tauto. }
  assert (s ∉ p_neighbors g s) as Hss.
  { rewrite Hnb. unfold adjacent, und. intros [[H|H]|H]; [by apply pok_irr in H..|by apply upair_self_edge in H]. }
  assert (∀ x y, (x, y) ∈ B → x ≠ s ∧ y ≠ s) as HBs.
  { intros x y H. assert (adjacent B x y) as Ha by by left. apply Hadj' in Ha. tauto. }
  set (B' := set_map _ _ ∪ B).
  assert (∀ x y, (x, y) ∈ B' ↔ (y = s ∧ x ∈ p_neighbors g s) ∨ (x, y) ∈ B) as HB'.
  { intros x y. unfold B'. rewrite elem_of_union, elem_of_map. clear. naive_solver. }
  assert (∀ x y, adjacent B' x y ↔ adjacent (p_arcs g) x y ∨ und g x y) as HadjB.
  { intros x y. unfold adjacent at 1. rewrite !HB'.
    assert (und g x y ↔ und g y x) as Hsym by (unfold und; by rewrite upair_comm).
    assert (∀ x y, adjacent (p_arcs g) x y ↔ adjacent (p_arcs g) y x) as Hsym' by (unfold adjacent; tauto).
    pose proof (Hadj' x y) as H1. unfold adjacent at 1 in H1.
    destruct (decide (x = s)) as [->|Hx].
    - pose proof (Hnb y) as H2. specialize (Hsym' s y). destruct (decide (y = s)) as [->|]; [naive_solver|]. clear -H1 H2 Hsym Hsym' n. tauto.
    - destruct (decide (y = s)) as [->|Hy]; [|tauto]. pose proof (Hnb x) as H2. tauto. }
  assert (∀ x y, (x, y) ∈ p_arcs g → (x, y) ∈ B') as HsubB.
  { intros x y Hxy. apply HB'. destruct (decide (x = s)) as [->|Hx].
    - exfalso. apply (pok_chi g Hg) in Hxy. rewrite Hsc in Hxy. by apply not_elem_of_empty in Hxy.
    - destruct (decide (y = s)) as [->|Hy]; [left; split; [done|]; apply Hnb; left; by left|].
      right. apply Hsub. by apply elem_of_without. }
  split_and!; [by apply acyclic_add_sink|by intros [x y]; apply HsubB|done|].
  intros x z y. unfold vstruct. rewrite HadjB. split.
  2: { intros (H1 & H2 & H3 & H4). split_and!; [by apply HsubB|by apply HsubB|done|done]. }
  intros (H1 & H2 & Hne & Hna). rewrite !HB' in *.
  destruct (decide (z = s)) as [->|Hz].
  - assert (∀ w, ((w, s) ∈ B → False)) as HBn by (intros w Hw; by apply HBs in Hw as []).
    assert (∀ u v, u ∈ p_neighbors g s → v ∈ p_neighbors g s → u ≠ v → ¬ (adjacent (p_arcs g) u v ∨ und g u v) → (u, s) ∈ p_arcs g) as Hkey.
    { intros u v Hu Hv Huv Hnu. rewrite (pok_nbr g Hg) in Hu. destruct Hu as [Hu|[Hu|Hu]]; [|done|].
      - exfalso. apply (pok_chi g Hg) in Hu. rewrite Hsc in Hu. by apply not_elem_of_empty in Hu.
      - exfalso. specialize (Hsu u Hu v). feed specialize Hsu; [apply elem_of_difference; split; [done|]; rewrite elem_of_singleton; by intros ->|]. apply Hnu.
        rewrite (pok_nbr g Hg), (pok_unb g Hg) in Hsu. unfold adjacent, und. tauto. }
    assert (x ∈ p_neighbors g s) as Hx by (clear -H1 HBn; naive_solver). assert (y ∈ p_neighbors g s) as Hy by (clear -H2 HBn; naive_solver).
    split_and!; [by apply (Hkey x y)| |done|done]. apply (Hkey y x); [done|done|done|].
    intros H. apply Hna. unfold adjacent, und in *. rewrite (upair_comm x y). tauto.
  - destruct H1 as [[??]|H1]; [done|]. destruct H2 as [[??]|H2]; [done|].
    assert (vstruct B x z y) as Hv. { split_and!; [done..|]. rewrite Hadj'. tauto. }
    apply Hvs in Hv as (Hv1 & Hv2 & _). rewrite elem_of_without in Hv1, Hv2. tauto.
Qed.

Lemma pok_read_nbr s g : pok g → pok (read_nbr s g).1.
Proof.
  intros [H1 H2 H3 H4 H5 H6 H7 H8]. constructor; try done. intros x y. unfold p_neighbors. cbn. rewrite dget_dtouch. apply H4.
Qed.

Lemma to_dag_loop_ok o fuel acc g : pok g → size (p_nodes g) < fuel → (∃ E, pext g E) →
  ∃ B, to_dag_loop o fuel acc g = Ok (B ∪ acc) ∧ pext g B.
Proof.
  revert acc g. induction fuel as [|fuel IH]; intros acc g Hg Hsz [E HE]; [lia|].
  cbn [to_dag_loop]. destruct (decide (p_edges g = ∅ ∧ p_arcs g = ∅)) as [[He Ha]|Hne].
  { exists ∅. split; [by rewrite (left_id_L ∅ (∪))|]. unfold pext, extends, und. rewrite He, Ha. split_and!.
    - intros x Hx. inversion Hx as [? ? H|? ? ? H]; subst; unfold edge in H; set_solver.
    - done.
    - intros x y. unfold adjacent. set_solver.
    - intros x z y. unfold vstruct. set_solver. }
  assert (p_nodes g ≠ ∅) as HN.
  { intros HN. apply Hne. destruct (pok_over g Hg) as [O1 O2]. split; apply set_eq; intros [x y]; (split; [|set_solver]); intros H.
    - apply O2 in H. set_solver.
    - apply O1 in H. set_solver. }
  destruct (exists_eliminable g E Hg HE HN) as (s0 & Hs0 & Hel0).
  destruct (find (eliminable g) (on o [51; fuel] (p_nodes g))) as [s|] eqn:Hf.
  2: { exfalso. eapply find_none in Hf; [by rewrite Hel0 in Hf|]. by apply elem_of_list_In, elem_of_on. }
  apply find_some in Hf as [Hs Hel]. apply elem_of_list_In, elem_of_on in Hs.
  assert (pok (read_nbr s g).1) as Hg1 by by apply pok_read_nbr.
  destruct (p_remove_node_ok o s (read_nbr s g).1 Hg1) as (g' & Hr & Hg' & R1 & R2 & R3 & _).
  { done. }
  { cbn. unfold dtouch. rewrite lookup_insert. eauto. }
  cbn in R1, R2, R3. erewrite mthen_ok by reflexivity. cbn [read_nbr fst] in Hr. rewrite Hr.
  destruct (IH (set_map (λ x, (x, s)) (p_neighbors g s) ∪ acc) g' Hg') as (B & HB & HextB).
  { rewrite R1, size_difference by set_solver. rewrite size_singleton. assert (size (p_nodes g) ≠ 0); [|lia].
    intros H0. apply HN, leibniz_equiv, size_empty_inv, H0. }
  { exists (without s E). by eapply pext_without. }
  exists (set_map (λ x, (x, s)) (p_neighbors g s) ∪ B). split.
  - rewrite HB. f_equal. clear. set_solver.
  - by eapply pext_sink.
Qed.

Lemma pok_copy g o : pok g → let g' := pdag_copy g o in
  pok g' ∧ p_nodes g' = p_nodes g ∧ p_arcs g' = p_arcs g ∧ p_edges g' = p_edges g ∧ p_known g' = p_known g.
Proof.
  intros Hg g'. destruct (pok_over g Hg) as [O1 O2].
  destruct (pdag_make_ok o (p_nodes g) (p_arcs g) (p_edges g) (p_known g)) as (H1 & H2 & H3 & H4 & H5 & _).
  { intros x y. apply (pok_asym g Hg). }
  { intros x Hx. apply (pok_edge g Hg) in Hx. cbn in Hx. lia. }
  { intros x y Hxy. assert (x < y) as Hlt by by apply (pok_edge g Hg) in Hxy.
    assert (upair x y ∈ p_edges g) as Hu. { unfold upair. by rewrite Nat.min_l, Nat.max_r by lia. }
    intros [H|H]; apply (pok_disj g Hg) in H; [done|]. by rewrite upair_comm in H. }
  fold (pdag_copy g o) in *. fold g' in H1, H2, H3, H4, H5. split_and!; [done|by apply H5|done| |done].
  apply set_eq. intros [x y]. split; intros H.
  - pose proof (pok_edge g' H1 _ H) as Hlt. cbn in Hlt.
    assert (upair x y = (x, y)) as Hu by (unfold upair; by rewrite Nat.min_l, Nat.max_r by lia).
    rewrite <-Hu in H. apply H4 in H as [H|H]; [done|]. apply (pok_edge g Hg) in H. cbn in H. lia.
  - pose proof (pok_edge g Hg _ H) as Hlt. cbn in Hlt.
    assert (upair x y = (x, y)) as <- by (unfold upair; by rewrite Nat.min_l, Nat.max_r by lia). apply H4. by left.
Qed.

Lemma to_dag_ok g o : pok g → (∃ E, pext g E) →
  ∃ d, to_dag g o = Ok d ∧ wf d ∧ pext g (d_arcs d) ∧ (∀ x, x ∈ d_nodes d ↔ ∃ y, adjacent (d_arcs d) x y).
Proof.
  intros Hg [E HE]. destruct (pok_copy g o Hg) as (C1 & C2 & C3 & C4 & _).
  assert (∀ E, pext (pdag_copy g o) E ↔ pext g E) as Hiff by (intros; unfold pext, und; by rewrite C3, C4).
  unfold to_dag. destruct (to_dag_loop_ok o (S (size (p_nodes (pdag_copy g o)))) ∅ (pdag_copy g o) C1) as (B & HB & HextB).
  { lia. }
  { exists E. by apply Hiff. }
  rewrite (right_id_L ∅ (∪)) in HB. rewrite HB. cbn [res_bind]. apply Hiff in HextB.
  pose proof HextB as (Hac & _).
  destruct (dag_make_ok o ∅ B Hac) as [d Hd]. exists d. split; [done|].
  apply dag_make_spec in Hd as (Hwf & _ & -> & Hn). split; [done|]. split; [done|].
  intros x. rewrite Hn, !elem_of_union, !elem_of_map. unfold adjacent. split.
  - intros [[?|([a b] & -> & ?)]|([a b] & -> & ?)]; [set_solver|exists b; by left|exists a; by right].
  - intros [y [H|H]]; [left; right; by exists (x, y)|right; by exists (y, x)].
Qed.
