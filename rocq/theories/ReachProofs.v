(** Correctness of the recursive closures ([_add_ancestors] etc.). *)
From Verif Require Import Py Spec DagModel TopoProofs StateProofs.

Section closure.
  Context (next : node → nset) (o : oracle) (U : nset) (HU : ∀ x, next x ⊆ U).
  Let R : relation node := λ x y, y ∈ next x.

  Definition cpost (n : node) (acc acc' : nset) : Prop :=
    acc ⊆ acc' ∧ (∀ x, x ∈ acc' → x ∈ acc ∨ tc R n x) ∧ next n ⊆ acc' ∧
    (∀ x, x ∈ acc' → x ∉ acc → next x ⊆ acc').

  Lemma add_closure_spec fuel n acc :
    size (U ∖ acc) < fuel → ∃ acc', add_closure next o fuel n acc = Ok acc' ∧ cpost n acc acc'.
  Proof.
    revert n acc. induction fuel as [|fuel IH]; intros n acc Hf; [lia|].
    cbn [add_closure]. match goal with |- context [loopR ?f _ _] => set (body := f) end.
    assert (∀ l a, (∀ p, p ∈ l → p ∈ next n) → size (U ∖ a) < S fuel →
              ∃ a', loopR body l a = Ok a' ∧ a ⊆ a' ∧ (∀ x, x ∈ a' → x ∈ a ∨ tc R n x) ∧
                (∀ p, p ∈ l → p ∈ a') ∧ (∀ x, x ∈ a' → x ∉ a → next x ⊆ a')) as Hloop.
    { clear Hf acc. intros l. induction l as [|p l IHl]; intros a Hl Ha; cbn [loopR].
      { exists a. split; [done|]. split; [done|]. split; [by left|]. split; [set_solver|]. done. }
      assert (p ∈ next n) as Hp by (apply Hl; left).
      unfold body at 1. destruct (decide (p ∈ a)) as [Hpa|Hpa].
      - destruct (IHl a) as (a' & -> & H1 & H2 & H3 & H4); [intros q Hq; apply Hl; by right|done|].
        exists a'. split; [done|]. split; [done|]. split; [done|]. split; [|done].
        intros q [->|Hq]%elem_of_cons; [by apply H1|by apply H3].
      - assert (size (U ∖ ({[p]} ∪ a)) < size (U ∖ a)) as Hlt.
        { apply subset_size. pose proof (HU n p Hp). set_solver. }
        destruct (IH p ({[p]} ∪ a)) as (a1 & Heq & H1 & H2 & H3 & H4); [lia|].
        rewrite Heq.
        destruct (IHl a1) as (a' & -> & H1' & H2' & H3' & H4').
        { intros q Hq; apply Hl; by right. }
        { assert (size (U ∖ a1) ≤ size (U ∖ a)); [|lia]. apply subseteq_size. clear -H1. set_solver. }
        exists a'. split; [done|]. split; [clear -H1 H1'; set_solver|]. split.
        { intros x [Hx|Hx]%H2'; [|by right]. apply H2 in Hx as [Hx|Hx].
          - apply elem_of_union in Hx as [->%elem_of_singleton|Hx]; [right; by apply tc_once|by left].
          - right. by eapply tc_l. }
        split.
        { intros q [->|Hq]%elem_of_cons; [apply H1', H1; set_solver|by apply H3']. }
        intros x Hx Hxa. destruct (decide (x ∈ a1)) as [Hx1|Hx1]; [|by apply H4'].
        etrans; [|exact H1']. destruct (decide (x = p)) as [->|Hxp]; [done|]. apply H4; [done|]. set_solver. }
    destruct (Hloop (on o [5; n] (next n)) acc) as (a' & -> & H1 & H2 & H3 & H4).
    { intros p Hp. by apply elem_of_on in Hp. } { done. }
    exists a'. split; [done|]. split; [done|]. split; [done|]. split; [|done].
    intros p Hp. apply H3. by apply elem_of_on.
  Qed.

  Lemma closed_tc (acc : nset) n x :
    next n ⊆ acc → (∀ y, y ∈ acc → next y ⊆ acc) → tc R n x → x ∈ acc.
  Proof.
    intros Hn Hc H. induction H as [n x H|n y x H _ IH]; [by apply Hn|]. apply IH. by apply Hc, Hn.
  Qed.

  Lemma add_closure_empty fuel n :
    size U < fuel → ∃ acc, add_closure next o fuel n ∅ = Ok acc ∧ ∀ x, x ∈ acc ↔ tc R n x.
  Proof.
    intros Hf. destruct (add_closure_spec fuel n ∅) as (acc & H & _ & H2 & H3 & H4).
    { by rewrite difference_empty_L. }
    exists acc. split; [done|]. intros x. split.
    - intros [Hx|Hx]%H2; [set_solver|done].
    - apply closed_tc; [done|]. intros y Hy. apply H4; set_solver.
  Qed.

  (** [for c in C: _add_ancestors(shaded, c)] *)
  Lemma closure_many fuel l acc :
    size U < fuel →
    ∃ acc', loopR (λ c acc, add_closure next o fuel c acc) l acc = Ok acc' ∧
      acc ⊆ acc' ∧ (∀ x, x ∈ acc' → x ∈ acc ∨ ∃ c, c ∈ l ∧ tc R c x) ∧ (∀ c, c ∈ l → next c ⊆ acc') ∧
      (∀ x, x ∈ acc' → x ∉ acc → next x ⊆ acc').
  Proof.
    intros Hf. revert acc. induction l as [|c l IH]; intros acc; cbn [loopR].
    { exists acc. split; [done|]. split; [done|]. split; [by left|]. split; [set_solver|]. done. }
    destruct (add_closure_spec fuel c acc) as (a1 & Heq & H1 & H2 & H3 & H4).
    { eapply Nat.le_lt_trans; [|exact Hf]. apply subseteq_size. set_solver. }
    rewrite Heq. destruct (IH a1) as (a2 & -> & H1' & H2' & H3' & H4').
    exists a2. split; [done|]. split; [set_solver|]. split.
    { intros x [Hx|(c' & Hc' & Hx)]%H2'.
      - apply H2 in Hx as [Hx|Hx]; [by left|]. right. exists c. split; [left|done].
      - right. exists c'. split; [by right|done]. }
    split. { intros c' [->|Hc']%elem_of_cons; [by etrans|by apply H3']. }
    intros x Hx Hxa. destruct (decide (x ∈ a1)) as [Hx1|Hx1]; [|by apply H4'].
    etrans; [|exact H1']. by apply H4.
  Qed.

  Lemma closure_set fuel k (C : nset) :
    size U < fuel →
    ∃ acc', loopR (λ c acc, add_closure next o fuel c acc) (on o k C) C = Ok acc' ∧
      ∀ x, x ∈ acc' ↔ x ∈ C ∨ ∃ c, c ∈ C ∧ tc R c x.
  Proof.
    intros Hf. destruct (closure_many fuel (on o k C) C Hf) as (a & -> & H1 & H2 & H3 & H4).
    exists a. split; [done|]. intros x. split.
    - intros [Hx|(c & Hc & Hx)]%H2; [by left|]. right. exists c. by rewrite elem_of_on in Hc.
    - intros [Hx|(c & Hc & Hx)]; [by apply H1|]. eapply closed_tc; [| |exact Hx].
      + apply H3. by apply elem_of_on.
      + intros y Hy. destruct (decide (y ∈ C)) as [HyC|HyC]; [apply H3; by apply elem_of_on|by apply H4].
  Qed.

  (** [for c in C: descendants.add(c); _add_ancestors(descendants, c)] *)
  Lemma closure_incr fuel l acc :
    size U < fuel → (∀ x, x ∈ acc → next x ⊆ acc) →
    ∃ acc', loopR (λ c acc, add_closure next o fuel c ({[c]} ∪ acc)) l acc = Ok acc' ∧
      acc ⊆ acc' ∧ (∀ x, x ∈ acc' → next x ⊆ acc') ∧ (∀ c, c ∈ l → c ∈ acc') ∧
      (∀ x, x ∈ acc' → x ∈ acc ∨ ∃ c, c ∈ l ∧ rtc R c x).
  Proof.
    intros Hf. revert acc. induction l as [|c l IH]; intros acc Hacc; cbn [loopR].
    { exists acc. split; [done|]. split; [done|]. split; [done|]. split; [set_solver|]. by left. }
    destruct (add_closure_spec fuel c ({[c]} ∪ acc)) as (a1 & Heq & H1 & H2 & H3 & H4).
    { eapply Nat.le_lt_trans; [|exact Hf]. apply subseteq_size. set_solver. }
    rewrite Heq. destruct (IH a1) as (a2 & -> & H1' & H2' & H3' & H4').
    { intros x Hx. destruct (decide (x = c)) as [->|]; [done|].
      destruct (decide (x ∈ acc)) as [Hxa|Hxa]; [|apply H4; set_solver].
      pose proof (Hacc x Hxa). set_solver. }
    exists a2. split; [done|]. split; [set_solver|]. split; [done|]. split.
    { intros c' [->|Hc']%elem_of_cons; [apply H1', H1; set_solver|by apply H3']. }
    intros x [Hx|(c' & Hc' & Hx)]%H4'.
    - apply H2 in Hx as [[->%elem_of_singleton|Hx]%elem_of_union|Hx].
      + right. exists c. split; [left|apply rtc_refl].
      + by left.
      + right. exists c. split; [left|]. by apply tc_rtc.
    - right. exists c'. split; [by right|done].
  Qed.

  Lemma closure_incr_set fuel k (C : nset) :
    size U < fuel →
    ∃ acc', loopR (λ c acc, add_closure next o fuel c ({[c]} ∪ acc)) (on o k C) ∅ = Ok acc' ∧
      ∀ x, x ∈ acc' ↔ ∃ c, c ∈ C ∧ rtc R c x.
  Proof.
    intros Hf. destruct (closure_incr fuel (on o k C) ∅ Hf) as (a & -> & H1 & H2 & H3 & H4); [set_solver|].
    exists a. split; [done|]. intros x. split.
    - intros [Hx|(c & Hc & Hx)]%H4; [set_solver|]. exists c. by rewrite elem_of_on in Hc.
    - intros (c & Hc & Hx). assert (c ∈ a) as Hca by (apply H3; by apply elem_of_on).
      clear Hc. induction Hx as [c|c y x Hcy _ IH]; [done|]. apply IH. by apply (H2 c).
  Qed.

  Lemma union_loop fuel l acc :
    size U < fuel →
    ∃ acc', loopR (λ n acc, res_bind (add_closure next o fuel n ∅) (λ a, Ok (acc ∪ a))) l acc = Ok acc' ∧
      ∀ x, x ∈ acc' ↔ x ∈ acc ∨ ∃ n, n ∈ l ∧ tc R n x.
  Proof.
    intros Hf. revert acc. induction l as [|n l IH]; intros acc; cbn [loopR].
    { exists acc. split; [done|]. set_solver. }
    destruct (add_closure_empty fuel n Hf) as (a & -> & Ha). cbn.
    destruct (IH (acc ∪ a)) as (acc' & -> & Hacc'). exists acc'. split; [done|].
    intros x. rewrite Hacc', elem_of_union, Ha. setoid_rewrite elem_of_cons. naive_solver.
  Qed.
End closure.

Lemma tc_flip {A} (R : relation A) x y : tc R x y ↔ tc (λ a b, R b a) y x.
Proof.
  assert (∀ (R : relation A) x y, tc R x y → tc (λ a b, R b a) y x) as H.
  { clear. intros R x y H. induction H as [x y H|x y z H _ IH]; [by apply tc_once|].
    eapply tc_r; [exact IH|]. done. }
  split; [apply H|]. intros Ht. by apply H in Ht.
Qed.

Lemma rtc_flip {A} (R : relation A) x y : rtc R x y ↔ rtc (λ a b, R b a) y x.
Proof.
  assert (∀ (R : relation A) x y, rtc R x y → rtc (λ a b, R b a) y x) as H.
  { clear. intros R x y H. induction H as [x|x y z H _ IH]; [apply rtc_refl|].
    eapply rtc_r; [exact IH|]. done. }
  split; [apply H|]. intros Ht. by apply H in Ht.
Qed.

Lemma tc_iff {A} (R R' : relation A) x y : (∀ a b, R a b ↔ R' a b) → tc R x y ↔ tc R' x y.
Proof.
  intros HR. split; intros H; (induction H as [x y H|x y z H _ IH]; [apply tc_once|eapply tc_l; [|exact IH]]); by apply HR.
Qed.
Lemma rtc_iff {A} (R R' : relation A) x y : (∀ a b, R a b ↔ R' a b) → rtc R x y ↔ rtc R' x y.
Proof.
  intros HR. split; intros H; (induction H as [x|x y z H _ IH]; [apply rtc_refl|eapply rtc_l; [|exact IH]]); by apply HR.
Qed.

Section dag.
  Context (d : dag) (o : oracle) (Hwf : wf d).

  Lemma parents_sub x : parents d x ⊆ d_nodes d.
  Proof. intros y Hy. apply (wf_par _ Hwf) in Hy. by apply (wf_over _ Hwf) in Hy as [? _]. Qed.
  Lemma children_sub x : children d x ⊆ d_nodes d.
  Proof. intros y Hy. apply (wf_chi _ Hwf) in Hy. by apply (wf_over _ Hwf) in Hy as [_ ?]. Qed.

  Lemma tc_parents n x : tc (λ x y, y ∈ parents d x) n x ↔ ancestor (d_arcs d) x n.
  Proof.
    unfold ancestor. rewrite (tc_flip (edge _)). apply tc_iff. intros a b. unfold edge. apply (wf_par _ Hwf).
  Qed.
  Lemma rtc_parents n x : rtc (λ x y, y ∈ parents d x) n x ↔ rtc (edge (d_arcs d)) x n.
  Proof.
    rewrite (rtc_flip (edge _)). apply rtc_iff. intros a b. unfold edge. apply (wf_par _ Hwf).
  Qed.
  Lemma tc_children n x : tc (λ x y, y ∈ children d x) n x ↔ ancestor (d_arcs d) n x.
  Proof. apply tc_iff. intros a b. unfold edge. apply (wf_chi _ Hwf). Qed.

  Lemma ancestors_of_spec n :
    ∃ X, ancestors_of d o n = Ok X ∧ ∀ x, x ∈ X ↔ ancestor (d_arcs d) x n.
  Proof.
    destruct (add_closure_empty (parents d) o (d_nodes d) parents_sub (closure_fuel d) n) as (X & H & HX);
      [unfold closure_fuel; lia|].
    exists X. split; [done|]. intros x. rewrite HX. apply tc_parents.
  Qed.

  Lemma descendants_of_spec n :
    ∃ X, descendants_of d o n = Ok X ∧ ∀ x, x ∈ X ↔ ancestor (d_arcs d) n x.
  Proof.
    destruct (add_closure_empty (children d) o (d_nodes d) children_sub (closure_fuel d) n) as (X & H & HX);
      [unfold closure_fuel; lia|].
    exists X. split; [done|]. intros x. rewrite HX. apply tc_children.
  Qed.

  Lemma ancestors_of_set_spec S :
    ∃ X, ancestors_of_set d o S = Ok X ∧ ∀ x, x ∈ X ↔ ∃ n, n ∈ S ∧ ancestor (d_arcs d) x n.
  Proof.
    destruct (union_loop (parents d) o (d_nodes d) parents_sub (closure_fuel d) (on o [6] S) ∅) as (X & H & HX);
      [unfold closure_fuel; lia|].
    exists X. split; [exact H|]. intros x. rewrite HX. setoid_rewrite elem_of_on. setoid_rewrite tc_parents. set_solver.
  Qed.

  Lemma descendants_of_set_spec S :
    S ≠ ∅ → ∃ X, descendants_of_set d o S = Ok X ∧ ∀ x, x ∈ X ↔ ∃ n, n ∈ S ∧ ancestor (d_arcs d) n x.
  Proof.
    intros HS. unfold descendants_of_set. rewrite decide_False by done.
    destruct (union_loop (children d) o (d_nodes d) children_sub (closure_fuel d) (on o [6] S) ∅) as (X & H & HX);
      [unfold closure_fuel; lia|].
    exists X. split; [exact H|]. intros x. rewrite HX. setoid_rewrite elem_of_on. setoid_rewrite tc_children. set_solver.
  Qed.

  Lemma is_ancestor_of_spec a b :
    ∃ r, is_ancestor_of d o a b = Ok r ∧ (r = true ↔ ancestor (d_arcs d) a b).
  Proof.
    unfold is_ancestor_of. destruct (decide (b ∈ children d a)) as [H|H].
    - exists true. split; [done|]. split; [|done]. intros _. apply tc_once. by apply (wf_chi _ Hwf).
    - destruct (descendants_of_spec a) as (X & -> & HX). cbn. eexists. split; [done|].
      by rewrite bool_decide_eq_true, HX.
  Qed.
End dag.

(** Reachability along a finite arc set is decidable. *)
Definition succs (E : arcset) (x : node) : nset := set_map snd (filter (λ a, a.1 = x) E).
Lemma elem_of_succs E x y : y ∈ succs E x ↔ (x, y) ∈ E.
Proof.
  unfold succs. rewrite elem_of_map. split.
  - intros ([a b] & -> & [H1 H2]%elem_of_filter). cbn in *. by subst.
  - intros H. exists (x, y). split; [done|]. by apply elem_of_filter.
Qed.
Definition reachb (E : arcset) (x y : node) : bool :=
  match add_closure (succs E) oracle0 (S (size (set_map (D:=nset) snd E))) x ∅ with
  | Ok X => bool_decide (y ∈ X)
  | Raise _ => false
  end.
Lemma reachb_spec E x y : reachb E x y = true ↔ tc (edge E) x y.
Proof.
  unfold reachb. destruct (add_closure_empty (succs E) oracle0 (set_map snd E)) with
    (fuel := S (size (set_map (D:=nset) snd E))) (n := x) as (X & -> & HX).
  - intros z t. rewrite elem_of_succs, elem_of_map. intros H. by exists (z, t).
  - lia.
  - rewrite bool_decide_eq_true, HX. apply tc_iff. intros a b. apply elem_of_succs.
Qed.
Global Instance tc_edge_dec E x y : Decision (tc (edge E) x y).
Proof.
  refine (match reachb E x y as b return reachb E x y = b → _ with
          | true => λ H, left _ | false => λ H, right _ end eq_refl).
  - by apply reachb_spec.
  - rewrite <- reachb_spec. by rewrite H.
Defined.
Global Instance rtc_edge_dec E x y : Decision (rtc (edge E) x y).
Proof.
  refine (cast_if (decide (x = y ∨ tc (edge E) x y))).
  - by destruct o as [->|H]; [apply rtc_refl|apply tc_rtc].
  - intros H. apply n. by apply rtc_tc.
Defined.
