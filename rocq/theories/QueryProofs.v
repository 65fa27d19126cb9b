(** Covered arcs, v-structures, subgraphs, renaming. *)
From Verif Require Import Py Spec DagModel TopoProofs StateProofs ReachProofs OrderProofs.

Lemma tc_last E x y : tc (edge E) x y → ∃ u, rtc (edge E) x u ∧ (u, y) ∈ E.
Proof.
  intros H. induction H as [x y H|x y z H _ (u & H1 & H2)].
  - exists x. split; [apply rtc_refl|done].
  - exists u. split; [by eapply rtc_l|done].
Qed.

Lemma rtc_mono (E E' : arcset) x y : E ⊆ E' → rtc (edge E) x y → rtc (edge E') x y.
Proof.
  intros Hs H. induction H as [x|x y z H _ IH]; [apply rtc_refl|]. eapply rtc_l; [|exact IH]. by apply Hs.
Qed.

(** The arc set after reversing [i -> j]. *)
Definition flip_one (E : arcset) (i j : node) : arcset := {[(j, i)]} ∪ (E ∖ {[(i, j)]}).

Section covered.
  Context (E : arcset) (i j : node).
  Context (Hac : acyclic E) (Hij : (i, j) ∈ E).
  Context (Hcov : ∀ u, (u, i) ∈ E ↔ (u, j) ∈ E ∧ u ≠ i).

  Lemma covered_ne : i ≠ j.
  Proof. intros ->. apply (Hac j). by apply tc_once. Qed.

  Lemma elem_of_flip_one x y : (x, y) ∈ flip_one E i j ↔ (x = j ∧ y = i) ∨ ((x, y) ∈ E ∧ ¬ (x = i ∧ y = j)).
  Proof. unfold flip_one. rewrite elem_of_union, elem_of_difference, !elem_of_singleton. naive_solver. Qed.

  Lemma covered_acyclic : acyclic (flip_one E i j).
  Proof.
    intros x Hx. unfold flip_one in Hx. apply tc_add_arc in Hx as [Hx|[H1 H2]].
    - apply (Hac x). eapply tc_mono; [|exact Hx]. set_solver.
    - assert (rtc (edge (E ∖ {[(i, j)]})) i j) as H by by etrans.
      apply rtc_tc in H as [H|H]; [by apply covered_ne|].
      apply tc_last in H as (u & Hu1 & Hu2). apply elem_of_difference in Hu2 as [Hu2 Hu3].
      apply (Hac i). eapply tc_rtc_l; [|apply tc_once, Hcov].
      + eapply rtc_mono; [|exact Hu1]. set_solver.
      + split; [done|]. intros ->. by apply Hu3, elem_of_singleton.
  Qed.

  Lemma covered_skeleton : same_skeleton (flip_one E i j) E.
  Proof.
    intros x y. unfold adjacent. rewrite !elem_of_flip_one. split.
    - intros [[[-> ->]|[? _]]|[[-> ->]|[? _]]]; auto.
    - destruct (decide (x = i ∧ y = j)) as [[-> ->]|H1]; [by auto|].
      destruct (decide (y = i ∧ x = j)) as [[-> ->]|H2]; [by auto|].
      intros [?|?]; auto.
  Qed.

  Lemma covered_vstructs : same_vstructs (flip_one E i j) E.
  Proof.
    pose proof covered_ne as Hne.
    intros x z y. unfold vstruct. rewrite (covered_skeleton x y). rewrite !elem_of_flip_one.
    split.
    - intros (H1 & H2 & H3 & H4). split; [|split; [|done]].
      + destruct H1 as [[-> ->]|[? _]]; [|done]. exfalso.
        destruct H2 as [[? _]|[H2 _]]; [congruence|]. apply Hcov in H2 as [H2 _]. apply H4. by right.
      + destruct H2 as [[-> ->]|[? _]]; [|done]. exfalso.
        destruct H1 as [[? _]|[H1 _]]; [congruence|]. apply Hcov in H1 as [H1 _]. apply H4. by left.
    - intros (H1 & H2 & H3 & H4). split; [|split; [|done]]; right; (split; [done|]); intros [-> ->]; apply H4.
      + right. by apply Hcov.
      + left. by apply Hcov.
  Qed.
End covered.

Lemma elem_of_combinations2 {A} (l : list A) x y :
  (x, y) ∈ combinations2 l ↔ ∃ l1 l2 l3, l = l1 ++ x :: l2 ++ y :: l3.
Proof.
  induction l as [|z l IH]; cbn.
  - rewrite elem_of_nil. split; [done|]. intros (l1 & l2 & l3 & H). by destruct l1.
  - rewrite elem_of_app, IH, elem_of_list_fmap. split.
    + intros [(y' & [= <- <-] & Hy)|(l1 & l2 & l3 & ->)].
      * apply elem_of_list_split in Hy as (l2 & l3 & ->). by exists [], l2, l3.
      * by exists (z :: l1), l2, l3.
    + intros ([|z' l1] & l2 & l3 & H); cbn in H; injection H as -> ->.
      * left. exists y. split; [done|]. set_solver.
      * right. by exists l1, l2, l3.
Qed.

Lemma combinations2_total {A} (l : list A) x y :
  NoDup l → x ∈ l → y ∈ l → x ≠ y →
  ((x, y) ∈ combinations2 l ∧ (y, x) ∉ combinations2 l) ∨ ((y, x) ∈ combinations2 l ∧ (x, y) ∉ combinations2 l).
Proof.
  intros Hnd. induction Hnd as [|z l Hz Hnd IH]; intros Hx Hy Hne; [by apply elem_of_nil in Hx|].
  assert (∀ a b, (a, b) ∈ combinations2 l → a ∈ l ∧ b ∈ l) as Hmem.
  { clear. intros a b (l1 & l2 & l3 & ->)%elem_of_combinations2. set_solver. }
  cbn. rewrite !elem_of_app, !elem_of_list_fmap.
  apply elem_of_cons in Hx as [->|Hx], Hy as [->|Hy]; [done|left|right|].
  - split; [left; by exists y|]. intros [(? & [= ??] & ?)|[? ?]%Hmem]; [congruence|done].
  - split; [left; by exists x|]. intros [(? & [= ??] & ?)|[? ?]%Hmem]; [congruence|done].
  - destruct (IH Hx Hy Hne) as [[H1 H2]|[H1 H2]]; [left|right]; (split; [by right|]);
      intros [(? & [= ??] & ?)|?]; subst; done.
Qed.

Lemma combinations2_ne {A} (l : list A) x y : NoDup l → (x, y) ∈ combinations2 l → x ≠ y ∧ x ∈ l ∧ y ∈ l.
Proof.
  intros Hnd (l1 & l2 & l3 & ->)%elem_of_combinations2. split; [|set_solver]. intros ->.
  apply NoDup_app in Hnd as (_ & _ & Hnd). apply NoDup_cons in Hnd as [H _]. set_solver.
Qed.

Section queries.
  Context (d : dag) (o : oracle) (Hwf : wf d).

  Lemma is_reversible_spec i j :
    is_reversible d i j = true ↔ ∀ u, (u, i) ∈ d_arcs d ↔ (u, j) ∈ d_arcs d ∧ u ≠ i.
  Proof.
    unfold is_reversible. rewrite bool_decide_eq_true, set_eq. setoid_rewrite elem_of_difference.
    setoid_rewrite elem_of_singleton. setoid_rewrite (wf_par _ Hwf). done.
  Qed.

  Lemma reversible_arcs_spec i j :
    (i, j) ∈ reversible_arcs d ↔ (i, j) ∈ d_arcs d ∧ ∀ u, (u, i) ∈ d_arcs d ↔ (u, j) ∈ d_arcs d ∧ u ≠ i.
  Proof.
    unfold reversible_arcs. rewrite elem_of_filter. cbn. rewrite <-is_reversible_spec. unfold is_reversible.
    rewrite bool_decide_eq_true. naive_solver.
  Qed.

  Lemma arcs_in_vstructures_spec i j :
    (i, j) ∈ arcs_in_vstructures d ↔ ∃ k, vstruct (d_arcs d) i j k.
  Proof.
    unfold arcs_in_vstructures. rewrite elem_of_filter. cbn. split.
    - intros [(k & Hk)%set_choose_L Hij]. exists k.
      rewrite !elem_of_difference, elem_of_singleton, (wf_par _ Hwf), (wf_nbr _ Hwf) in Hk.
      destruct Hk as [[H1 H2] H3]. repeat split; auto.
    - intros (k & H1 & H2 & H3 & H4). split; [|done]. intros H.
      assert (k ∈ parents d j ∖ nbrs d i ∖ {[i]}) as Hk; [|rewrite H in Hk; set_solver].
      rewrite !elem_of_difference, elem_of_singleton, (wf_par _ Hwf), (wf_nbr _ Hwf). auto.
  Qed.

  (** Each v-structure is reported exactly once, in one of its two orientations. *)
  Lemma vstructures_elem x z y :
    (x, z, y) ∈ vstructures d o ↔ z ∈ d_nodes d ∧ (x, y) ∈ combinations2 (on o [11; z] (parents d z)) ∧
       x ∉ parents d y ∧ y ∉ parents d x.
  Proof.
    unfold vstructures. rewrite elem_of_list_to_set, elem_of_list_bind. split.
    - intros (n & H & Hn). apply elem_of_list_bind in H as ([p1 p2] & H & Hp). rewrite elem_of_on in Hn.
      destruct (decide _) as [[H1 H2]|?]; [|by apply elem_of_nil in H]. apply elem_of_list_singleton in H.
      injection H as -> -> ->. auto.
    - intros (Hz & Hc & H1 & H2). exists z. split; [|by apply elem_of_on]. apply elem_of_list_bind.
      exists (x, y). split; [|done]. rewrite decide_True by done. by apply elem_of_list_singleton.
  Qed.

  Lemma vstructures_spec x z y :
    vstruct (d_arcs d) x z y ↔
      ((x, z, y) ∈ vstructures d o ∧ (y, z, x) ∉ vstructures d o) ∨
      ((y, z, x) ∈ vstructures d o ∧ (x, z, y) ∉ vstructures d o).
  Proof.
    assert (∀ x y, (x, z, y) ∈ vstructures d o → vstruct (d_arcs d) x z y) as Hsound.
    { clear x y. intros x y. rewrite vstructures_elem. intros (Hz & Hc & H1 & H2).
      apply combinations2_ne in Hc as (Hne & Hx & Hy); [|apply NoDup_on].
      rewrite elem_of_on in Hx, Hy. rewrite (wf_par _ Hwf) in *. unfold vstruct, adjacent. naive_solver. }
    assert (∀ x y, vstruct (d_arcs d) x z y → vstruct (d_arcs d) y z x) as Hsym.
    { unfold vstruct, adjacent. naive_solver. }
    split.
    - intros (Hxz & Hyz & Hne & Hna).
      destruct (combinations2_total (on o [11; z] (parents d z)) x y) as [[H1 H2]|[H1 H2]].
      + apply NoDup_on.
      + rewrite elem_of_on. by apply (wf_par _ Hwf).
      + rewrite elem_of_on. by apply (wf_par _ Hwf).
      + done.
      + left. rewrite !vstructures_elem, !(wf_par _ Hwf). unfold adjacent in Hna.
        pose proof (wf_over _ Hwf _ _ Hxz). naive_solver.
      + right. rewrite !vstructures_elem, !(wf_par _ Hwf). unfold adjacent in Hna.
        pose proof (wf_over _ Hwf _ _ Hxz). naive_solver.
    - intros [[H _]|[H _]]; auto.
  Qed.

  Lemma upstream_most_spec s :
    ∃ X, upstream_most d o s = Ok X ∧ ∀ x, x ∈ X ↔ x ∈ s ∧ ∀ a, a ∈ s → ¬ ancestor (d_arcs d) a x.
  Proof.
    unfold upstream_most.
    assert (∀ l (acc : nset), ∃ X : nset, loopR (λ n acc, res_bind (ancestors_of d o n) (λ a,
        Ok (if decide (a ∩ s = ∅) then {[n]} ∪ acc else acc))) l acc = Ok X ∧
        ∀ x, x ∈ X ↔ x ∈ acc ∨ (x ∈ l ∧ ∀ a, a ∈ s → ¬ ancestor (d_arcs d) a x)) as H.
    { induction l as [|n l IH]; intros acc; cbn [loopR].
      { exists acc. split; [done|]. intros x. rewrite elem_of_nil. naive_solver. }
      destruct (ancestors_of_spec d o Hwf n) as (a & -> & Ha). cbn [res_bind].
      edestruct IH as (X & -> & HX). exists X. split; [done|]. intros x. rewrite HX, elem_of_cons. clear IH HX X.
      destruct (decide (a ∩ s = ∅)) as [He|He].
      - rewrite elem_of_union, elem_of_singleton. split; [|naive_solver].
        intros [[->|?]|[? ?]]; [|by auto|by auto]. right. split; [by left|]. intros b Hb Hbn%Ha. set_solver.
      - split; [naive_solver|]. intros [?|[[->|?] Hx]]; [by auto| |by auto]. exfalso. apply He.
        apply set_eq. intros b. split; [|set_solver]. intros [H1%Ha H2]%elem_of_intersection. exfalso. by apply (Hx b). }
    destruct (H (on o [12] s) ∅) as (X & HX & HX'). exists X. split; [done|]. intros x.
    rewrite HX', elem_of_on. set_solver.
  Qed.

  Lemma nodes_between_spec s t :
    ∃ X, nodes_between d o s t = Ok X ∧
      ((∃ v, ancestor (d_arcs d) s v ∧ ancestor (d_arcs d) v t) →
         ∀ x, x ∈ X ↔ x = s ∨ x = t ∨ (ancestor (d_arcs d) s x ∧ ancestor (d_arcs d) x t)) ∧
      ((¬ ∃ v, ancestor (d_arcs d) s v ∧ ancestor (d_arcs d) v t) → X = ∅).
  Proof.
    unfold nodes_between. destruct (ancestors_of_spec d o Hwf t) as (A & -> & HA).
    destruct (descendants_of_spec d o Hwf s) as (B & -> & HB). cbn. eexists. split; [done|].
    assert (∀ x, x ∈ A ∩ B ↔ ancestor (d_arcs d) s x ∧ ancestor (d_arcs d) x t) as H.
    { intros x. rewrite elem_of_intersection, HA, HB. naive_solver. }
    split.
    - intros (v & Hv). apply H in Hv. rewrite decide_False by set_solver.
      intros x. rewrite elem_of_union, H. set_solver.
    - intros Hn. rewrite decide_True; [|set_solver]. set_solver.
  Qed.

  Context (Hac : acyclic (d_arcs d)).

  Lemma induced_subgraph_spec X :
    ∃ d', induced_subgraph d o X = Ok d' ∧ wf d' ∧ acyclic (d_arcs d') ∧ d_nodes d' = X ∧
      ∀ x y, (x, y) ∈ d_arcs d' ↔ (x, y) ∈ d_arcs d ∧ x ∈ X ∧ y ∈ X.
  Proof.
    unfold induced_subgraph. set (E' := filter _ _).
    assert (∀ x y, (x, y) ∈ E' ↔ (x, y) ∈ d_arcs d ∧ x ∈ X ∧ y ∈ X) as HE'.
    { intros x y. unfold E'. rewrite elem_of_filter. cbn. naive_solver. }
    destruct (dag_make_ok o X E') as [d' Hd'].
    { eapply acyclic_mono; [|exact Hac]. intros [x y] H. by apply HE'. }
    exists d'. split; [done|]. apply dag_make_spec in Hd' as (H1 & H2 & H3 & H4).
    split; [done|]. split; [done|]. split; [|by rewrite H3].
    rewrite H4. apply set_eq. intros x. rewrite !elem_of_union, !elem_of_map. split; [|by auto].
    intros [[?|([a b] & -> & H)]|([a b] & -> & H)]; [done|apply HE' in H; cbn; naive_solver|apply HE' in H; cbn; naive_solver].
  Qed.

  Lemma ancestral_subgraph_spec X :
    ∃ d', ancestral_subgraph d o X = Ok d' ∧ wf d' ∧ acyclic (d_arcs d') ∧
      (∀ x, x ∈ d_nodes d' ↔ ∃ y, y ∈ X ∧ rtc (edge (d_arcs d)) x y) ∧
      ∀ x y, (x, y) ∈ d_arcs d' ↔ (x, y) ∈ d_arcs d ∧ y ∈ d_nodes d'.
  Proof.
    unfold ancestral_subgraph. destruct (ancestors_of_set_spec d o Hwf X) as (A & -> & HA). cbn.
    destruct (induced_subgraph_spec (A ∪ X)) as (d' & -> & H1 & H2 & H3 & H4).
    assert (∀ x, x ∈ A ∪ X ↔ ∃ y, y ∈ X ∧ rtc (edge (d_arcs d)) x y) as HN.
    { intros x. rewrite elem_of_union, HA. split.
      - intros [(n & Hn & Hx)|Hx]; [exists n; split; [done|by apply tc_rtc]|exists x; split; [done|apply rtc_refl]].
      - intros (y & Hy & Hxy). apply rtc_tc in Hxy as [->|Hxy]; [by right|left; by exists y]. }
    exists d'. split; [done|]. split; [done|]. split; [done|]. rewrite H3. split; [done|].
    intros x y. rewrite H4. split; [naive_solver|]. intros [Hxy Hy]. split; [done|]. split; [|done].
    apply HN in Hy as (z & Hz & Hyz). apply HN. exists z. split; [done|]. by eapply rtc_l.
  Qed.

  Lemma ancestral_subgraph_ancestors X d' x y :
    ancestral_subgraph d o X = Ok d' → y ∈ d_nodes d' →
    ancestor (d_arcs d') x y ↔ ancestor (d_arcs d) x y.
  Proof.
    destruct (ancestral_subgraph_spec X) as (d'' & -> & _ & _ & H1 & H2). intros [= ->] Hy.
    split; [apply tc_mono; intros [a b] H; by apply H2|]. intros H.
    induction H as [x y H|x z y H Hzy IH].
    - apply tc_once. by apply H2.
    - eapply tc_l; [|by apply IH]. apply H2. split; [done|].
      apply H1 in Hy as (t & Ht & Hyt). apply H1. exists t. split; [done|].
      etrans; [by apply tc_rtc|done].
  Qed.

  Lemma rename_nodes_spec (f : gmap nat nat) :
    (∀ x, x ∈ d_nodes d → is_Some (f !! x)) →
    (∀ x y, x ∈ d_nodes d → y ∈ d_nodes d → f !! x = f !! y → x = y) →
    ∃ d', rename_nodes d o f = Ok d' ∧ wf d' ∧ acyclic (d_arcs d') ∧
      (∀ b, b ∈ d_nodes d' ↔ ∃ a, a ∈ d_nodes d ∧ f !! a = Some b) ∧
      (∀ b1 b2, (b1, b2) ∈ d_arcs d' ↔ ∃ a1 a2, (a1, a2) ∈ d_arcs d ∧ f !! a1 = Some b1 ∧ f !! a2 = Some b2).
  Proof.
    intros Htot Hinj. unfold rename_nodes. rewrite decide_True; cycle 1.
    { split; [done|]. intros [x y] H. cbn. apply (wf_over _ Hwf) in H as [? ?]. auto. }
    set (g := λ n, default 0 (f !! n)).
    assert (∀ x, x ∈ d_nodes d → f !! x = Some (g x)) as Hg.
    { intros x Hx. unfold g. by destruct (Htot x Hx) as [y ->]. }
    set (E' := set_map _ _) at 2. set (N' := set_map _ _) at 1.
    assert (∀ b1 b2, (b1, b2) ∈ E' ↔ ∃ a1 a2, (a1, a2) ∈ d_arcs d ∧ f !! a1 = Some b1 ∧ f !! a2 = Some b2) as HE'.
    { intros b1 b2. unfold E'. rewrite elem_of_map. split.
      - intros ([a1 a2] & [= -> ->] & H). exists a1, a2. split; [done|].
        apply (wf_over _ Hwf) in H as [? ?]. split; by apply Hg.
      - intros (a1 & a2 & H & H1 & H2). exists (a1, a2). split; [|done]. cbn. by rewrite H1, H2. }
    assert (∀ b, b ∈ N' ↔ ∃ a, a ∈ d_nodes d ∧ f !! a = Some b) as HN'.
    { intros b. unfold N'. rewrite elem_of_map. split.
      - intros (a & -> & H). exists a. split; [done|]. by apply Hg.
      - intros (a & H & H1). exists a. split; [|done]. unfold g. by rewrite H1. }
    destruct (dag_make_ok o N' E') as [d' Hd'].
    { assert (∀ b1 b2, tc (edge E') b1 b2 → ∃ a1 a2, tc (edge (d_arcs d)) a1 a2 ∧ f !! a1 = Some b1 ∧ f !! a2 = Some b2) as H.
      { intros b1 b2 H. induction H as [b1 b2 H|b1 b2 b3 H _ (a2 & a3 & IH1 & IH2 & IH3)].
        - apply HE' in H as (a1 & a2 & H & ? & ?). exists a1, a2. split; [by apply tc_once|done].
        - apply HE' in H as (a1 & a2' & H & H1 & H2). exists a1, a3. split; [|done].
          destruct (wf_over _ Hwf _ _ H) as [_ ?]. destruct (tc_over _ _ _ _ (wf_over _ Hwf) IH1) as [? _].
          rewrite (Hinj a2' a2) in H by (done || congruence). by eapply tc_l. }
      intros b (a1 & a2 & H1 & H2 & H3)%H. destruct (tc_over _ _ _ _ (wf_over _ Hwf) H1) as [? ?].
      rewrite (Hinj a1 a2) in H1 by (done || congruence). by apply (Hac a2). }
    exists d'. split; [done|]. apply dag_make_spec in Hd' as (H1 & H2 & H3 & H4).
    split; [done|]. split; [done|]. split; [|by rewrite H3].
    intros b. rewrite <-HN', H4, !elem_of_union, !elem_of_map. split; [|by auto].
    intros [[?|([b1 b2] & -> & H)]|([b1 b2] & -> & H)]; [done| |]; apply HE' in H as (a1 & a2 & H & ? & ?);
      apply (wf_over _ Hwf) in H as [? ?]; apply HN'; eauto.
  Qed.

End queries.
