(** [is_topological], [permutation_score], [ancestor_dict], [descendant_dict]. *)
From Verif Require Import Py Spec DagModel TopoProofs StateProofs ReachProofs.

Lemma node2ix_from_notin k l m n : n ∉ l → node2ix_from k l m !! n = m !! n.
Proof.
  revert k m. induction l as [|x l IH]; intros k m H; [done|]. cbn.
  apply not_elem_of_cons in H as [H1 H2]. rewrite IH by done. by rewrite lookup_insert_ne by done.
Qed.

Lemma node2ix_from_spec k l m n i :
  NoDup l → (∀ x, x ∈ l → m !! x = None) →
  n ∈ l → node2ix_from k l m !! n = Some i ↔ ∃ i', i = k + i' ∧ l !! i' = Some n.
Proof.
  revert k m i. induction l as [|x l IH]; intros k m i Hnd Hm Hn; [by apply elem_of_nil in Hn|].
  apply NoDup_cons in Hnd as [Hx Hnd]. cbn.
  destruct (decide (n = x)) as [->|Hne].
  - rewrite node2ix_from_notin by done. rewrite lookup_insert. split.
    + intros [= <-]. exists 0. by rewrite Nat.add_0_r.
    + intros ([|i'] & -> & H); [by rewrite Nat.add_0_r|]. cbn in H. by apply elem_of_list_lookup_2 in H.
  - apply elem_of_cons in Hn as [?|Hn]; [done|]. rewrite IH; [|done| |done].
    + split.
      * intros (i' & -> & H). exists (S i'). split; [lia|done].
      * intros ([|i'] & -> & H); [cbn in H; congruence|]. exists i'. split; [lia|done].
    + intros y Hy. rewrite lookup_insert_ne by (intros <-; done). apply Hm. by right.
Qed.

Lemma node2ix_spec l n i : NoDup l → node2ix l !! n = Some i ↔ l !! i = Some n.
Proof.
  intros Hnd. unfold node2ix. destruct (decide (n ∈ l)) as [Hin|Hin].
  - rewrite node2ix_from_spec by done. split; [by intros (i' & -> & H)|]. intros H. by exists i.
  - rewrite node2ix_from_notin by done. rewrite lookup_empty. split; [done|].
    intros H. by apply elem_of_list_lookup_2 in H.
Qed.

Section order.
  Context (l : list node) (Hnd : NoDup l).

  Lemma before_ix i j x y : node2ix l !! i = Some x → node2ix l !! j = Some y → before l i j ↔ x < y.
  Proof.
    rewrite !node2ix_spec by done. intros Hi Hj. split.
    - intros (x' & y' & Hx' & Hy' & Hlt).
      rewrite (NoDup_lookup _ _ _ _ Hnd Hi Hx'), (NoDup_lookup _ _ _ _ Hnd Hj Hy'). done.
    - intros Hlt. by exists x, y.
  Qed.

  Lemma all_arcs_before_spec arcs :
    (∀ a, a ∈ arcs → a.1 ∈ l ∧ a.2 ∈ l) →
    ∃ b, all_arcs_before (node2ix l) arcs = Ok b ∧ (b = true ↔ ∀ i j, (i, j) ∈ arcs → before l i j).
  Proof.
    induction arcs as [|[i j] arcs IH]; intros Hin; cbn.
    { exists true. split; [done|]. split; [|done]. intros _ i j H. by apply elem_of_nil in H. }
    destruct (Hin (i, j)) as [Hi Hj]; [left|]. cbn in *.
    apply elem_of_list_lookup in Hi as [x Hx]. apply elem_of_list_lookup in Hj as [y Hy].
    apply node2ix_spec in Hx; [|done]. apply node2ix_spec in Hy; [|done]. rewrite Hx, Hy.
    destruct (decide (x < y)) as [Hlt|Hlt].
    - destruct IH as (b & -> & Hb); [intros a Ha; apply Hin; by right|]. exists b. split; [done|].
      rewrite Hb. setoid_rewrite elem_of_cons. split.
      + intros H i' j' [[= -> ->]|H']; [by rewrite before_ix by done|by apply H].
      + intros H i' j' H'. apply H. by right.
    - exists false. split; [done|]. split; [done|]. intros H. exfalso. apply Hlt.
      rewrite <-before_ix by done. apply H. left.
  Qed.

  Lemma count_errors_spec arcs :
    NoDup arcs → (∀ a, a ∈ arcs → a.1 ∈ l ∧ a.2 ∈ l) →
    ∃ B : arcset, count_errors (node2ix l) arcs = Ok (size B) ∧
      ∀ i j, (i, j) ∈ B ↔ (i, j) ∈ arcs ∧ before l j i.
  Proof.
    induction arcs as [|[i j] arcs IH]; intros Hnd' Hin; cbn.
    { exists ∅. split; [done|]. intros i j. split; [set_solver|]. intros [H _]. by apply elem_of_nil in H. }
    apply NoDup_cons in Hnd' as [Hnot Hnd'].
    destruct (Hin (i, j)) as [Hi Hj]; [left|]. cbn in *.
    apply elem_of_list_lookup in Hi as [x Hx]. apply elem_of_list_lookup in Hj as [y Hy].
    apply node2ix_spec in Hx; [|done]. apply node2ix_spec in Hy; [|done]. rewrite Hx, Hy.
    destruct IH as (B & -> & HB); [done|intros a Ha; apply Hin; by right|]. cbn.
    destruct (decide (y < x)) as [Hlt|Hlt].
    - exists ({[(i, j)]} ∪ B). rewrite size_union, size_singleton.
      2:{ intros a Ha1 Ha2. apply elem_of_singleton in Ha1 as ->. apply HB in Ha2 as [? _]. done. }
      split; [done|]. intros i' j'. rewrite elem_of_union, elem_of_singleton, HB, elem_of_cons. split.
      + intros [[= -> ->]|[??]]; [|by auto]. split; [by left|]. by rewrite before_ix by done.
      + intros [[[= -> ->]|?] ?]; [by left|by right].
    - exists B. split; [done|]. intros i' j'. rewrite HB, elem_of_cons. split; [by intros [??]; auto|].
      intros [[[= -> ->]|?] Hb]; [|done]. rewrite before_ix in Hb by done. done.
  Qed.

  Lemma before_total x y : x ∈ l → y ∈ l → x ≠ y → before l x y ∨ before l y x.
  Proof.
    intros [i Hi]%elem_of_list_lookup [j Hj]%elem_of_list_lookup Hne.
    assert (i ≠ j) by (intros ->; congruence).
    destruct (decide (i < j)); [left; by exists i, j|right; exists j, i; repeat split; auto; lia].
  Qed.
  Lemma before_asym x y : before l x y → ¬ before l y x.
  Proof.
    intros (i & j & Hi & Hj & Hlt) (j' & i' & Hj' & Hi' & Hlt').
    rewrite (NoDup_lookup _ _ _ _ Hnd Hi Hi') in Hlt. rewrite (NoDup_lookup _ _ _ _ Hnd Hj Hj') in Hlt. lia.
  Qed.
End order.

Lemma before_reverse l x y : before (reverse l) x y ↔ before l y x.
Proof.
  assert (∀ l x y, before l x y → before (reverse l) y x) as H.
  { clear. intros l x y (i & j & Hi & Hj & Hlt).
    pose proof (lookup_lt_Some _ _ _ Hi). pose proof (lookup_lt_Some _ _ _ Hj).
    exists (length l - S j), (length l - S i). rewrite !reverse_lookup by lia.
    replace (length l - S (length l - S j)) with j by lia.
    replace (length l - S (length l - S i)) with i by lia. repeat split; auto; lia. }
  split; [|apply H]. intros Hb%H. by rewrite reverse_involutive in Hb.
Qed.

Section dicts.
  Context (o : oracle).

  (** One direction of propagation: [next]/[prev] are children/parents or the converse. *)
  Context (next : node → nset) (F : arcset) (Hnext : ∀ x y, y ∈ next x ↔ (x, y) ∈ F).
  Context (Hacy : acyclic F).

  Let step (m : dmap) (n : node) : dmap :=
    foldl (λ m c, <[c := dget m c ∪ dget m n]> m) (dadd m n n) (on o [7; n] (next n)).

  Lemma spread_spec n l (m : dmap) :
    n ∉ l → NoDup l →
    ∀ v, dget (foldl (λ m c, <[c := dget m c ∪ dget m n]> m) m l) v =
         if decide (v ∈ l) then dget m v ∪ dget m n else dget m v.
  Proof.
    revert m. induction l as [|c l IH]; intros m Hn Hnd v; [done|]. cbn.
    apply not_elem_of_cons in Hn as [Hnc Hn]. apply NoDup_cons in Hnd as [Hc Hnd].
    assert (∀ u w, dget (<[c:=u]> m) w = if decide (c = w) then u else dget m w) as Hins.
    { intros u w. unfold dget at 1. case_decide as Hcw; [subst; by rewrite lookup_insert|by rewrite lookup_insert_ne]. }
    rewrite IH by done. rewrite !Hins. rewrite (decide_False (P := c = n)) by done.
    destruct (decide (v ∈ c :: l)) as [Hv|Hv]; destruct (decide (v ∈ l)) as [Hv'|Hv'].
    - rewrite decide_False; [done|]. intros ->; done.
    - rewrite decide_True; [by apply elem_of_cons in Hv as [->|?]|]. by apply elem_of_cons in Hv as [->|?].
    - destruct Hv. by right.
    - rewrite decide_False; [done|]. intros ->. destruct Hv. left.
  Qed.

  Lemma propagate_spec (p q : list node) :
    NoDup (p ++ q) → (∀ x y, (x, y) ∈ F → y ∈ p ++ q → before (p ++ q) x y) →
    ∀ v x, x ∈ dget (foldl step ∅ p) v ↔ (x = v ∧ v ∈ p) ∨ ∃ u, u ∈ p ∧ (u, v) ∈ F ∧ rtc (edge F) x u.
  Proof.
    revert q. induction p as [|n p IH] using rev_ind; intros q Hnd Hord v x.
    { cbn. rewrite dget_empty. setoid_rewrite elem_of_nil. split; [set_solver|]. naive_solver. }
    rewrite foldl_app. cbn [foldl]. rewrite <-app_assoc in Hnd, Hord. cbn in *.
    specialize (IH (n :: q) Hnd Hord). set (m := foldl step ∅ p) in *.
    assert (n ∉ next n) as Hnn. { rewrite Hnext. intros H. apply (Hacy n). by apply tc_once. }
    assert (n ∉ p) as Hnp. { apply NoDup_app in Hnd as (_ & H & _). intros Hin. apply (H n Hin). left. }
    assert (∀ u, (u, n) ∈ F → u ∈ p) as Hpar.
    { intros u Hu. apply Hord in Hu; [|set_solver]. destruct Hu as (i & j & Hi & Hj & Hlt).
      assert (j = length p) as ->.
      { eapply NoDup_lookup; [exact Hnd|exact Hj|]. by rewrite list_lookup_middle. }
      rewrite lookup_app_l in Hi by done. by apply elem_of_list_lookup_2 in Hi. }
    assert (∀ x, x ∈ dget (dadd m n n) n ↔ rtc (edge F) x n) as Hn.
    { intros y. rewrite dget_dadd, decide_True, elem_of_union, elem_of_singleton, IH by done. split.
      - intros [->|[[-> _]|(u & Hu & Hun & Hy)]]; [apply rtc_refl|apply rtc_refl|]. eapply rtc_r; [exact Hy|done].
      - intros H. apply rtc_inv_r in H as [->|(u & Hu & Hun)]; [by left|]. right. right. exists u. auto. }
    unfold step at 1. rewrite spread_spec; [|by rewrite elem_of_on|apply NoDup_on].
    setoid_rewrite elem_of_app. setoid_rewrite elem_of_list_singleton.
    destruct (decide (v ∈ on o [7; n] (next n))) as [Hv|Hv].
    - rewrite elem_of_on, Hnext in Hv. rewrite elem_of_union, Hn, dget_dadd.
      destruct (decide (n = v)) as [<-|Hne]; [exfalso; by apply Hnn, Hnext|]. rewrite IH. split.
      + intros [[[-> ?]|(u & ? & ? & ?)]|H]; [by auto|right; exists u; by auto|right; exists n; by auto].
      + intros [[-> [?| ->]]|(u & [Hu| ->] & Huv & Hxu)]; [by auto|done| |by auto].
        left. right. by exists u.
    - rewrite elem_of_on, Hnext in Hv. destruct (decide (v = n)) as [->|Hne].
      + rewrite Hn. split.
        * intros H. apply rtc_inv_r in H as [->|(u & Hu & Hun)]; [by auto|]. right. exists u. split; [left; by apply Hpar|done].
        * intros [[-> _]|(u & _ & Hun & Hxu)]; [apply rtc_refl|]. eapply rtc_r; [exact Hxu|done].
      + rewrite dget_dadd, decide_False, IH by done. split.
        * intros [[-> ?]|(u & ? & ? & ?)]; [by auto|right; exists u; by auto].
        * intros [[-> [?| ->]]|(u & [Hu| ->] & Huv & Hxu)]; [by auto|done| |done]. right. by exists u.
  Qed.

  Lemma strip_spec l (m : dmap) v :
    NoDup l → dget (foldl (λ m n, ddel m n n) m l) v = if decide (v ∈ l) then dget m v ∖ {[v]} else dget m v.
  Proof.
    revert m. induction l as [|n l IH]; intros m Hnd; [done|]. cbn. apply NoDup_cons in Hnd as [Hn Hnd].
    rewrite IH, dget_ddel by done. destruct (decide (n = v)) as [->|Hne].
    - rewrite decide_False by done. rewrite decide_True by left. done.
    - destruct (decide (v ∈ l)) as [Hv|Hv].
      + rewrite decide_True by by right. done.
      + rewrite decide_False; [done|]. intros [->|?]%elem_of_cons; done.
  Qed.

  Lemma dict_spec N l v x :
    NoDup l → (∀ x, x ∈ l ↔ x ∈ N) → over N F → (∀ x y, (x, y) ∈ F → before l x y) → v ∈ N →
    x ∈ dget (foldl (λ m n, ddel m n n) (foldl step ∅ l) (on o [8] N)) v ↔ tc (edge F) x v.
  Proof.
    intros Hnd Hl Ho Hord Hv. rewrite strip_spec by apply NoDup_on.
    rewrite decide_True by by apply elem_of_on. rewrite elem_of_difference, elem_of_singleton.
    rewrite (propagate_spec l []).
    2:{ by rewrite app_nil_r. }
    2:{ intros a b Hab _. rewrite app_nil_r. by apply Hord. }
    split.
    - intros [[[-> _]|(u & Hu & Huv & Hxu)] Hne]; [done|]. eapply tc_rtc_l; [exact Hxu|]. by apply tc_once.
    - intros H. split; [|intros ->; by apply (Hacy v)]. right.
      assert (∀ x y, tc (edge F) x y → ∃ u, rtc (edge F) x u ∧ (u, y) ∈ F) as Hlast.
      { clear. intros x y H. induction H as [x y H|x y z H _ (u & H1 & H2)].
        - exists x. split; [apply rtc_refl|done].
        - exists u. split; [by eapply rtc_l|done]. }
      apply Hlast in H as (u & Hxu & Huv). exists u. split; [|done].
      apply Hl. by apply Ho in Huv as [? _].
  Qed.
End dicts.

Definition flip_arcs (E : arcset) : arcset := set_map (λ a, (a.2, a.1)) E.
Lemma elem_of_flip E x y : (x, y) ∈ flip_arcs E ↔ (y, x) ∈ E.
Proof.
  unfold flip_arcs. rewrite elem_of_map. split.
  - intros ([a b] & [= -> ->] & H). done.
  - intros H. by exists (y, x).
Qed.
Lemma tc_flip_arcs E x y : tc (edge (flip_arcs E)) x y ↔ tc (edge E) y x.
Proof. rewrite (tc_flip (edge E)). apply tc_iff. intros a b. apply elem_of_flip. Qed.

Section dicts2.
  Context (d : dag) (o : oracle) (Hwf : wf d) (Hac : acyclic (d_arcs d)).

  Lemma ancestor_dict_spec :
    ∃ m, ancestor_dict d o = Ok m ∧ ∀ v, v ∈ d_nodes d → ∀ x, x ∈ dget m v ↔ ancestor (d_arcs d) x v.
  Proof.
    unfold ancestor_dict. pose proof (topological_sort_spec d o Hwf) as H.
    destruct (topological_sort d o) as [l|e].
    2:{ destruct H as (w & _ & Hw). by apply closes_cycle_not_acyclic in Hw. }
    destruct H as (Hnd & Hl & Hord). cbn. eexists. split; [done|]. intros v Hv x.
    apply (dict_spec o (children d) (d_arcs d)); try done.
    - apply Hwf.
    - apply Hwf.
    - intros a b Hab. destruct (wf_over _ Hwf _ _ Hab) as [Ha Hb].
      apply Hl, elem_of_list_lookup in Ha as [i Hi]. apply Hl, elem_of_list_lookup in Hb as [j Hj].
      exists i, j. split; [done|]. split; [done|]. by eapply Hord.
  Qed.

  Lemma descendant_dict_spec :
    ∃ m, descendant_dict d o = Ok m ∧ ∀ v, v ∈ d_nodes d → ∀ x, x ∈ dget m v ↔ ancestor (d_arcs d) v x.
  Proof.
    unfold descendant_dict. pose proof (topological_sort_spec d o Hwf) as H.
    destruct (topological_sort d o) as [l|e].
    2:{ destruct H as (w & _ & Hw). by apply closes_cycle_not_acyclic in Hw. }
    destruct H as (Hnd & Hl & Hord). cbn. eexists. split; [done|]. intros v Hv x.
    unfold ancestor. rewrite <-tc_flip_arcs.
    apply (dict_spec o (parents d) (flip_arcs (d_arcs d))).
    - intros a b. rewrite elem_of_flip. apply Hwf.
    - intros a. rewrite tc_flip_arcs. apply Hac.
    - by rewrite reverse_Permutation.
    - intros a. by rewrite elem_of_reverse.
    - intros a b. rewrite elem_of_flip. intros Hab%(wf_over _ Hwf). naive_solver.
    - intros a b. rewrite elem_of_flip, before_reverse. intros Hab. destruct (wf_over _ Hwf _ _ Hab) as [Ha Hb].
      apply Hl, elem_of_list_lookup in Ha as [i Hi]. apply Hl, elem_of_list_lookup in Hb as [j Hj].
      exists i, j. split; [done|]. split; [done|]. by eapply Hord.
    - done.
  Qed.
End dicts2.
