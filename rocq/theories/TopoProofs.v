(** Correctness of [topological_sort]. *)
From Verif Require Import Py Spec DagModel.

(** The four views of the graph agree. *)
Record wf (d : dag) : Prop := Wf {
  wf_over : over (d_nodes d) (d_arcs d);
  wf_par : ∀ i j, i ∈ parents d j ↔ (i, j) ∈ d_arcs d;
  wf_chi : ∀ i j, j ∈ children d i ↔ (i, j) ∈ d_arcs d;
  wf_nbr : ∀ i j, j ∈ nbrs d i ↔ adjacent (d_arcs d) i j
}.

Lemma walk_snoc E p x : walk E (p ++ [x]) ↔ walk E p ∧ (∀ y, last p = Some y → (y, x) ∈ E).
Proof.
  induction p as [|a p IH]; [done|]. destruct p as [|b p].
  - simpl. naive_solver.
  - change (((a :: b :: p) ++ [x])) with (a :: (b :: p) ++ [x]).
    assert (∀ q, walk E (a :: b :: q) ↔ (a, b) ∈ E ∧ walk E (b :: q)) as H by done.
    change (walk E (a :: (b :: p) ++ [x])) with ((a, b) ∈ E ∧ walk E ((b :: p) ++ [x])).
    rewrite IH. change (last (a :: b :: p)) with (last (b :: p)). rewrite H. naive_solver.
Qed.

Lemma walk_app_r E p q : walk E (p ++ q) → walk E q.
Proof.
  induction p as [|a p IH]; [done|]. intros Hw. apply IH.
  destruct (p ++ q) as [|b r] eqn:Hr; [done|]. simpl in Hw. rewrite Hr in Hw. destruct Hw as [_ Hw]. done.
Qed.

Lemma walk_tc E x p y : walk E (x :: p ++ [y]) → tc (edge E) x y.
Proof.
  revert x. induction p as [|a p IH]; intros x Hw.
  - apply tc_once. by destruct Hw.
  - destruct Hw as [H1 H2]. eapply tc_l; [exact H1|]. by apply IH.
Qed.

Lemma closes_cycle_not_acyclic E w : closes_cycle E w → ¬ acyclic E.
Proof.
  intros [Hw (p & x & -> & Hx)] Hac.
  apply elem_of_list_split in Hx as (l1 & l2 & ->).
  rewrite <-app_assoc in Hw. apply walk_app_r in Hw.
  apply (Hac x). by apply walk_tc in Hw.
Qed.

Lemma topo_order_acyclic N E l : over N E → topo_order N E l → acyclic E.
Proof.
  intros Ho (Hnd & Hin & Hfwd) x Hx.
  assert (∀ x y, tc (edge E) x y → ∃ i j, l !! i = Some x ∧ l !! j = Some y ∧ i < j) as H.
  { clear x Hx. intros x y Hxy. induction Hxy as [x y Hxy|x y z Hxy _ IH].
    - destruct (Ho _ _ Hxy) as [Hx Hy]. apply Hin, elem_of_list_lookup in Hx as [i Hi].
      apply Hin, elem_of_list_lookup in Hy as [j Hj]. exists i, j. eauto.
    - destruct IH as (i' & j & Hi' & Hj & Hlt).
      destruct (Ho _ _ Hxy) as [Hx _]. apply Hin, elem_of_list_lookup in Hx as [i Hi].
      exists i, j. split; [done|]. split; [done|]. specialize (Hfwd i i' x y Hxy Hi Hi'). lia. }
  destruct (H x x Hx) as (i & j & Hi & Hj & Hlt).
  pose proof (NoDup_lookup l i j x Hnd Hi Hj). lia.
Qed.

Section topo.
  Context (d : dag) (o : oracle) (Hwf : wf d).
  Let N := d_nodes d.
  Let E := d_arcs d.

  Record inv (st : tstate) : Prop := Inv {
    inv_walk : walk E (t_path st);
    inv_cur : ∀ x, x ∈ t_cur st ↔ x ∈ t_path st;
    inv_any : ∀ x, x ∈ t_any st ↔ x ∈ t_path st ∨ x ∈ t_stack st;
    inv_nodup : NoDup (t_path st ++ t_stack st);
    inv_sub : t_any st ⊆ N;
    inv_closed : ∀ l1 x l2, t_stack st = l1 ++ x :: l2 → ∀ y, (x, y) ∈ E → y ∈ l1
  }.

  Definition post (st : tstate) (n : node) (r : res tstate) : Prop :=
    match r with
    | Ok st' => inv st' ∧ t_path st' = t_path st ∧ n ∈ t_stack st' ∧ ∃ l, t_stack st' = t_stack st ++ l
    | Raise e => ∃ w, e = CycleError w ∧ closes_cycle E w
    end.

  Lemma inv_any_mono st st' l :
    inv st → inv st' → t_path st' = t_path st → t_stack st' = t_stack st ++ l → t_any st ⊆ t_any st'.
  Proof.
    intros H H' Hp Hs x Hx. apply (inv_any _ H') . apply (inv_any _ H) in Hx.
    rewrite Hp, Hs, elem_of_app. naive_solver.
  Qed.

  Lemma mark_post fuel n st :
    inv st → n ∉ t_any st → n ∈ N → (∀ x, last (t_path st) = Some x → (x, n) ∈ E) →
    size (N ∖ t_any st) < fuel → post st n (mark_children_visited d o fuel n st).
  Proof.
    revert n st. induction fuel as [|fuel IH]; intros n st Hinv Hn HnN Hlast Hfuel; [lia|].
    cbn [mark_children_visited].
    set (st1 := TState _ _ _ _).
    assert (inv st1) as Hinv1.
    { destruct Hinv as [Hw Hc Ha Hnd Hsub Hcl]. split; cbn.
      - apply walk_snoc. done.
      - intros x. rewrite elem_of_app, elem_of_union, Hc, elem_of_list_singleton. set_solver.
      - intros x. rewrite elem_of_app, elem_of_union, Ha, elem_of_list_singleton. set_solver.
      - rewrite <-app_assoc. apply NoDup_app in Hnd as (Hp & Hd & Hs).
        apply NoDup_app. split; [done|]. split.
        + intros x Hx [->%elem_of_list_singleton|Hx']%elem_of_app.
          * apply Hn, Ha. by left.
          * by apply (Hd x).
        + apply NoDup_cons. split; [|done]. intros Hx. apply Hn, Ha. by right.
      - set_solver.
      - done. }
    assert (size (N ∖ t_any st1) < fuel) as Hfuel1.
    { assert (size (N ∖ t_any st1) < size (N ∖ t_any st)); [|lia].
      apply subset_size. cbn. set_solver. }
    assert (∀ c, c ∈ on o [1; n] (children d n) → (n, c) ∈ E) as Hcs.
    { intros c Hc%elem_of_on. by apply (wf_chi _ Hwf). }
    match goal with |- context [loopR ?f ?l ?s] => set (body := f); set (cs := l) end.
    assert (∀ cs s, (∀ c, c ∈ cs → (n, c) ∈ E) → inv s → t_path s = t_path st ++ [n] →
              size (N ∖ t_any s) < fuel →
              match loopR body cs s with
              | Ok s' => inv s' ∧ t_path s' = t_path st ++ [n] ∧ (∀ c, c ∈ cs → c ∈ t_stack s')
                         ∧ ∃ l, t_stack s' = t_stack s ++ l
              | Raise e => ∃ w, e = CycleError w ∧ closes_cycle E w
              end) as Hloop.
    { clear cs Hcs. intros cs. induction cs as [|c cs IHcs]; intros s Hcs Hs Hp Hf; cbn [loopR].
      { split; [done|]. split; [done|]. split; [intros c Hc; by apply elem_of_nil in Hc|].
        exists []. by rewrite app_nil_r. }
      assert ((n, c) ∈ E) as Hnc by (apply Hcs; left).
      destruct (wf_over _ Hwf _ _ Hnc) as [_ HcN].
      assert (body c s = if decide (c ∈ t_any s)
                then if decide (c ∈ t_cur s) then Raise (CycleError (t_path s ++ [c])) else Ok s
                else mark_children_visited d o fuel c s) as ->.
      { unfold body. by rewrite decide_True by done. }
      destruct (decide (c ∈ t_any s)) as [Hany|Hany].
      - destruct (decide (c ∈ t_cur s)) as [Hcur|Hcur].
        + eexists. split; [done|]. split.
          * apply walk_snoc. split; [apply Hs|]. rewrite Hp, last_snoc. by intros ? [= <-].
          * exists (t_path s), c. split; [done|]. by apply (inv_cur _ Hs).
        + specialize (IHcs s (λ c' H, Hcs c' (elem_of_list_further _ _ _ H)) Hs Hp Hf).
          destruct (loopR body cs s) as [s'|e]; [|done].
          destruct IHcs as (Hs' & Hp' & Hin & l & Hl). split; [done|]. split; [done|]. split; [|by exists l].
          intros c' [->|Hc']%elem_of_cons; [|by apply Hin].
          rewrite Hl. apply elem_of_app. left.
          apply (inv_any _ Hs) in Hany as [Hany|]; [|done]. by apply (inv_cur _ Hs) in Hany.
      - assert (post s c (mark_children_visited d o fuel c s)) as Hpost.
        { apply IH; try done. rewrite Hp, last_snoc. by intros ? [= <-]. }
        destruct (mark_children_visited d o fuel c s) as [s1|e]; [|done].
        destruct Hpost as (Hs1 & Hp1 & Hc1 & l1 & Hl1).
        assert (t_any s ⊆ t_any s1) as Hmono by (by eapply inv_any_mono).
        specialize (IHcs s1 (λ c' H, Hcs c' (elem_of_list_further _ _ _ H)) Hs1).
        rewrite Hp1 in IHcs. specialize (IHcs Hp).
        assert (size (N ∖ t_any s1) < fuel) as Hf1.
        { eapply Nat.le_lt_trans; [|exact Hf]. apply subseteq_size. set_solver. }
        specialize (IHcs Hf1).
        destruct (loopR body cs s1) as [s'|e]; [|done].
        destruct IHcs as (Hs' & Hp' & Hin & l & Hl). split; [done|]. split; [done|]. split.
        + intros c' [->|Hc']%elem_of_cons; [|by apply Hin]. rewrite Hl. apply elem_of_app. by left.
        + exists (l1 ++ l). by rewrite Hl, Hl1, app_assoc. }
    specialize (Hloop cs st1 Hcs Hinv1 eq_refl Hfuel1).
    destruct (loopR body cs st1) as [s2|e]; [|done].
    destruct Hloop as (Hs2 & Hp2 & Hin & l & Hl). cbn in Hl.
    assert (take (Nat.pred (length (t_path s2))) (t_path s2) = t_path st) as Htake.
    { rewrite Hp2, app_length. cbn. replace (Nat.pred (length (t_path st) + 1)) with (length (t_path st)) by lia.
      by rewrite take_app. }
    unfold post. rewrite Htake. cbn.
    assert (n ∉ t_path st) as Hnp.
    { intros H. apply Hn. apply (inv_any _ Hinv). by left. }
    destruct Hs2 as [Hw2 Hc2 Ha2 Hnd2 Hsub2 Hcl2]. rewrite Hp2 in *.
    split; [split; cbn|split; [done|split]].
    - by apply Hinv.
    - intros x. rewrite elem_of_difference, Hc2, elem_of_app, elem_of_list_singleton, elem_of_singleton. naive_solver.
    - intros x. rewrite Ha2, !elem_of_app, elem_of_list_singleton. naive_solver.
    - rewrite <-app_assoc in Hnd2. apply NoDup_app in Hnd2 as (HA & HB & HC).
      apply NoDup_app. split; [done|]. split.
      + intros x Hx [Hx'| ->%elem_of_list_singleton]%elem_of_app; [|done].
        apply (HB x Hx). apply elem_of_app. by right.
      + apply NoDup_app in HC as (_ & HC1 & HC2). apply NoDup_app. split; [done|]. split; [|by apply NoDup_singleton].
        intros x Hx ->%elem_of_list_singleton. apply (HC1 n); [by left|done].
    - done.
    - intros l1 x l2 Heq y Hxy. destruct l2 as [|z l2 IHl2] using rev_ind.
      + apply app_inj_tail in Heq as [<- <-]. apply Hin. apply elem_of_on. by apply (wf_chi _ Hwf).
      + rewrite app_comm_cons, app_assoc in Heq. apply app_inj_tail in Heq as [Heq ->].
        by eapply Hcl2.
    - apply elem_of_app. right. by left.
    - exists (l ++ [n]). by rewrite Hl, app_assoc.
  Qed.

  Lemma topological_sort_spec :
    match topological_sort d o with
    | Ok l => topo_order N E l
    | Raise e => ∃ w, e = CycleError w ∧ closes_cycle E w
    end.
  Proof.
    unfold topological_sort.
    match goal with |- context [loopR ?f ?l ?s] => set (body := f); set (ns := l) end.
    assert (∀ ns s, (∀ n, n ∈ ns → n ∈ N) → inv s → t_path s = [] →
              match loopR body ns s with
              | Ok s' => inv s' ∧ t_path s' = [] ∧ (∀ c, c ∈ ns → c ∈ t_stack s') ∧ ∃ l, t_stack s' = t_stack s ++ l
              | Raise e => ∃ w, e = CycleError w ∧ closes_cycle E w
              end) as Hloop.
    { clear ns. intros ns. induction ns as [|n ns IHns]; intros s Hns Hs Hp; cbn [loopR].
      { split; [done|]. split; [done|]. split; [intros c Hc; by apply elem_of_nil in Hc|].
        exists []. by rewrite app_nil_r. }
      unfold body at 1. destruct (decide (n ∈ t_any s)) as [Hany|Hany].
      - specialize (IHns s (λ c' H, Hns c' (elem_of_list_further _ _ _ H)) Hs Hp).
        destruct (loopR body ns s) as [s'|e]; [|done].
        destruct IHns as (Hs' & Hp' & Hin & l & Hl). split; [done|]. split; [done|]. split; [|by exists l].
        intros c [->|Hc]%elem_of_cons; [|by apply Hin].
        rewrite Hl. apply elem_of_app. left. apply (inv_any _ Hs) in Hany.
        rewrite Hp in Hany. destruct Hany as [Hany|]; [by apply elem_of_nil in Hany|done].
      - assert (post s n (mark_children_visited d o (S (size (d_nodes d))) n s)) as Hpost.
        { apply mark_post; try done.
          - apply Hns. left.
          - by rewrite Hp.
          - apply Nat.lt_succ_r. apply subseteq_size. set_solver. }
        destruct (mark_children_visited d o _ n s) as [s1|e]; [|done].
        destruct Hpost as (Hs1 & Hp1 & Hc1 & l1 & Hl1).
        specialize (IHns s1 (λ c' H, Hns c' (elem_of_list_further _ _ _ H)) Hs1).
        rewrite Hp1 in IHns. specialize (IHns Hp).
        destruct (loopR body ns s1) as [s'|e]; [|done].
        destruct IHns as (Hs' & Hp' & Hin & l & Hl). split; [done|]. split; [done|]. split.
        + intros c [->|Hc]%elem_of_cons; [|by apply Hin]. rewrite Hl. apply elem_of_app. by left.
        + exists (l1 ++ l). by rewrite Hl, Hl1, app_assoc. }
    specialize (Hloop ns (TState ∅ ∅ [] [])).
    destruct (loopR body ns _) as [s'|e]; cycle 1.
    { apply Hloop; [|split; cbn|done]; try set_solver.
      - intros n Hn. by apply elem_of_on in Hn.
      - apply NoDup_nil_2.
      - intros [] ? ? ?; done. }
    destruct Hloop as (Hs' & Hp' & Hin & l & Hl).
    { intros n Hn. by apply elem_of_on in Hn. }
    { split; cbn; try set_solver.
      - apply NoDup_nil_2.
      - intros [] ? ? ?; done. }
    { done. }
    clear Hl l. destruct Hs' as [Hw Hc Ha Hnd Hsub Hcl]. rewrite Hp' in *. cbn in Hnd.
    split; [|split].
    - by rewrite reverse_Permutation.
    - intros x. rewrite elem_of_reverse. split.
      + intros Hx. apply Hsub, Ha. by right.
      + intros Hx. apply Hin. by apply elem_of_on.
    - intros i j x y Hxy Hi Hj.
      set (L := t_stack s') in *.
      assert (∃ i', i' < length L ∧ i = length L - S i' ∧ L !! i' = Some x) as (i' & Hi' & -> & Hx).
      { pose proof (lookup_lt_Some _ _ _ Hi) as Hlt. rewrite reverse_length in Hlt.
        exists (length L - S i). split; [lia|]. split; [lia|]. by rewrite reverse_lookup in Hi by done. }
      assert (∃ j', j' < length L ∧ j = length L - S j' ∧ L !! j' = Some y) as (j' & Hj' & -> & Hy).
      { pose proof (lookup_lt_Some _ _ _ Hj) as Hlt. rewrite reverse_length in Hlt.
        exists (length L - S j). split; [lia|]. split; [lia|]. by rewrite reverse_lookup in Hj by done. }
      apply elem_of_list_split_length in Hx as (l1 & l2 & Hsp & Hlen).
      pose proof (Hcl _ _ _ Hsp _ Hxy) as Hyl. apply elem_of_list_lookup in Hyl as [k Hk].
      assert (L !! k = Some y) as Hk'.
      { rewrite Hsp. by apply lookup_app_l_Some. }
      pose proof (NoDup_lookup _ _ _ _ Hnd Hy Hk') as ->.
      apply lookup_lt_Some in Hk. lia.
  Qed.
End topo.
