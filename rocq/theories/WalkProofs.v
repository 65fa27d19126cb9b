(** Active walks and active paths. *)
From Verif Require Import Py Spec SpecDsep TopoProofs StateProofs ReachProofs.

(** Structural versions. *)
Fixpoint adjs (E : arcset) (l : list node) : Prop :=
  match l with
  | a :: (b :: _) as l' => adjacent E a b ∧ adjs E l'
  | _ => True
  end.
Fixpoint acts (E : arcset) (C : nset) (l : list node) : Prop :=
  match l with
  | a :: (b :: c :: _) as l' => active_at E C a b c ∧ acts E C l'
  | _ => True
  end.

Lemma adjs_cons E a b l : adjs E (a :: b :: l) ↔ adjacent E a b ∧ adjs E (b :: l).
Proof. done. Qed.
Lemma acts_cons E C a b c l : acts E C (a :: b :: c :: l) ↔ active_at E C a b c ∧ acts E C (b :: c :: l).
Proof. done. Qed.

Lemma adjs_trail E l : adjs E l ↔ trail E l.
Proof.
  split.
  - intros H p. revert l H. induction p as [|x p IH]; intros l H a b q ->.
    + cbn in H. naive_solver.
    + eapply (IH (p ++ a :: b :: q)); [|done]. destruct p; cbn in *; naive_solver.
  - induction l as [|a l IH]; intros H; [done|]. destruct l as [|b l]; [done|]. split.
    + by apply (H [] a b l).
    + apply IH. intros p x y q Hq. apply (H (a :: p) x y q). by rewrite Hq.
Qed.

Lemma acts_active E C l : acts E C l ↔ active E C l.
Proof.
  split.
  - intros H p. revert l H. induction p as [|x p IH]; intros l H a b c q ->.
    + cbn in H. naive_solver.
    + eapply (IH (p ++ a :: b :: c :: q)); [|done].
      destruct p as [|y [|z p]]; cbn in *; naive_solver.
  - induction l as [|a l IH]; intros H; [done|]. destruct l as [|b [|c l]]; [done|done|]. split.
    + by apply (H [] a b c l).
    + apply IH. intros p x y z q Hq. apply (H (a :: p) x y z q). by rewrite Hq.
Qed.

Lemma adjs_app E l1 x l2 : adjs E (l1 ++ x :: l2) ↔ adjs E (l1 ++ [x]) ∧ adjs E (x :: l2).
Proof.
  induction l1 as [|a l1 IH]; [by cbn; naive_solver|].
  destruct l1 as [|b l1]; cbn [app] in *.
  - rewrite !adjs_cons. cbn. naive_solver.
  - rewrite !adjs_cons. rewrite IH. naive_solver.
Qed.
Lemma acts_app E C l1 x y l2 : acts E C (l1 ++ x :: y :: l2) ↔ acts E C (l1 ++ [x; y]) ∧ acts E C (x :: y :: l2).
Proof.
  induction l1 as [|a l1 IH]; [by cbn; naive_solver|].
  destruct l1 as [|b [|c l1]]; cbn [app] in *; rewrite !acts_cons.
  - cbn. naive_solver.
  - rewrite IH. naive_solver.
  - rewrite IH. naive_solver.
Qed.
Lemma acts_app1_r E C l1 l2 : acts E C (l1 ++ l2) → acts E C l2.
Proof.
  induction l1 as [|a l1 IH]; [done|]. intros H. apply IH. cbn in H.
  destruct (l1 ++ l2) as [|b [|c l]]; [done|done|]. apply H.
Qed.
Lemma acts_app1_l E C l1 l2 : acts E C (l1 ++ l2) → acts E C l1.
Proof.
  intros H. destruct l2 as [|y l2]; [by rewrite app_nil_r in H|].
  induction l1 as [|a l1 IH]; [done|]. cbn [app] in H.
  destruct l1 as [|b [|c l1]]; [done|done|]. cbn [app] in *. rewrite acts_cons in *. naive_solver.
Qed.
Lemma adjs_app1_l E l1 l2 : adjs E (l1 ++ l2) → adjs E l1.
Proof.
  destruct l2 as [|y l2]; [by rewrite app_nil_r|]. intros H.
  induction l1 as [|a l1 IH]; [done|]. cbn [app] in H. destruct l1 as [|b l1]; [done|]. cbn [app] in *.
  rewrite adjs_cons in *. naive_solver.
Qed.
Lemma adjs_app1_r E l1 l2 : adjs E (l1 ++ l2) → adjs E l2.
Proof.
  induction l1 as [|a l1 IH]; [done|]. intros H. apply IH. cbn in H.
  destruct (l1 ++ l2) as [|b l]; [done|]. apply H.
Qed.

Lemma adjacent_sym E x y : adjacent E x y → adjacent E y x.
Proof. unfold adjacent. naive_solver. Qed.
Lemma collider_sym E a b c : collider E a b c ↔ collider E c b a.
Proof. unfold collider. naive_solver. Qed.
Lemma active_at_sym E C a b c : active_at E C a b c → active_at E C c b a.
Proof. unfold active_at. rewrite (collider_sym E c b a). done. Qed.

Lemma adjs_reverse E l : adjs E l → adjs E (reverse l).
Proof.
  induction l as [|a l IH]; [done|]. destruct l as [|b l]; [done|]. rewrite adjs_cons. intros [H1 H2].
  rewrite !reverse_cons in *. rewrite <-app_assoc. apply adjs_app. split; [by apply IH|].
  cbn. split; [by apply adjacent_sym|done].
Qed.
Lemma acts_reverse E C l : acts E C l → acts E C (reverse l).
Proof.
  induction l as [|a l IH]; [done|]. destruct l as [|b [|c l]]; [done|done|]. rewrite acts_cons. intros [H1 H2].
  rewrite !reverse_cons in *. rewrite <-!app_assoc in *. cbn [app]. apply acts_app. split; [by apply IH|].
  cbn. split; [by apply active_at_sym|done].
Qed.

Lemma active_path_sym E C x y l : active_path E C x y l → active_path E C y x (reverse l).
Proof.
  intros (H1 & H2 & H3 & H4 & H5). split; [by rewrite reverse_Permutation|].
  split; [by rewrite head_reverse|]. split; [by rewrite last_reverse|].
  split; [apply adjs_trail, adjs_reverse, adjs_trail, H4|apply acts_active, acts_reverse, acts_active, H5].
Qed.

Lemma dsepd_sym E A B C : dsepd E A B C → dsepd E B A C.
Proof. intros H b a l Hb Ha Hl. apply (H a b (reverse l)); [done..|]. by apply active_path_sym. Qed.

(** Active walks: repeated nodes allowed. *)
Definition awalk (E : arcset) (C : nset) (x y : node) (l : list node) : Prop :=
  head l = Some x ∧ last l = Some y ∧ adjs E l ∧ acts E C l.

Section splice.
  Context (E : arcset) (C : nset) (Hac : acyclic E).

  (** Follow a walk that starts along an arc: either a collider that is opened
      comes first, or the walk is directed up to its end. *)
  Lemma follow w z l y :
    adjs E (w :: z :: l) → acts E C (w :: z :: l) → (w, z) ∈ E → last (z :: l) = Some y →
    opened E C w ∨ tc (edge E) w y.
  Proof.
    revert w z. induction l as [|u l IH]; intros w z Hadj Hact Hwz Hy.
    - cbn in Hy. injection Hy as ->. right. by apply tc_once.
    - rewrite adjs_cons in Hadj. destruct Hadj as [_ Hadj]. rewrite acts_cons in Hact. destruct Hact as [Hat Hact].
      pose proof Hadj as Hadj'. rewrite adjs_cons in Hadj'. destruct Hadj' as [[Hzu|Huz] _].
      + destruct (IH z u Hadj Hact Hzu) as [(c & Hc & Hzc)|Hzy]; [by rewrite last_cons_cons in Hy|..].
        * left. exists c. split; [done|]. by eapply rtc_l.
        * right. by eapply tc_l.
      + left. destruct Hat as [Hat _]. destruct Hat as (c & Hc & Hzc); [done|].
        exists c. split; [done|]. by eapply rtc_l.
  Qed.

  Lemma splice_at x v y l2 p :
    adjs E (x :: v :: l2 ++ v :: y :: p) → acts E C (x :: v :: l2 ++ v :: y :: p) →
    active_at E C x v y.
  Proof.
    intros Hadj Hact.
    assert (adjacent E v y) as Hvy.
    { change (x :: v :: l2 ++ v :: y :: p) with ((x :: v :: l2) ++ v :: y :: p) in Hadj.
      apply adjs_app in Hadj as [_ Hadj]. rewrite adjs_cons in Hadj. apply Hadj. }
    (* the triple at the first and at the last occurrence of [v] *)
    assert (∃ z, active_at E C x v z ∧ adjacent E v z ∧ (∃ l, v :: z :: l = v :: l2 ++ [v])) as (z & Hz & Hvz & l & Hl).
    { destruct l2 as [|z l2]; cbn [app] in *.
      - exfalso. rewrite !adjs_cons in Hadj. destruct Hadj as (_ & [H|H] & _); apply (Hac v); by apply tc_once.
      - exists z. rewrite acts_cons in Hact. rewrite !adjs_cons in Hadj. split; [apply Hact|]. split; [apply Hadj|]. by exists (l2 ++ [v]). }
    assert (∃ z', active_at E C z' v y) as (z' & Hz').
    { destruct l2 as [|t l2 _] using rev_ind; cbn [app] in *.
      - exists v. rewrite !acts_cons in Hact. apply Hact.
      - exists t. rewrite <-app_assoc in Hact. cbn [app] in Hact.
        change (x :: v :: l2 ++ t :: v :: y :: p) with ((x :: v :: l2) ++ t :: v :: y :: p) in Hact.
        apply acts_app in Hact as [_ Hact]. rewrite acts_cons in Hact. apply Hact. }
    split.
    - intros [Hxv Hyv]. destruct Hz as [Hz1 Hz2].
      destruct Hvz as [Hvz|Hzv]; [|apply Hz1; done].
      assert (adjs E (v :: z :: l) ∧ acts E C (v :: z :: l)) as [Ha1 Ha2].
      { rewrite Hl. change (x :: v :: l2 ++ v :: y :: p) with ([x] ++ v :: l2 ++ v :: y :: p) in Hadj, Hact. split.
        - apply adjs_app1_r in Hadj. change (v :: l2 ++ v :: y :: p) with ((v :: l2) ++ v :: y :: p) in Hadj.
          apply adjs_app in Hadj as [Hadj _]. done.
        - apply acts_app1_r in Hact.
          replace (v :: l2 ++ v :: y :: p) with ((v :: l2 ++ [v]) ++ y :: p) in Hact by (cbn; by rewrite <-app_assoc).
          by apply acts_app1_l in Hact. }
      destruct (follow v z l v Ha1 Ha2 Hvz) as [?|Hcyc]; [|done|by apply Hac in Hcyc].
      injection Hl as Hl. rewrite Hl. by rewrite last_snoc.
    - intros Hnc Hv. apply Hnc. split.
      + destruct (decide ((x, v) ∈ E)) as [|Hn]; [done|]. destruct Hz as [_ Hz]. exfalso. apply Hz; [|done].
        intros [? _]. done.
      + destruct (decide ((y, v) ∈ E)) as [|Hn]; [done|]. destruct Hz' as [_ Hz']. exfalso. apply Hz'; [|done].
        intros [_ ?]. done.
  Qed.

  Lemma splice l1 v l2 l3 :
    adjs E (l1 ++ v :: l2 ++ v :: l3) → acts E C (l1 ++ v :: l2 ++ v :: l3) →
    adjs E (l1 ++ v :: l3) ∧ acts E C (l1 ++ v :: l3).
  Proof.
    intros Hadj Hact.
    assert (adjs E (l1 ++ [v]) ∧ adjs E (v :: l3)) as [Ha1 Ha2].
    { apply adjs_app in Hadj as [H1 H2]. change (v :: l2 ++ v :: l3) with ((v :: l2) ++ v :: l3) in H2.
      apply adjs_app in H2 as [_ H2]. done. }
    split; [by apply adjs_app|].
    assert (acts E C (l1 ++ [v])) as Hc1.
    { replace (l1 ++ v :: l2 ++ v :: l3) with ((l1 ++ [v]) ++ l2 ++ v :: l3) in Hact by by rewrite <-app_assoc.
      by apply acts_app1_l in Hact. }
    assert (acts E C (v :: l3)) as Hc2.
    { replace (l1 ++ v :: l2 ++ v :: l3) with ((l1 ++ v :: l2) ++ v :: l3) in Hact by by rewrite <-app_assoc.
      by apply acts_app1_r in Hact. }
    destruct l1 as [|x l1 _] using rev_ind; [done|]. rewrite <-app_assoc in *. cbn [app] in *.
    destruct l3 as [|y l3]; [done|]. apply acts_app. split; [done|]. rewrite acts_cons. split; [|done].
    apply (splice_at x v y l2 l3); [by apply adjs_app1_r in Hadj|by apply acts_app1_r in Hact].
  Qed.

  Lemma walk_to_path x y l : awalk E C x y l → ∃ l', active_path E C x y l'.
  Proof.
    remember (length l) as n eqn:Hn. revert l Hn. induction (lt_wf n) as [n _ IH]. intros l -> (H1 & H2 & H3 & H4).
    destruct (decide (NoDup l)) as [Hnd|Hnd].
    - exists l. split; [done|]. split; [done|]. split; [done|]. split; [by apply adjs_trail|by apply acts_active].
    - assert (∃ l1 v l2 l3, l = l1 ++ v :: l2 ++ v :: l3) as (l1 & v & l2 & l3 & ->).
      { clear -Hnd. induction l as [|a l IH]; [destruct Hnd; constructor|].
        destruct (decide (a ∈ l)) as [Ha|Ha].
        - apply elem_of_list_split in Ha as (l2 & l3 & ->). by exists [], a, l2, l3.
        - destruct IH as (l1 & v & l2 & l3 & ->); [|by exists (a :: l1), v, l2, l3].
          intros H. apply Hnd. by constructor. }
      destruct (splice l1 v l2 l3 H3 H4) as [H5 H6].
      eapply (IH (length (l1 ++ v :: l3))); [|done|].
      + rewrite !app_length. cbn. rewrite app_length. cbn. lia.
      + split; [|split; [|done]].
        * destruct l1; cbn in *; done.
        * rewrite <-H2. change (l1 ++ v :: l2 ++ v :: l3) with (l1 ++ (v :: l2) ++ v :: l3).
          rewrite app_assoc. rewrite !(last_app _ (v :: l3)), !last_cons. by destruct (last l3).
  Qed.

  Lemma path_to_walk x y l : active_path E C x y l → awalk E C x y l.
  Proof.
    intros (H1 & H2 & H3 & H4 & H5). split; [done|]. split; [done|]. split; [by apply adjs_trail|by apply acts_active].
  Qed.

  Lemma dsepd_walk A B : dsepd E A B C ↔ ∀ a b l, a ∈ A → b ∈ B → ¬ awalk E C a b l.
  Proof.
    split.
    - intros H a b l Ha Hb [l' Hl]%walk_to_path. by apply (H a b l').
    - intros H a b l Ha Hb Hl%path_to_walk. by apply (H a b l).
  Qed.
End splice.
