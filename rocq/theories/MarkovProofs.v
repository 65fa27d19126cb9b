(** Graphoid laws of d-separation; the ordered Markov property implies the
    global one (Verma and Pearl). *)
From Verif Require Import Py Spec SpecDsep DagModel DsepModel TopoProofs StateProofs ReachProofs OrderProofs QueryProofs WalkProofs DsepProofs.

(** [set_solver] looking only at facts about sets. *)
Ltac fsolve :=
  unfold disjoint3 in *;
  repeat match goal with
  | H : ?P |- _ =>
      lazymatch type of P with Prop =>
        lazymatch P with
        | _ ∈ _ => fail | _ ∉ _ => fail | _ ⊆ _ => fail | _ ## _ => fail | _ ∧ _ => fail | _ ∨ _ => fail
        | @eq nset _ _ => fail | not (@eq nat _ _) => fail
        | _ => clear H
        end
      end
  end; set_solver.

Lemma elem_of_pa E v x : x ∈ pa E v ↔ (x, v) ∈ E.
Proof. unfold pa. rewrite elem_of_map. setoid_rewrite elem_of_filter. split; [intros ([? ?] & -> & ? & ?); naive_solver|by exists (x, v)]. Qed.

(** Reachability of the ball. *)
Definition reach (E : arcset) (C : nset) (A : nset) (s : node * bool) : Prop :=
  ∃ a, a ∈ A ∧ rtc (bstep E C) (a, true) s.

Lemma reach_step E C A s t : reach E C A s → bstep E C s t → reach E C A t.
Proof. intros (a & Ha & Hr) Hst. exists a. split; [done|]. by eapply rtc_r. Qed.
Lemma reach_start E C A a : a ∈ A → reach E C A (a, true).
Proof. intros Ha. exists a. split; [done|apply rtc_refl]. Qed.
Lemma reach_ind E C A (P : node * bool → Prop) :
  (∀ a, a ∈ A → P (a, true)) → (∀ s t, reach E C A s → P s → bstep E C s t → P t) → ∀ s, reach E C A s → P s.
Proof.
  intros H0 HS s (a & Ha & Hr). apply rtc_flip in Hr. remember (a, true) as z eqn:Hz. revert Hz.
  induction Hr as [s|s t z Hst Hr IH]; intros ->; [by apply H0|]. apply (HS t); [|by apply IH|done].
  exists a. split; [done|]. by apply rtc_flip.
Qed.

Lemma dsepd_mono E A A' B B' C : A' ⊆ A → B' ⊆ B → dsepd E A B C → dsepd E A' B' C.
Proof. intros HA HB H a b l Ha Hb. apply H; set_solver. Qed.

Section laws.
  Context (E : arcset) (Hac : acyclic E).

  Lemma dsepd_reach A B C : A ## C → dsepd E A B C ↔ ∀ x dir, x ∈ B → ¬ reach E C A (x, dir).
  Proof.
    intros HAC. rewrite dsepd_walk by done. split.
    - intros H x dir Hx (a & Ha & Hr). apply ball_walk in Hr as (l & Hl & _); [|done|set_solver]. cbn in Hl.
      apply (H a x (reverse (x :: l)) Ha Hx). destruct Hl as (H1 & H2 & H3 & H4). split; [by rewrite head_reverse|].
      split; [by rewrite last_reverse|]. split; [by apply adjs_reverse|by apply acts_reverse].
    - intros H a x l Ha Hx (H1 & H2 & H3 & H4).
      assert (awalk E C x a (reverse l)) as Hl.
      { split; [by rewrite head_reverse|]. split; [by rewrite last_reverse|]. split; [by apply adjs_reverse|by apply acts_reverse]. }
      destruct (reverse l) as [|y l'] eqn:Hrl; [by destruct Hl|]. assert (y = x) as -> by (destruct Hl; naive_solver).
      apply walk_ball in Hl as (dir & Hr & _); [|done|set_solver]. apply (H x dir Hx). by exists a.
  Qed.

  (** Going down from a node none of whose descendants is conditioned on. *)
  Lemma reach_down C A v z dir : reach E C A (v, dir) → ¬ opened E C v → rtc (edge E) v z → ∃ dir', reach E C A (z, dir').
  Proof.
    intros Hr Hn Hvz. revert dir Hr. induction Hvz as [v|v w z Hvw _ IH]; intros dir Hr; [by exists dir|].
    refine (IH _ false _).
    - intros (c & Hc & Hwc). apply Hn. exists c. split; [done|]. by eapply rtc_l.
    - eapply reach_step; [exact Hr|]. unfold bstep. split; [done|]. intros HvC. apply Hn. exists v. split; [done|apply rtc_refl].
  Qed.
  (** Going up from a start node. *)
  Lemma reach_up C A a v : a ∈ A → ¬ opened E C v → rtc (edge E) v a → reach E C A (v, true).
  Proof.
    intros Ha Hn Hva. induction Hva as [v|v w z Hvw Hwz IH]; [by apply reach_start|].
    eapply reach_step; [apply IH; [done|]|].
    - intros (c & Hc & Hwc). apply Hn. exists c. split; [done|]. by eapply rtc_l.
    - unfold bstep. split; [done|]. intros HwC. apply Hn. exists w. split; [done|]. by apply rtc_once.
  Qed.

  Lemma opened_dec C v : opened E C v ∨ ¬ opened E C v.
  Proof.
    destruct (decide (set_Exists (λ c, rtc (edge E) v c) C)) as [H|H].
    - left. destruct H as (c & ? & ?). by exists c.
    - right. intros (c & ? & ?). apply H. by exists c.
  Qed.


  Lemma dsepd_weak A B D C : A ## C → A ## D → dsepd E A (B ∪ D) C → dsepd E A B (C ∪ D).
  Proof.
    intros HAC HAD. rewrite !dsepd_reach by set_solver. intros H.
    assert (∀ s, reach E (C ∪ D) A s → reach E C A s) as Hsub.
    { apply reach_ind; [apply reach_start|]. intros [v dir] [w dir'] _ IH Hst.
      unfold bstep in Hst. destruct dir'.
      - destruct Hst as [Hwv Hst]. destruct dir.
        + eapply reach_step; [done|]. unfold bstep. set_solver.
        + destruct (opened_dec C v) as [Ho|Ho].
          * eapply reach_step; [done|]. done.
          * destruct Hst as (c & Hc & Hvc). destruct (decide (c ∈ C)) as [HcC|HcC]; [destruct Ho; by exists c|].
            destruct (reach_down C A v c false IH Ho Hvc) as [dir' Hr]. exfalso. eapply H; [|exact Hr]. set_solver.
      - eapply reach_step; [done|]. unfold bstep. set_solver. }
    intros x dir Hx Hr%Hsub. eapply H; [|exact Hr]. set_solver.
  Qed.

  Lemma dsepd_contr A B D C : A ## C → A ## B → dsepd E A B C → dsepd E A D (C ∪ B) → dsepd E A (B ∪ D) C.
  Proof.
    intros HAC HAB. rewrite !dsepd_reach by set_solver. intros H1 H2.
    assert (∀ s, reach E C A s → reach E (C ∪ B) A s) as Hsub.
    { apply reach_ind; [apply reach_start|]. intros [v dir] [w dir'] Hr0 IH Hst. eapply reach_step; [done|].
      assert (v ∉ B) as HvB by (intros HvB; by eapply H1). unfold bstep in *.
      destruct dir'; [destruct dir|]; destruct Hst as [Hst1 Hst2]; (split; [done|]); [set_solver| |set_solver].
      destruct Hst2 as (c & Hc & ?). exists c. split; [set_solver|done]. }
    intros x dir [Hx|Hx]%elem_of_union Hr; [by eapply H1|]. apply Hsub in Hr. by eapply H2.
  Qed.

  Lemma dsepd_semigraphoid : semigraphoid (dsepd E).
  Proof.
    split.
    - intros A C a b l _ Hb. set_solver.
    - intros A B C _. apply dsepd_sym.
    - intros A B D C _. apply dsepd_mono; set_solver.
    - intros A B D C (H1 & H2 & H3) _. apply dsepd_weak; [done|]. set_solver.
    - intros A B D C (H1 & H2 & H3) _. apply dsepd_contr; [done|]. set_solver.
  Qed.

  (** *** Local Markov property *)
  Lemma local_markov v B :
    (∀ x, x ∈ B → x ≠ v ∧ x ∉ pa E v ∧ ¬ tc (edge E) v x) → dsepd E {[v]} B (pa E v).
  Proof.
    intros HB. assert (v ∉ pa E v) as Hv. { rewrite elem_of_pa. intros H. apply (Hac v). by apply tc_once. }
    rewrite dsepd_reach by set_solver.
    assert (∀ s, reach E (pa E v) {[v]} s → if s.2 then s.1 = v ∨ s.1 ∈ pa E v else tc (edge E) v s.1) as Hinv.
    { apply reach_ind; [intros a ->%elem_of_singleton; by left|]. intros [x dir] [w dir'] _ IH Hst. cbn in *.
      destruct dir'; [destruct dir|]; destruct Hst as [Hst1 Hst2].
      - destruct IH as [->|]; [|done]. right. by apply elem_of_pa.
      - destruct Hst2 as (c & Hc & Hxc). apply elem_of_pa in Hc. exfalso. apply (Hac v).
        eapply tc_rtc_r; [exact IH|]. eapply rtc_r; [exact Hxc|done].
      - destruct dir.
        + destruct IH as [->|]; [by apply tc_once|done].
        + by eapply tc_r. }
    intros x dir Hx Hr%Hinv. destruct (HB x Hx) as (? & ? & ?). cbn in Hr. destruct dir; naive_solver.
  Qed.

  (** *** Markov blanket *)
  Lemma blanket v B M :
    (∀ x, x ∈ M ↔ x ≠ v ∧ (adjacent E x v ∨ ∃ c, (v, c) ∈ E ∧ (x, c) ∈ E)) →
    (∀ x, x ∈ B → x ≠ v ∧ x ∉ M) → dsepd E {[v]} B M.
  Proof.
    intros HM HB. assert (v ∉ M) as Hv by (rewrite HM; naive_solver).
    rewrite dsepd_reach by set_solver.
    assert (∀ s, reach E M {[v]} s → if s.2 then s.1 = v ∨ s.1 ∈ M else (v, s.1) ∈ E ∧ s.1 ∈ M) as Hinv.
    { apply reach_ind; [intros a ->%elem_of_singleton; by left|]. intros [x dir] [w dir'] _ IH Hst. cbn in *.
      assert (∀ y, (v, y) ∈ E → y ≠ v) as Hne by (intros y Hy ->; apply (Hac v); by apply tc_once).
      assert (∀ y, (y, v) ∈ E → y ≠ v) as Hne' by (intros y Hy ->; apply (Hac v); by apply tc_once).
      destruct dir'; [destruct dir|]; destruct Hst as [Hst1 Hst2].
      - destruct IH as [->|]; [|done]. right. apply HM. split; [by apply Hne'|]. left. by left.
      - destruct IH as [IH _]. destruct (decide (w = v)); [by left|]. right. apply HM. split; [done|]. right. by exists x.
      - destruct dir.
        + destruct IH as [->|]; [|done]. split; [done|]. apply HM. split; [by apply Hne|]. left. by right.
        + destruct IH as [_ IH]. done. }
    intros x dir Hx Hr%Hinv. destruct (HB x Hx) as (? & ?). cbn in Hr. destruct dir; naive_solver.
  Qed.
End laws.

Lemma dag_of_arcs N E : acyclic E → d_arcs (dag_of N E) = E.
Proof. intros H. pose proof (dag_of_make N E H) as Hm. by apply dag_make_spec in Hm as (_ & _ & ? & _). Qed.
Lemma dag_of_nodes N E : acyclic E → over N E → d_nodes (dag_of N E) = N.
Proof.
  intros H Ho. pose proof (dag_of_make N E H) as Hm. apply dag_make_spec in Hm as (_ & _ & _ & ->).
  apply set_eq. intros x. rewrite !elem_of_union, !elem_of_map. split; [|by auto].
  intros [[?|([a b] & -> & Hab)]|([a b] & -> & Hab)]; [done|by apply Ho in Hab as []..].
Qed.

Lemma exists_topo N E : acyclic E → over N E → ∃ l, topo_order N E l.
Proof.
  intros Hac Ho. pose proof (topological_sort_spec (dag_of N E) oracle0 (dag_of_wf N E)) as H.
  rewrite dag_of_arcs, dag_of_nodes in H by done. destruct (topological_sort (dag_of N E) oracle0) as [l|e]; [by exists l|].
  destruct H as (w & _ & Hw). by apply closes_cycle_not_acyclic in Hw.
Qed.

Lemma dsepd_dec E A B C : acyclic E → A ## C → dsepd E A B C ∨ ¬ dsepd E A B C.
Proof.
  intros Hac HAC. pose proof (dag_of_arcs ∅ E Hac) as HE.
  destruct (dsep_spec (dag_of ∅ E) (dag_of_wf ∅ E) oracle0) with (p := popper0 (X := node * bool)) (A := A) (B := B) (C := C) as (b & _ & Hb).
  { by rewrite HE. } { done. }
  rewrite HE in Hb. destruct b; [left; by apply Hb|right]. intros H%Hb. done.
Qed.

Lemma opened_mono E E' C C' v : E' ⊆ E → C' ⊆ C → opened E' C' v → opened E C v.
Proof. intros H1 H2 (c & Hc & Hr). exists c. split; [by apply H2|]. by eapply rtc_mono. Qed.
Lemma bstep_mono E E' C s t : E' ⊆ E → bstep E' C s t → bstep E C s t.
Proof.
  intros HE. destruct s as [v dir], t as [w dir']. unfold bstep.
  destruct dir'; [destruct dir|]; intros [H1 H2]; (split; [by apply HE|]); [done| |done]. by eapply opened_mono.
Qed.
Lemma reach_mono E E' C A s : E' ⊆ E → reach E' C A s → reach E C A s.
Proof. intros HE. apply reach_ind; [apply reach_start|]. intros s' t _ IH Hst. eapply reach_step; [done|]. by eapply bstep_mono. Qed.
Lemma acyclic_mono E E' : E' ⊆ E → acyclic E → acyclic E'.
Proof.
  intros HE Hac x Hx. apply (Hac x). assert (∀ x y, tc (edge E') x y → tc (edge E) x y) as H; [|by apply H].
  clear -HE. intros x y Hx.
  induction Hx as [x y H|x z y H _ IH]; [apply tc_once; by apply HE|eapply tc_l; [by apply HE|done]].
Qed.
Lemma dsepd_sub E E' A B C : acyclic E → E' ⊆ E → A ## C → dsepd E A B C → dsepd E' A B C.
Proof.
  intros Hac HE HAC. pose proof (acyclic_mono E E' HE Hac) as Hac'. rewrite !dsepd_reach by done.
  intros H x dir Hx Hr. apply (H x dir Hx). by eapply reach_mono.
Qed.

Section semigraphoid.
  Context (I : nset → nset → nset → Prop) (HI : semigraphoid I).
  Lemma sg_sub A B B' C : B' ⊆ B → disjoint3 A B C → I A B C → I A B' C.
  Proof.
    intros HB Hd H. apply (sg_dec I HI A B' (B ∖ B') C).
    - by rewrite <-union_difference_L.
    - by rewrite <-union_difference_L.
  Qed.
  Lemma sg_sub_l A A' B C : A' ⊆ A → disjoint3 A B C → I A B C → I A' B C.
  Proof.
    intros HA Hd H. unfold disjoint3 in *. apply (sg_sym I HI); [unfold disjoint3; set_solver|].
    apply (sg_sub B A A' C); [done|unfold disjoint3; set_solver|]. by apply (sg_sym I HI).
  Qed.
  Lemma sg_weak_sub A B D C : D ⊆ B → disjoint3 A B C → I A B C → I A (B ∖ D) (C ∪ D).
  Proof.
    intros HB Hd H. apply (sg_weak I HI A (B ∖ D) D C).
    - replace (B ∖ D ∪ D) with B; [done|]. rewrite (union_comm_L (B ∖ D)). by apply union_difference_L.
    - set_solver.
    - replace (B ∖ D ∪ D) with B; [done|]. rewrite (union_comm_L (B ∖ D)). by apply union_difference_L.
  Qed.
End semigraphoid.

Section sink.
  Context (E : arcset) (Hac : acyclic E) (n : node) (Hsink : ∀ x, (n, x) ∉ E).

  Lemma sink_opened C : n ∉ C → ¬ opened E C n.
  Proof.
    intros Hn (c & Hc & Hr). apply rtc_inv in Hr as [->|(y & Hy & _)]; [done|]. by apply Hsink in Hy.
  Qed.

  (** Conditioning on a sink opens, never closes. *)
  Lemma sink_cond A C s : n ∉ A → n ∉ C → reach E C A s → reach E (C ∪ {[n]}) A s.
  Proof.
    intros HnA HnC Hr. assert (reach E (C ∪ {[n]}) A s ∧ s ≠ (n, true)) as [? _]; [|done].
    revert s Hr. apply reach_ind.
    - intros a Ha. split; [by apply reach_start|]. intros [= ->]. done.
    - intros [v dir] [w dir'] _ [IH Hne] Hst.
      destruct (decide (v = n)) as [->|Hvn].
      { exfalso. unfold bstep in Hst. destruct dir'; [|destruct Hst as [Hst _]; by apply Hsink in Hst].
        destruct dir; [done|]. destruct Hst as [_ Ho]. by apply sink_opened in Ho. }
      split.
      + eapply reach_step; [done|]. unfold bstep in *.
        destruct dir'; [destruct dir|]; destruct Hst as [H1 H2]; (split; [done|]); [set_solver| |set_solver].
        eapply opened_mono; [done| |done]. set_solver.
      + intros [= -> ->]. unfold bstep in Hst. destruct Hst as [Hst _]. by apply Hsink in Hst.
  Qed.

  Lemma sink_split A B C : n ∉ A → n ∉ B → n ∉ C → disjoint3 A B C → dsepd E A B (C ∪ {[n]}) →
    dsepd E A B C ∧ (dsepd E A {[n]} C ∨ dsepd E B {[n]} C).
  Proof.
    intros HnA HnB HnC (HAB & HAC & HBC) Hsep. split.
    { rewrite dsepd_reach in * by set_solver. intros x dir Hx Hr. apply (Hsep x dir Hx). by apply sink_cond. }
    destruct (dsepd_dec E A {[n]} C Hac HAC) as [HA|HA]; [by left|]. right.
    rewrite (dsepd_reach E Hac B) by set_solver. intros x dirb ->%elem_of_singleton Hrb.
    apply HA. rewrite (dsepd_reach E Hac A) by set_solver. intros x dira ->%elem_of_singleton Hra.
    apply sink_cond in Hra; [|done..]. apply sink_cond in Hrb; [|done..].
    destruct Hra as (a & Ha & Hra), Hrb as (b & Hb & Hrb).
    apply ball_walk in Hra as (la & Hla & Hda); [|done|set_solver]. apply ball_walk in Hrb as (lb & Hlb & Hdb); [|done|set_solver].
    cbn [fst snd] in *.
    assert (∀ c l, c ≠ n → awalk E (C ∪ {[n]}) n c (n :: l) → ∃ u l', l = u :: l' ∧ (u, n) ∈ E) as Hstep.
    { intros c l Hc (H1 & H2 & H3 & H4). destruct l as [|u l]; [cbn in H2; congruence|]. exists u, l. split; [done|].
      rewrite adjs_cons in H3. destruct H3 as [[H3|H3] _]; [by apply Hsink in H3|done]. }
    destruct (Hstep a la) as (ua & la' & -> & Hua); [set_solver|done|].
    destruct (Hstep b lb) as (ub & lb' & -> & Hub); [set_solver|done|].
    destruct Hla as (_ & Ha2 & Ha3 & Ha4), Hlb as (_ & Hb2 & Hb3 & Hb4).
    rewrite dsepd_walk in Hsep by done.
    apply (Hsep a b (reverse (n :: ua :: la') ++ (ub :: lb')) Ha Hb). split; [|split; [|split]].
    - assert (head (reverse (n :: ua :: la')) = Some a) as Hh by by rewrite head_reverse.
      destruct (reverse (n :: ua :: la')); [done|]. exact Hh.
    - rewrite last_app. rewrite last_cons_cons in Hb2. by rewrite Hb2.
    - rewrite reverse_cons, <-app_assoc. cbn [app]. apply adjs_app. split; [|done].
      rewrite <-reverse_cons. by apply adjs_reverse.
    - rewrite !reverse_cons, <-!app_assoc. cbn [app]. apply acts_app. split.
      + replace (reverse la' ++ [ua; n]) with (reverse (n :: ua :: la')); [by apply acts_reverse|].
        by rewrite !reverse_cons, <-app_assoc.
      + rewrite acts_cons. split; [|done]. split.
        * intros _. exists n. split; [set_solver|apply rtc_refl].
        * intros Hn. exfalso. by apply Hn.
  Qed.
End sink.

Section ordered.
  Context (I : nset → nset → nset → Prop) (HI : semigraphoid I).

  (** One step: adding a last node [n] to a graph whose separations hold. *)
  Lemma global_step N E n :
    acyclic E → over (N ∪ {[n]}) E → n ∉ N → (∀ x, (n, x) ∉ E) →
    I {[n]} (N ∖ pa E n) (pa E n) →
    (∀ A B C, A ⊆ N → B ⊆ N → C ⊆ N → disjoint3 A B C → dsepd (filter (λ a, a.1 ≠ n ∧ a.2 ≠ n) E) A B C → I A B C) →
    ∀ A B C, A ⊆ N → B ⊆ N → C ⊆ N → disjoint3 A B C → dsepd E A ({[n]} ∪ B) C → I A ({[n]} ∪ B) C.
  Proof.
    intros Hac Ho HnN Hsink Hloc IH A B C HA HB HC (HAB & HAC & HBC) Hsep.
    set (P := pa E n) in *. set (P1 := P ∖ (C ∪ B)).
    assert (P ⊆ N) as HPN.
    { intros x Hx. apply elem_of_pa in Hx. destruct (Ho x n Hx) as [Hx' _]. assert (x ≠ n) by (intros ->; by apply Hsink in Hx). fsolve. }
    assert (n ∉ A ∧ n ∉ B ∧ n ∉ C) as (HnA & HnB & HnC) by fsolve.
    rewrite (dsepd_reach E Hac) in Hsep by done.
    assert (∀ p dir, p ∈ P → p ∉ C → ¬ reach E C A (p, dir)) as HPr.
    { intros p dir Hp HpC Hr. apply (Hsep n false); [fsolve|]. eapply reach_step; [exact Hr|].
      unfold bstep. split; [by apply elem_of_pa|done]. }
    assert (A ## P) as HAP.
    { intros x Hx Hp. apply (HPr x true Hp); [fsolve|]. by apply reach_start. }
    assert (I A (B ∪ P1) C) as H1.
    { apply IH; [done|unfold P1; fsolve|done|unfold disjoint3, P1; fsolve|].
      apply (dsepd_sub E); [done|fsolve|done|]. rewrite dsepd_reach by done. intros x dir Hx Hr.
      unfold P1 in Hx. apply elem_of_union in Hx as [Hx|Hx]; [apply (Hsep x dir); [fsolve|done]|].
      apply (HPr x dir); [fsolve..|done]. }
    set (Z := B ∪ P1 ∪ C).
    assert (P ⊆ Z) as HPZ. { unfold Z, P1. intros x Hx. destruct (decide (x ∈ C)), (decide (x ∈ B)); fsolve. }
    assert (Z ⊆ N) as HZN by (unfold Z, P1; fsolve).
    assert (A ## Z) as HAZ by (unfold Z, P1; fsolve).
    assert (I {[n]} A Z) as H2.
    { assert (I {[n]} (A ∪ (Z ∖ P)) P) as H2.
      { eapply (sg_sub I HI); [| |exact Hloc]; [clear -HA HZN HAP; fsolve|]. unfold disjoint3. clear -HPN HnN. fsolve. }
      apply (sg_weak I HI) in H2; [| |clear -HAZ; fsolve].
      - replace (P ∪ Z ∖ P) with Z in H2; [done|]. by apply union_difference_L.
      - unfold disjoint3. clear -HA HZN HPN HnN HAP. fsolve. }
    apply (sg_sym I HI) in H2; [|unfold disjoint3; clear -HA HZN HnN HAZ; fsolve].
    apply (sg_sub I HI A (B ∪ P1 ∪ {[n]})).
    - clear. fsolve.
    - unfold disjoint3. unfold Z in *. clear -HAZ HBC HC HnN HnA HnC. unfold P1 in *. fsolve.
    - apply (sg_contr I HI).
      + unfold disjoint3. unfold Z in *. clear -HAZ HBC HC HnN HnA HnC. unfold P1 in *. fsolve.
      + unfold P1. clear -HB HPN HnN. fsolve.
      + done.
      + replace (C ∪ (B ∪ P1)) with Z; [done|]. unfold Z. clear. fsolve.
  Qed.

  Theorem ordered_global l : ∀ N E, topo_order N E l → over N E →
    (∀ l1 v l2, l = l1 ++ v :: l2 → I {[v]} (list_to_set l1 ∖ pa E v) (pa E v)) →
    ∀ A B C, A ⊆ N → B ⊆ N → C ⊆ N → disjoint3 A B C → dsepd E A B C → I A B C.
  Proof.
    induction l as [|n l IH] using rev_ind; intros N E Htopo Ho Hloc A B C HA HB HC Hd Hsep.
    { destruct Htopo as (_ & HN & _). assert (B = ∅) as ->; [|by apply (sg_triv I HI)].
      apply elem_of_equiv_empty_L. intros x Hx%HB%HN. by apply elem_of_nil in Hx. }
    pose proof (topo_order_acyclic N E _ Ho Htopo) as Hac.
    destruct Htopo as (Hnd & HN & Hord). apply NoDup_app in Hnd as (Hnd & Hnl & _).
    assert (n ∉ l) as Hnl' by (intros H; apply (Hnl n H); fsolve).
    set (N' := list_to_set l : nset). assert (N = N' ∪ {[n]}) as HNN.
    { apply set_eq. intros x. rewrite <-HN. unfold N'. fsolve. }
    assert (n ∉ N') as HnN by (unfold N'; by rewrite elem_of_list_to_set).
    assert (∀ x, (n, x) ∉ E) as Hsink.
    { intros x Hx. destruct (Ho n x Hx) as [_ HxN]. apply HN in HxN. apply elem_of_list_lookup in HxN as [j Hj].
      pose proof (Hord (length l) j n x Hx) as Hlt. rewrite list_lookup_middle in Hlt by done.
      specialize (Hlt eq_refl Hj). apply lookup_lt_Some in Hj. rewrite app_length in Hj. cbn in Hj. lia. }
    set (E' := filter (λ a : arc, a.1 ≠ n ∧ a.2 ≠ n) E).
    assert (∀ v, v ≠ n → pa E' v = pa E v) as Hpa.
    { intros v Hv. apply set_eq. intros x. rewrite !elem_of_pa. unfold E'. rewrite elem_of_filter. cbn.
      split; [naive_solver|]. intros Hx. split; [|done]. split; [|done]. intros ->. by apply Hsink in Hx. }
    assert (∀ A B C, A ⊆ N' → B ⊆ N' → C ⊆ N' → disjoint3 A B C → dsepd E' A B C → I A B C) as IH'.
    { apply IH.
      - split; [done|]. split; [unfold N'; fsolve|]. intros i j x y Hxy Hi Hj. unfold E' in Hxy. apply elem_of_filter in Hxy as [_ Hxy].
        apply (Hord i j x y Hxy); apply lookup_app_l_Some; done.
      - intros x y Hxy. unfold E' in Hxy. apply elem_of_filter in Hxy as [[H1 H2] Hxy]. cbn in *. apply Ho in Hxy. rewrite HNN in Hxy. fsolve.
      - intros l1 v l2 ->. rewrite Hpa by (intros ->; fsolve). apply (Hloc l1 v (l2 ++ [n])). by rewrite <-app_assoc. }
    assert (∀ A B C, A ⊆ N' → B ⊆ N' → C ⊆ N' → disjoint3 A B C → dsepd E A ({[n]} ∪ B) C → I A ({[n]} ∪ B) C) as Hstep.
    { apply global_step; [done|by rewrite <-HNN|done|done| |done]. apply (Hloc l n []). done. }
    destruct Hd as (HAB & HAC & HBC).
    destruct (decide (n ∈ B)) as [HnB|HnB].
    { replace B with ({[n]} ∪ (B ∖ {[n]})) in * by (symmetry; apply union_difference_L; fsolve).
      apply Hstep; [fsolve..| |done]. fsolve. }
    destruct (decide (n ∈ A)) as [HnA|HnA].
    { apply (sg_sym I HI); [fsolve|]. apply dsepd_sym in Hsep.
      replace A with ({[n]} ∪ (A ∖ {[n]})) in * by (symmetry; apply union_difference_L; fsolve).
      apply Hstep; [fsolve..| |done]. fsolve. }
    destruct (decide (n ∈ C)) as [HnC|HnC].
    - replace C with ((C ∖ {[n]}) ∪ {[n]}) in * by (rewrite (union_comm_L (C ∖ {[n]})); symmetry; apply union_difference_L; fsolve).
      set (C' := C ∖ {[n]}) in *. assert (n ∉ C') as HnC' by (unfold C'; fsolve).
      assert (disjoint3 A B C') as Hd' by (fsolve).
      destruct (sink_split E Hac n Hsink A B C' HnA HnB HnC' Hd' Hsep) as [H1 [H2|H2]].
      + assert (I A ({[n]} ∪ B) C') as H3.
        { apply Hstep; [fsolve..|done|]. intros a b p Ha [Hb|Hb]%elem_of_union; [by apply H2|by apply H1]. }
        apply (sg_weak I HI A B {[n]} C'); [fsolve|fsolve|]. by rewrite (union_comm_L B).
      + assert (I B ({[n]} ∪ A) C') as H3.
        { apply Hstep; [fsolve..|fsolve|]. apply dsepd_sym in H1.
          intros a b p Ha [Hb|Hb]%elem_of_union; [by apply H2|by apply H1]. }
        apply (sg_sym I HI); [fsolve|].
        apply (sg_weak I HI B A {[n]} C'); [fsolve|fsolve|]. by rewrite (union_comm_L A).
    - apply IH'; [fsolve..|done|]. apply (dsepd_sub E); [done|unfold E'; fsolve|done|done].
  Qed.
End ordered.
