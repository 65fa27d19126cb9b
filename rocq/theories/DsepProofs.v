(** Correctness of the separation queries. *)
From Verif Require Import Py Spec SpecDsep DagModel DsepModel TopoProofs StateProofs ReachProofs OrderProofs QueryProofs WalkProofs.

Section worklist.
  Context {X : Type} `{Countable X} (p : popper X) (stop : X → bool) (next : X → gset X).
  Context (U : gset X) (HU : ∀ x, x ∈ U → next x ⊆ U).
  Let R : relation X := λ x y, y ∈ next x.

  Lemma worklist_spec fuel sched visited :
    sched ⊆ U → size (U ∖ visited) * (size U + 1) + size sched < fuel →
    (∀ x, x ∈ visited → stop x = false ∧ next x ⊆ visited ∪ sched) →
    ∃ b, worklist p stop next fuel sched visited = Ok b ∧
      (b = false → ∃ s x, s ∈ sched ∧ rtc R s x ∧ stop x = true) ∧
      (b = true → ∃ V, visited ∪ sched ⊆ V ∧ ∀ x, x ∈ V → stop x = false ∧ next x ⊆ V).
  Proof.
    revert sched visited. induction fuel as [|fuel IH]; intros sched visited HsU Hf Hinv; [lia|]. cbn [worklist].
    destruct (decide (sched = ∅)) as [->|Hne].
    { exists true. split; [destruct (pop p fuel ∅); done|]. split; [done|]. intros _. exists visited.
      split; [set_solver|]. intros x Hx. destruct (Hinv x Hx) as [? ?]. split; [done|]. set_solver. }
    destruct (pop_some p fuel sched Hne) as (x & -> & Hx).
    destruct (stop x) eqn:Hst.
    { exists false. split; [done|]. split; [|done]. intros _. exists x, x. split; [done|]. split; [apply rtc_refl|done]. }
    assert (size (sched ∖ {[x]}) < size sched) as Hlt.
    { apply subset_size. clear -Hx. set_solver. }
    destruct (decide (x ∈ visited)) as [Hv|Hv].
    - destruct (IH (sched ∖ {[x]}) visited) as (b & -> & Hb1 & Hb2).
      { clear -HsU. set_solver. } { lia. }
      { intros y Hy. destruct (Hinv y Hy) as [? Hn]. split; [done|]. intros z Hz.
        destruct (decide (z = x)) as [->|]; [clear -Hv; set_solver|]. apply Hn in Hz. clear -Hz n. set_solver. }
      exists b. split; [done|]. split.
      + intros Hb. destruct (Hb1 Hb) as (s & y & Hs & ?). exists s, y. split; [clear -Hs; set_solver|done].
      + intros Hb. destruct (Hb2 Hb) as (V & HV & ?). exists V. split; [|done].
        intros z Hz. destruct (decide (z = x)) as [->|]; [apply HV; clear -Hv; set_solver|].
        apply HV. clear -Hz n. set_solver.
    - destruct (IH (sched ∖ {[x]} ∪ next x) ({[x]} ∪ visited)) as (b & -> & Hb1 & Hb2).
      { intros z [Hz|Hz]%elem_of_union; [apply HsU; clear -Hz; set_solver|]. by apply (HU x); [apply HsU|]. }
      { assert (size (U ∖ ({[x]} ∪ visited)) < size (U ∖ visited)) as H1.
        { apply subset_size. pose proof (HsU x Hx) as HxU. clear -Hv HxU. set_solver. }
        assert (size (sched ∖ {[x]} ∪ next x) ≤ size U) as H2.
        { apply subseteq_size. pose proof (HU x (HsU x Hx)) as HnU. clear -HnU HsU. set_solver. }
        nia. }
      { intros y Hy. destruct (decide (y = x)) as [->|].
        - split; [done|]. clear. set_solver.
        - destruct (Hinv y) as [? Hn]; [clear -Hy n; set_solver|]. split; [done|]. intros z Hz%Hn. 
          destruct (decide (z = x)); set_solver. }
      exists b. split; [done|]. split.
      + intros Hb. destruct (Hb1 Hb) as (s & y & Hs & Hr & ?).
        apply elem_of_union in Hs as [Hs|Hs].
        * exists s, y. split; [clear -Hs; set_solver|done].
        * exists x, y. split; [done|]. split; [|done]. by eapply rtc_l.
      + intros Hb. destruct (Hb2 Hb) as (V & HV & ?). exists V. split; [|done].
        intros z Hz. apply HV. destruct (decide (z = x)); set_solver.
  Qed.

  Lemma worklist_start fuel sched :
    sched ⊆ U → size U * (size U + 1) + size U < fuel →
    ∃ b, worklist p stop next fuel sched ∅ = Ok b ∧
      (b = true ↔ ∀ s x, s ∈ sched → rtc R s x → stop x = false).
  Proof.
    intros HsU Hf. destruct (worklist_spec fuel sched ∅ HsU) as (b & -> & H1 & H2).
    { rewrite difference_empty_L. pose proof (subseteq_size _ _ HsU). lia. } { set_solver. }
    exists b. split; [done|]. split.
    - intros Hb. destruct (H2 Hb) as (V & HV & HVc). intros s x Hs Hr.
      apply (HVc x). assert (s ∈ V) as HsV by (apply HV; set_solver). clear -Hr HVc HsV.
      induction Hr as [s|s t x Hst _ IH]; [done|]. apply IH. by apply (HVc s).
    - intros Hall. destruct b; [done|]. destruct (H1 eq_refl) as (s & x & Hs & Hr & Hx). by rewrite (Hall s x) in Hx.
  Qed.
End worklist.

(** The moves of the ball on an arc set. *)
Definition bstep (E : arcset) (C : nset) (s t : node * bool) : Prop :=
  let '(v, dir) := s in let '(w, dir') := t in
  if dir' then (w, v) ∈ E ∧ (if dir then v ∉ C else opened E C v)
  else (v, w) ∈ E ∧ v ∉ C.

(** The walk (latest node first) ends with an arc in the direction [dir]. *)
Definition dirok (E : arcset) (l : list node) (dir : bool) : Prop :=
  match l with
  | v :: u :: _ => if dir then (v, u) ∈ E else (u, v) ∈ E
  | _ => dir = true
  end.

Section ball.
  Context (E : arcset) (C : nset) (Hac : acyclic E).

  Lemma no_two a b : (a, b) ∈ E → (b, a) ∈ E → False.
  Proof. intros H1 H2. apply (Hac a). apply tc_l with b; [done|]. by apply tc_once. Qed.

  Lemma ball_walk a s : a ∉ C → rtc (bstep E C) (a, true) s → ∃ l, awalk E C s.1 a (s.1 :: l) ∧ dirok E (s.1 :: l) s.2.
  Proof.
    intros HaC Hr. apply rtc_flip in Hr. remember (a, true) as t eqn:Ht. revert Ht.
    induction Hr as [s|[w dir'] [v dir] t Hst _ IH]; intros ->.
    { exists []. done. }
    destruct (IH eq_refl) as (l & (H1 & H2 & H3 & H4) & H5). cbn [fst snd] in *. exists (v :: l). unfold bstep in Hst. split.
    - split; [done|]. split; [by rewrite last_cons_cons|]. split.
      + rewrite adjs_cons. split; [|done]. unfold adjacent. destruct dir'; naive_solver.
      + destruct l as [|u l]; [done|]. rewrite acts_cons. split; [|done]. unfold dirok in H5.
        unfold active_at, collider. destruct dir', dir; destruct Hst as [Hst1 Hst2].
        * split; [|done]. intros [_ ?]. exfalso. by eapply no_two.
        * split; [done|]. naive_solver.
        * split; [|done]. intros [? _]. exfalso. by eapply (no_two w v).
        * split; [|done]. intros [? _]. exfalso. by eapply (no_two w v).
    - unfold dirok. destruct dir'; naive_solver.
  Qed.

  Lemma walk_ball a v l : a ∉ C → awalk E C v a (v :: l) → ∃ dir, rtc (bstep E C) (a, true) (v, dir) ∧ dirok E (v :: l) dir.
  Proof.
    intros HaC. revert v. induction l as [|u l IH]; intros v (H1 & H2 & H3 & H4).
    { cbn in H2. injection H2 as ->. exists true. split; [apply rtc_refl|done]. }
    rewrite adjs_cons in H3. destruct H3 as [Hvu H3]. rewrite last_cons_cons in H2.
    destruct (IH u) as (dir & Hr & Hd).
    { split; [done|]. split; [done|]. split; [done|]. by apply (acts_app1_r E C [v]). }
    destruct Hvu as [Hvu|Huv].
    - exists true. split; [|done]. eapply rtc_r; [exact Hr|]. unfold bstep. split; [done|].
      destruct l as [|t l].
      + cbn in H2. injection H2 as ->. unfold dirok in Hd. by subst dir.
      + rewrite acts_cons in H4. destruct H4 as [[Hc Hn] _]. unfold dirok in Hd. destruct dir.
        * apply Hn. intros [_ ?]. by eapply no_two.
        * apply Hc. done.
    - exists false. split; [|done]. eapply rtc_r; [exact Hr|]. unfold bstep. split; [done|].
      destruct l as [|t l].
      + cbn in H2. injection H2 as ->. done.
      + rewrite acts_cons in H4. destruct H4 as [[Hc Hn] _]. apply Hn. intros [? _]. by eapply (no_two u v).
  Qed.
End ball.

Lemma size_with_dir b (S : nset) : size (with_dir b S) = size S.
Proof.
  unfold with_dir, set_map. rewrite size_list_to_set.
  - by rewrite fmap_length.
  - apply NoDup_fmap_2; [by intros x y [=]|apply NoDup_elements].
Qed.
Lemma elem_of_with_dir v dir b (S : nset) : (v, dir) ∈ with_dir b S ↔ v ∈ S ∧ dir = b.
Proof. unfold with_dir. rewrite elem_of_map. naive_solver. Qed.

Section dag.
  Context (d : dag) (Hwf : wf d) (o : oracle).

  Lemma shaded_spec C : ∃ sh, shaded d o C = Ok sh ∧ ∀ x, x ∈ sh ↔ opened (d_arcs d) C x.
  Proof.
    unfold shaded.
    destruct (closure_set (parents d) o (d_nodes d) (parents_sub d Hwf) (closure_fuel d) [20] C) as (sh & -> & Hsh).
    { unfold closure_fuel. lia. }
    exists sh. split; [done|]. intros x. rewrite Hsh. unfold opened. setoid_rewrite (tc_parents d Hwf). split.
    - intros [Hx|(c & Hc & Hx)]; [by exists x|]. exists c. split; [done|]. by apply tc_rtc.
    - intros (c & Hc & Hx). apply rtc_tc in Hx as [->|Hx]; [by left|]. right. by exists c.
  Qed.

  Context (Hac : acyclic (d_arcs d)).

  Lemma ball_next_spec sh C s t : (∀ x, x ∈ sh ↔ opened (d_arcs d) C x) →
    t ∈ ball_next d sh C s ↔ bstep (d_arcs d) C s t.
  Proof.
    intros Hsh. destruct s as [v dir], t as [w dir']. unfold ball_next, bstep.
    assert (∀ w, w ∈ parents d v ↔ (w, v) ∈ d_arcs d) as Hp by (intros; by rewrite (wf_par d Hwf)).
    assert (∀ w, w ∈ children d v ↔ (v, w) ∈ d_arcs d) as Hc by (intros; by rewrite (wf_chi d Hwf)).
    destruct dir; [|rewrite elem_of_union]; repeat case_decide;
      rewrite ?elem_of_union, ?elem_of_with_dir, ?elem_of_empty, ?Hp, ?Hc; rewrite ?Hsh in *; destruct dir'; naive_solver.
  Qed.

  (** The states the ball visits. *)
  Lemma ball_run p stop sh A C : (∀ x, x ∈ sh ↔ opened (d_arcs d) C x) →
    ∃ b, worklist p stop (ball_next d sh C) (ball_fuel d A) (with_dir true A) ∅ = Ok b ∧
      (b = true ↔ ∀ a s, a ∈ A → rtc (bstep (d_arcs d) C) (a, true) s → stop s = false).
  Proof.
    intros Hsh. set (N := d_nodes d ∪ A). set (U := with_dir true N ∪ with_dir false N).
    assert (size U ≤ 2 * size N) as HsU.
    { unfold U. rewrite size_union_alt. rewrite size_with_dir.
      assert (size (with_dir false N ∖ with_dir true N) ≤ size (with_dir false N)) as H by (apply subseteq_size; set_solver).
      rewrite size_with_dir in H. lia. }
    destruct (worklist_start p stop (ball_next d sh C) U) with (fuel := ball_fuel d A) (sched := with_dir true A) as (b & -> & Hb).
    { intros [v dir] _ [w dir'] Hw. apply (ball_next_spec sh C _ _ Hsh) in Hw. unfold U.
      assert (w ∈ N) as HN.
      { unfold N. apply elem_of_union. left. pose proof (wf_over d Hwf) as Ho. unfold bstep in Hw.
        destruct dir'; destruct Hw as [Hw _]; apply Ho in Hw; by destruct Hw. }
      rewrite elem_of_union, !elem_of_with_dir. destruct dir'; naive_solver. }
    { unfold U, N. intros [v dir]. rewrite elem_of_union, !elem_of_with_dir. set_solver. }
    { unfold ball_fuel. fold N. cbn zeta. nia. }
    exists b. split; [done|]. rewrite Hb. 
    assert (∀ s t, rtc (λ x y, y ∈ ball_next d sh C x) s t ↔ rtc (bstep (d_arcs d) C) s t) as Hrtc.
    { intros s t. apply rtc_iff. intros. by apply ball_next_spec. }
    split.
    - intros H a s Ha Hr. apply (H (a, true) s); [by apply elem_of_with_dir|by apply Hrtc].
    - intros H [a dir] s Ha Hr. apply elem_of_with_dir in Ha as [Ha ->]. apply (H a s Ha). by apply Hrtc.
  Qed.

  Lemma dsep_spec p A B C : A ## C → ∃ b, dsep d o p A B C = Ok b ∧ (b = true ↔ dsepd (d_arcs d) A B C).
  Proof.
    intros HAC. unfold dsep. destruct (shaded_spec C) as (sh & -> & Hsh). cbn [res_bind].
    destruct (ball_run p (λ s, bool_decide (s.1 ∈ B)) sh A C Hsh) as (b & -> & Hb).
    exists b. split; [done|]. rewrite Hb. split.
    - intros H a x l Ha Hx Hl%active_path_sym%path_to_walk.
      destruct (reverse l) as [|y l'] eqn:Hrl; [by destruct Hl|]. assert (y = x) as -> by (destruct Hl; naive_solver).
      apply walk_ball in Hl as (dir & Hr & _); [|done|set_solver].
      apply (H a (x, dir) Ha) in Hr. by case_bool_decide.
    - intros H a [x dir] Ha Hr. apply bool_decide_eq_false. cbn. intros Hx.
      apply ball_walk in Hr as (l & Hl & _); [|done|set_solver]. cbn in Hl.
      apply walk_to_path in Hl as [l' Hl]; [|done]. apply (H a x (reverse l')); [done..|]. by apply active_path_sym.
  Qed.

  (** Overlap of [A] and [C]: the ball does not leave a conditioned node. *)
  Lemma dsep_overlap p A B C : A ∩ C ## B → ∃ b, dsep d o p A B C = Ok b ∧ (b = true ↔ dsepd (d_arcs d) (A ∖ C) B C).
  Proof.
    intros HAB. unfold dsep. destruct (shaded_spec C) as (sh & -> & Hsh). cbn [res_bind].
    destruct (ball_run p (λ s, bool_decide (s.1 ∈ B)) sh A C Hsh) as (b & -> & Hb).
    exists b. split; [done|]. rewrite Hb. split.
    - intros H a x l Ha Hx Hl%active_path_sym%path_to_walk.
      destruct (reverse l) as [|y l'] eqn:Hrl; [by destruct Hl|]. assert (y = x) as -> by (destruct Hl; naive_solver).
      apply elem_of_difference in Ha as [Ha HaC].
      apply walk_ball in Hl as (dir & Hr & _); [|done|done].
      apply (H a (x, dir) Ha) in Hr. by case_bool_decide.
    - intros H a [x dir] Ha Hr. apply bool_decide_eq_false. cbn. intros Hx.
      destruct (decide (a ∈ C)) as [HaC|HaC].
      { apply rtc_inv in Hr as [[= <- _]|([w dir'] & Hs & _)]; [clear -HAB HaC Hx Ha; set_solver|].
        unfold bstep in Hs. destruct dir'; naive_solver. }
      apply ball_walk in Hr as (l & Hl & _); [|done|done]. cbn in Hl.
      apply walk_to_path in Hl as [l' Hl]; [|done]. apply (H a x (reverse l')); [set_solver|done|]. by apply active_path_sym.
  Qed.
End dag.

(** ** [is_invariant] *)
Section invariant.
  Context (E : arcset) (F : node) (I : nset) (N : nset) (HE : over N E) (HF : F ∉ N) (HFI : F ∉ I).
  Notation E' := (with_intervention E F I).

  Lemma elem_of_with_intervention x y : (x, y) ∈ E' ↔ (x, y) ∈ E ∨ x = F ∧ y ∈ I.
  Proof. unfold with_intervention. rewrite elem_of_union, elem_of_map. naive_solver. Qed.

  Lemma F_not_into x : (x, F) ∉ E'.
  Proof. rewrite elem_of_with_intervention. intros [H|[_ H]]; [|done]. by apply HE in H as [_ ?]. Qed.
  Lemma F_not_from x : (F, x) ∉ E.
  Proof. intros H. by apply HE in H as [? _]. Qed.

  Lemma rtc_F x y : x ≠ F → rtc (edge E') x y ↔ rtc (edge E) x y.
  Proof.
    intros Hx. split.
    - intros H. revert Hx. induction H as [x|x y z Hxy _ IH]; intros Hx; [done|].
      assert (y ≠ F). { intros ->. by apply F_not_into in Hxy. }
      apply rtc_l with y; [|by apply IH]. apply elem_of_with_intervention in Hxy. naive_solver.
    - apply rtc_mono. unfold with_intervention. set_solver.
  Qed.

  Lemma acyclic_F : acyclic E → acyclic E'.
  Proof.
    intros Hac x Hx. destruct (decide (x = F)) as [->|Hn].
    - apply tc_last in Hx as (y & _ & Hy). by apply F_not_into in Hy.
    - apply (Hac x). 
      inversion Hx as [a b Hab|a b c Hab Hbc]; subst.
      + apply tc_once. apply elem_of_with_intervention in Hab. naive_solver.
      + assert (b ≠ F). { intros ->. by apply F_not_into in Hab. }
        apply tc_rtc_r with b; [|by apply rtc_F; [|apply tc_rtc]].
        apply tc_once. apply elem_of_with_intervention in Hab. naive_solver.
  Qed.

  Lemma adj_F x y : x ≠ F → y ≠ F → adjacent E' x y ↔ adjacent E x y.
  Proof. intros Hx Hy. unfold adjacent. rewrite !elem_of_with_intervention. naive_solver. Qed.
  Lemma active_F C a b c : a ≠ F → b ≠ F → c ≠ F → active_at E' C a b c ↔ active_at E C a b c.
  Proof.
    intros Ha Hb Hc. unfold active_at, collider, opened. rewrite !elem_of_with_intervention. setoid_rewrite (rtc_F b); [|done].
    naive_solver.
  Qed.
  Lemma adjs_F l : F ∉ l → adjs E' l ↔ adjs E l.
  Proof.
    induction l as [|a l IH]; [done|]. intros Hl. destruct l as [|b l]; [done|].
    rewrite !adjs_cons, IH, adj_F; [done|set_solver..].
  Qed.
  Lemma acts_F C l : F ∉ l → acts E' C l ↔ acts E C l.
  Proof.
    induction l as [|a l IH]; [done|]. intros Hl. destruct l as [|b [|c l]]; [done|done|].
    rewrite !acts_cons, IH, active_F; [done|set_solver..].
  Qed.

  (** Active walks of the extended graph from [F] to [a]. *)
  Lemma walk_F (Hac : acyclic E) C a : a ≠ F → a ∉ C → F ∉ C →
    (∃ l, awalk E' C F a l) ↔ ∃ i dir, i ∈ I ∧ rtc (bstep E C) (a, true) (i, dir) ∧ (if dir then i ∉ C else opened E C i).
  Proof.
    intros Ha HaC HFC. split.
    - intros [l Hl]. apply walk_to_path in Hl as [l' Hl]; [|by apply acyclic_F].
      destruct Hl as (Hnd & Hh & Hla & Htr & Hact). apply adjs_trail in Htr. apply acts_active in Hact.
      destruct l' as [|y l']; [done|]. cbn in Hh. injection Hh as ->. apply NoDup_cons in Hnd as [HFl Hnd].
      destruct l' as [|i l']; [cbn in Hla; congruence|]. rewrite last_cons_cons in Hla.
      rewrite adjs_cons in Htr. destruct Htr as [HFi Htr].
      assert (i ∈ I) as Hi.
      { destruct HFi as [H|H]; [|by apply F_not_into in H]. apply elem_of_with_intervention in H as [H|H]; [by apply F_not_from in H|naive_solver]. }
      assert (awalk E C i a (i :: l')) as Hw.
      { split; [done|]. split; [done|]. split; [by apply adjs_F|]. apply acts_F; [done|]. by apply (acts_app1_r E' C [F]). }
      apply walk_ball in Hw as (dir & Hr & Hd); [|done|done]. exists i, dir. split; [done|]. split; [done|].
      destruct l' as [|u l'].
      + unfold dirok in Hd. subst dir. cbn in Hla. congruence.
      + rewrite acts_cons in Hact. destruct Hact as [[Hc Hn] _].
        assert (F ≠ u ∧ F ≠ i) as [??] by set_solver.
        assert (∀ x y, x ≠ F → (x, y) ∈ E' → (x, y) ∈ E) as Hsub by (intros ???; rewrite elem_of_with_intervention; naive_solver).
        unfold dirok in Hd. destruct dir.
        * apply Hn. intros [_ Hc']. apply Hsub in Hc'; [|done]. by eapply no_two.
        * destruct Hc as (c & Hc1 & Hc2).
          { split; apply elem_of_with_intervention; [right; done|by left]. }
          exists c. split; [done|]. by apply rtc_F in Hc2.
    - intros (i & dir & Hi & Hr & Hc). apply ball_walk in Hr as (l & Hl & Hd); [|done|done]. cbn [fst snd] in *.
      assert (i ≠ F) as HiF by congruence.
      apply walk_ball in Hl as HH; [|done|done].
      assert (∀ l x, awalk E C x a (x :: l) → x ≠ F → F ∉ x :: l) as HFl.
      { clear -Ha HE HF. intros l. induction l as [|u l IH]; intros x (H1 & H2 & H3 & H4) Hx; [set_solver|].
        rewrite adjs_cons in H3. destruct H3 as [H3 H3'].
        assert (u ≠ F). { intros ->. unfold adjacent in H3. destruct H3 as [H|H]; apply HE in H; naive_solver. }
        assert (F ∉ u :: l); [|set_solver]. apply IH; [|done]. split; [done|]. split; [by rewrite last_cons_cons in H2|].
        split; [done|]. by apply (acts_app1_r E C [x]). }
      specialize (HFl l i Hl HiF). exists (F :: i :: l). destruct Hl as (H1 & H2 & H3 & H4).
      split; [done|]. split; [by rewrite last_cons_cons|]. split.
      { rewrite adjs_cons. split; [|by apply adjs_F]. left. apply elem_of_with_intervention. by right. }
      destruct l as [|u l]; [done|]. rewrite acts_cons. split; [|by apply acts_F].
      unfold dirok in Hd. destruct dir.
      + split; [|done]. intros [_ Hu]. exfalso. apply elem_of_with_intervention in Hu as [Hu|[-> _]]; [by eapply no_two|set_solver].
      + split.
        * intros _. destruct Hc as (c & ? & ?). exists c. split; [done|]. by apply rtc_F.
        * intros Hn. exfalso. apply Hn. split; apply elem_of_with_intervention; [by right|by left].
  Qed.
End invariant.

Lemma is_invariant_spec d (Hwf : wf d) (Hac : acyclic (d_arcs d)) o p F A I C :
  F ∉ d_nodes d → F ∉ A → F ∉ I → F ∉ C → A ## C →
  ∃ b, is_invariant d o p A I C = Ok b ∧ (b = true ↔ dsepd (with_intervention (d_arcs d) F I) A {[F]} C).
Proof.
  intros HF HFA HFI HFC HAC. unfold is_invariant. destruct (shaded_spec d Hwf o C) as (sh & -> & Hsh). cbn [res_bind].
  match goal with |- context [worklist p ?f] => destruct (ball_run d Hwf Hac p f sh A C Hsh) as (b & -> & Hb) end.
  exists b. split; [done|]. rewrite Hb. clear Hb.
  rewrite dsepd_walk by (by apply (acyclic_F _ F I _ (wf_over d Hwf))).
  pose proof (walk_F (d_arcs d) F I (d_nodes d) (wf_over d Hwf) HF HFI Hac C) as HW. split.
  - intros H a x l Ha ->%elem_of_singleton Hl.
    destruct (HW a) as [HW1 _]; [set_solver..|]. destruct HW1 as (i & dir & Hi & Hr & Hc).
    { exists (reverse l). destruct Hl as (H1 & H2 & H3 & H4). split; [by rewrite head_reverse|]. split; [by rewrite last_reverse|].
      split; [by apply adjs_reverse|by apply acts_reverse]. }
    apply (H a _ Ha) in Hr. cbn in Hr. apply andb_false_iff in Hr as [Hr|Hr]; [by rewrite bool_decide_eq_false in Hr|].
    destruct dir; rewrite bool_decide_eq_false in Hr; [done|]. by rewrite Hsh in Hr.
  - intros H a [i dir] Ha Hr. cbn. apply not_true_iff_false. intros [Hi Hc]%andb_true_iff. rewrite bool_decide_eq_true in Hi.
    destruct (HW a) as [_ HW1]; [set_solver..|]. destruct HW1 as [l Hl].
    { exists i, dir. split; [done|]. split; [done|]. destruct dir; rewrite bool_decide_eq_true in Hc; [done|]. by apply Hsh. }
    apply (H a F (reverse l) Ha); [set_solver|]. destruct Hl as (H1 & H2 & H3 & H4). split; [by rewrite head_reverse|]. split; [by rewrite last_reverse|].
      split; [by apply adjs_reverse|by apply acts_reverse].
Qed.

(** ** [dsep_from_given] *)
Definition lstep (E : arcset) (C : nset) (s t : link) : Prop :=
  let '(u, v) := s in let '(u', w) := t in
  u' = Some v ∧ adjacent E v w ∧ u ≠ Some w ∧
  match u with Some u0 => active_at E C u0 v w | None => v ∉ C end.

Section links.
  Context (E : arcset) (C : nset) (Hac : acyclic E).

  Lemma link_walk a u v : a ∉ C → rtc (lstep E C) (None, a) (u, v) →
    ∃ l, awalk E C v a (v :: l) ∧ head l = u.
  Proof.
    intros HaC Hr. apply rtc_flip in Hr. remember (None, a) as t eqn:Ht. remember (u, v) as s eqn:Hs. revert u v Ht Hs.
    induction Hr as [s|[u' w] [u v] t Hst _ IH]; intros u1 v1 -> Hs.
    - simplify_eq. by exists [].
    - injection Hs as <- <-. destruct (IH u v eq_refl eq_refl) as (l & (H1 & H2 & H3 & H4) & Hh).
      unfold lstep in Hst. destruct Hst as (-> & Hadj & _ & Hact). exists (v :: l). split; [|done].
      split; [done|]. split; [by rewrite last_cons_cons|]. split; [rewrite adjs_cons; split; [by apply adjacent_sym|done]|].
      destruct l as [|x l]; [done|]. cbn in Hh. subst u. rewrite acts_cons. split; [by apply active_at_sym|done].
  Qed.

  Lemma path_link a v l : a ∉ C → NoDup (v :: l) → awalk E C v a (v :: l) → rtc (lstep E C) (None, a) (head l, v).
  Proof.
    intros HaC. revert v. induction l as [|u l IH]; intros v Hnd (H1 & H2 & H3 & H4).
    { cbn in H2. injection H2 as ->. apply rtc_refl. }
    rewrite adjs_cons in H3. destruct H3 as [Hvu H3]. rewrite last_cons_cons in H2. apply NoDup_cons in Hnd as [Hv Hnd].
    eapply rtc_r.
    - apply (IH u); [done|]. split; [done|]. split; [done|]. split; [done|]. by apply (acts_app1_r E C [v]).
    - unfold lstep. split; [done|]. split; [by apply adjacent_sym|]. destruct l as [|t l]; cbn [head].
      + split; [done|]. cbn in H2. congruence.
      + split; [|rewrite acts_cons in H4; apply active_at_sym, H4].
        intros [= ->]. set_solver.
  Qed.
End links.

Lemma elem_of_fold_union {A B} `{Countable A, Countable B} (f : A → gset B) (S : gset A) y :
  y ∈ set_fold (λ x acc, f x ∪ acc) ∅ S ↔ ∃ x, x ∈ S ∧ y ∈ f x.
Proof.
  apply (set_fold_ind_L (λ acc S, y ∈ acc ↔ ∃ x, x ∈ S ∧ y ∈ f x)).
  - set_solver.
  - intros x S' acc Hx IH. rewrite elem_of_union, IH. set_solver.
Qed.

Lemma size_list_to_set_le {A} `{Countable A} (l : list A) : size (list_to_set l : gset A) ≤ length l.
Proof.
  induction l as [|x l IH]; [by rewrite list_to_set_nil, size_empty|]. cbn.
  rewrite size_union_alt, size_singleton. 
  assert (size ((list_to_set l : gset A) ∖ {[x]}) ≤ size (list_to_set l : gset A)) by (apply subseteq_size; set_solver). lia.
Qed.

Section from_given.
  Context (d : dag) (Hwf : wf d) (Hac : acyclic (d_arcs d)) (o : oracle).

  Lemma legal_next_spec desc C s t : (∀ x, x ∈ desc ↔ opened (d_arcs d) C x) →
    t ∈ legal_next d desc C s ↔ lstep (d_arcs d) C s t.
  Proof.
    intros Hd. destruct s as [u v], t as [u' w]. unfold legal_next, lstep. rewrite elem_of_map.
    setoid_rewrite elem_of_filter.
    assert (∀ w, w ∈ nbrs d v ↔ adjacent (d_arcs d) v w) as Hn by (intros; by rewrite (wf_nbr d Hwf)).
    assert (∀ w, v ∈ children d w ↔ (w, v) ∈ d_arcs d) as Hc by (intros; by rewrite (wf_chi d Hwf)).
    assert (∀ w, (if is_child d v u && bool_decide (v ∈ children d w) then bool_decide (v ∈ desc) else bool_decide (v ∉ C)) = true ↔
      match u with Some u0 => active_at (d_arcs d) C u0 v w | None => v ∉ C end) as Hif.
    { intros z. destruct u as [u|]; cbn [is_child andb].
      - unfold active_at, collider. rewrite <-!Hc, <-Hd.
        destruct (decide (v ∈ children d u)); [rewrite (bool_decide_true (v ∈ children d u)) by done|rewrite (bool_decide_false (v ∈ children d u)) by done];
        [|cbn [andb]; rewrite bool_decide_eq_true; naive_solver].
        destruct (decide (v ∈ children d z)); [rewrite (bool_decide_true (v ∈ children d z)) by done|rewrite (bool_decide_false (v ∈ children d z)) by done];
        cbn [andb]; rewrite bool_decide_eq_true; naive_solver.
      - by rewrite bool_decide_eq_true. }
    setoid_rewrite Hif. setoid_rewrite Hn. naive_solver.
  Qed.

  Lemma round_spec desc C labeled ilinks t : (∀ x, x ∈ desc ↔ opened (d_arcs d) C x) →
    t ∈ round d desc C labeled ilinks ↔ (∃ s, s ∈ ilinks ∧ lstep (d_arcs d) C s t) ∧ t ∉ labeled.
  Proof.
    intros Hd. unfold round. rewrite elem_of_difference, elem_of_fold_union. setoid_rewrite legal_next_spec; done.
  Qed.

  Lemma link_loop_spec (desc C : nset) (U init : gset link) : (∀ x, x ∈ desc ↔ opened (d_arcs d) C x) →
    (∀ s t, lstep (d_arcs d) C s t → s ∈ U → t ∈ U) →
    ∀ fuel labeled ilinks reach keys,
    labeled ∪ ilinks ⊆ U → 
    2 * size (U ∖ labeled) + (if decide (ilinks ⊆ labeled) then 1 else 0) < fuel →
    (∀ t, t ∈ labeled ∪ ilinks → ∃ s, s ∈ init ∧ rtc (lstep (d_arcs d) C) s t) →
    (∀ s t, s ∈ labeled → lstep (d_arcs d) C s t → t ∈ labeled ∪ ilinks) →
    init ⊆ labeled ∪ ilinks →
    (∀ v, v ∈ reach ↔ ∃ u, (u, v) ∈ labeled ∪ ilinks) →
    ∃ reach' keys', link_loop d desc C fuel labeled ilinks reach keys = Ok (reach', keys') ∧
      ∀ v, v ∈ reach' ↔ ∃ s u, s ∈ init ∧ rtc (lstep (d_arcs d) C) s (u, v).
  Proof.
    intros Hd HU fuel. induction fuel as [|fuel IH]; intros labeled ilinks reach keys HsubU Hf Hsound Hclosed Hinit Hreach; [lia|].
    cbn [link_loop]. pose proof (λ t, round_spec desc C labeled ilinks t Hd) as Hround.
    set (nxt := round d desc C labeled ilinks) in *. clearbody nxt.
    destruct (decide (nxt = ∅)) as [->|Hne].
    - eexists _, _. split; [done|]. intros v. rewrite elem_of_union, Hreach. rewrite elem_of_map.
      split.
      + intros [[u Hu]|(? & _ & ?)]; [|clear -H; set_solver]. apply Hsound in Hu as (s & Hs & Hr). by exists s, u.
      + intros (s & u & Hs & Hr). left. exists u. apply Hinit in Hs. clear -Hr Hs Hclosed Hround.
        revert Hr. generalize (u, v). clear u v. intros t0 Hr. induction Hr as [s|s t t' Hst _ IHr]; [done|].
        apply IHr. apply elem_of_union in Hs as [Hs|Hs]; [by eapply Hclosed|].
        destruct (decide (t ∈ labeled)); [by apply elem_of_union_l|]. exfalso. apply (not_elem_of_empty (C:=gset link) t). apply Hround.
        split; [by exists s|done].
    - apply IH.
      + intros t. rewrite elem_of_union. intros [Ht|Ht]; [by apply HsubU|]. apply Hround in Ht as [(s & Hs & Hst) _].
        eapply HU; [done|]. apply HsubU. by apply elem_of_union_r.
      + destruct (decide (ilinks ⊆ labeled)) as [Hsub|Hsub].
        * assert (labeled ∪ ilinks = labeled) as -> by (clear -Hsub; set_solver).
          destruct (decide (nxt ⊆ labeled)) as [Hc|]; [|lia]. exfalso.
          apply set_choose_L in Hne as [t Ht]. pose proof (Hc t Ht). apply Hround in Ht as [_ Ht]. done.
        * assert (size (U ∖ (labeled ∪ ilinks)) < size (U ∖ labeled)).
          { apply subset_size. split; [clear; set_solver|]. intros Hc. apply Hsub. intros t Ht.
            destruct (decide (t ∈ labeled)) as [|Hl]; [done|]. assert (t ∈ U) as HtU by (apply HsubU; by apply elem_of_union_r).
            assert (t ∈ U ∖ (labeled ∪ ilinks)) as Ht' by (apply Hc; clear -HtU Hl; set_solver). clear -Ht' Ht. set_solver. }
          destruct (decide (nxt ⊆ labeled ∪ ilinks)); lia.
      + intros t. rewrite elem_of_union. intros [Ht|Ht]; [by apply Hsound|]. apply Hround in Ht as [(s & Hs & Hst) _].
        destruct (Hsound s) as (s0 & Hs0 & Hr0); [by apply elem_of_union_r|]. exists s0. split; [done|]. by eapply rtc_r.
      + intros s t Hs Hst. destruct (decide (s ∈ labeled)) as [Hsl|Hsl].
        { apply elem_of_union. left. by eapply Hclosed. }
        destruct (decide (t ∈ labeled)); [apply elem_of_union; left; by apply elem_of_union_l|]. apply elem_of_union. right. apply Hround. split; [|done].
        exists s. split; [|done]. clear -Hs Hsl. set_solver.
      + clear -Hinit. set_solver.
      + intros v. rewrite elem_of_union, Hreach, elem_of_map. setoid_rewrite elem_of_union. split.
        * intros [[u Hu]|([u w] & -> & Hu)]; exists u; [by left; apply elem_of_union|by right].
        * intros [u [Hu|Hu]]; [left; exists u; by apply elem_of_union|right; by exists (u, v)].
  Qed.

  Lemma dsep_from_given_spec A C :
    ∃ S, dsep_from_given d o A C = Ok S ∧
      ∀ v, v ∈ S ↔ v ∈ d_nodes d ∧ v ∉ A ∧ v ∉ C ∧ dsepd (d_arcs d) (A ∖ C) {[v]} C.
  Proof.
    unfold dsep_from_given, dsep_from_given_keys.
    destruct (closure_incr_set (parents d) o (d_nodes d) (parents_sub d Hwf) (closure_fuel d) [21] C) as (desc & -> & Hdesc).
    { unfold closure_fuel. lia. }
    assert (∀ x, x ∈ desc ↔ opened (d_arcs d) C x) as Hd.
    { intros x. rewrite Hdesc. unfold opened. by setoid_rewrite (rtc_parents d Hwf). }
    cbn [res_bind].
    set (N := d_nodes d ∪ A). set (init := set_map (λ a, (None, a)) A : gset link).
    set (L := None :: (Some <$> elements N)).
    set (U := list_to_set (L ≫= (λ u, (λ v, (u, v)) <$> elements N)) : gset link).
    assert (∀ u v, (u, v) ∈ U ↔ v ∈ N ∧ ∀ x, u = Some x → x ∈ N) as HU.
    { intros u v. unfold U, L. rewrite elem_of_list_to_set. rewrite elem_of_list_bind. setoid_rewrite elem_of_list_fmap.
      setoid_rewrite elem_of_cons. setoid_rewrite elem_of_list_fmap. setoid_rewrite elem_of_elements. split.
      - intros (u' & (v' & [= -> ->] & ?) & [->|(x & -> & ?)]); naive_solver.
      - intros [Hv Hu]. exists u. split; [by exists v|]. destruct u as [x|]; [|by left]. right. exists x. split; [done|]. by apply Hu. }
    assert (∀ s t, lstep (d_arcs d) C s t → s ∈ U → t ∈ U) as HUc.
    { intros [u v] [u' w] Hst. rewrite !HU. unfold lstep in Hst. destruct Hst as (-> & Hadj & _). intros [Hv _].
      split; [|intros x [= <-]; done]. unfold N. apply elem_of_union. left.
      destruct Hadj as [H|H]; apply (wf_over d Hwf) in H; naive_solver. }
    destruct (link_loop_spec desc C U init Hd HUc (link_fuel d A) ∅ init A ∅) as (reach & keys & -> & Hreach).
    - intros [u v]. rewrite union_empty_l_L. unfold init. rewrite elem_of_map. intros (a & [= -> ->] & Ha). apply HU.
      unfold N. split; [set_solver|done].
    - rewrite difference_empty_L.
      assert (size U ≤ S (size N) * size N) as HsU.
      { unfold U. etrans; [apply size_list_to_set_le|]. 
        assert (∀ (M : list (option nat)), length (M ≫= (λ u, (λ v, (u, v)) <$> elements N)) = length M * size N) as Hlen.
        { intros M. induction M as [|x M IHM]; [done|]. rewrite bind_cons, app_length, fmap_length, IHM. unfold size, set_size. done. }
        rewrite Hlen. unfold L. cbn [length]. rewrite fmap_length. done. }
      unfold link_fuel. fold N. destruct (decide _); nia.
    - intros t. rewrite union_empty_l_L. intros Ht. exists t. split; [done|]. apply rtc_refl.
    - set_solver.
    - set_solver.
    - intros v. rewrite union_empty_l_L. unfold init. setoid_rewrite elem_of_map. naive_solver.
    - cbn [res_bind]. eexists. split; [done|]. cbn [fst]. intros v. rewrite !elem_of_difference, Hreach.
      rewrite dsepd_walk by done. unfold init. setoid_rewrite elem_of_map. split.
      + intros (((Hv & HvA) & HvC) & Hr). split; [done|]. split; [done|]. split; [done|].
        intros a x l Ha ->%elem_of_singleton Hl. apply Hr. apply walk_to_path in Hl as [l' Hl]; [|done].
        apply active_path_sym in Hl. destruct (reverse l') as [|y l''] eqn:Hrl; [by destruct Hl as (? & ? & ?)|].
        assert (y = v) as -> by (destruct Hl as (? & ? & ?); naive_solver).
        apply elem_of_difference in Ha as [Ha HaC].
        exists (None, a), (head l''). split; [by exists a|]. apply (path_link _ _ Hac a v l'' HaC); [by destruct Hl|by apply path_to_walk].
      + intros (Hv & HvA & HvC & Hsep). split; [done|]. intros (s & u & (a & -> & Ha) & Hr).
        destruct (decide (a ∈ C)) as [HaC|HaC].
        { apply rtc_inv in Hr as [[= <- <-]|([u' w] & Hs & _)]; [done|]. unfold lstep in Hs. naive_solver. }
        apply link_walk in Hr as (l & Hl & _); [|done]. apply (Hsep a v (reverse (v :: l))); [set_solver..|].
        destruct Hl as (H1 & H2 & H3 & H4). split; [by rewrite head_reverse|]. split; [by rewrite last_reverse|].
        split; [by apply adjs_reverse|by apply acts_reverse].
  Qed.
End from_given.
