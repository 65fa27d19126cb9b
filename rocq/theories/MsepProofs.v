(** Correctness of [msep] and [msep_from_given]. *)
From Verif Require Import Py Spec SpecDsep SpecMixed DagModel DsepModel UGraphModel AncestralModel MsepModel
  TopoProofs StateProofs ReachProofs OrderProofs UGraphProofs PdagProofs WalkProofs DsepProofs AncestralState MWalkProofs.

Section graph.
  Context (g : ag) (Hg : gok g) (o : oracle).
  Notation G := (gmix g).
  Notation D := (g_dir g).

  Lemma g_parents_sub x : g_parents g x ⊆ g_nodes g.
  Proof using Hg. intros y Hy. apply (gok_par _ Hg) in Hy. by apply (gok_dirN _ Hg) in Hy as [? _]. Qed.
  Lemma tc_g_parents n x : tc (λ x y, y ∈ g_parents g x) n x ↔ tc (edge D) x n.
  Proof using Hg. rewrite (tc_flip (edge _)). apply tc_iff. intros a b. unfold edge. apply (gok_par _ Hg). Qed.
  Lemma rtc_g_parents n x : rtc (λ x y, y ∈ g_parents g x) n x ↔ rtc (edge D) x n.
  Proof using Hg. rewrite (rtc_flip (edge _)). apply rtc_iff. intros a b. unfold edge. apply (gok_par _ Hg). Qed.

  Lemma g_shaded_spec C : ∃ sh, g_shaded g o C = Ok sh ∧ ∀ x, x ∈ sh ↔ opened D C x.
  Proof using Hg.
    unfold g_shaded.
    destruct (closure_set (g_parents g) o (g_nodes g) g_parents_sub (g_fuel g) [90] C) as (sh & -> & Hsh).
    { unfold g_fuel. lia. }
    exists sh. split; [done|]. intros x. rewrite Hsh. unfold opened. setoid_rewrite tc_g_parents. split.
    - intros [Hx|(c & Hc & Hx)]; [by exists x|]. exists c. split; [done|]. by apply tc_rtc.
    - intros (c & Hc & Hx). apply rtc_tc in Hx as [->|Hx]; [by left|]. right. by exists c.
  Qed.

  Lemma gspo v w : w ∈ g_spouses g v ↔ spouse G v w.
  Proof using Hg. rewrite spouse_upair by done. apply (gok_spo _ Hg). Qed.
  Lemma gnei v w : w ∈ g_neighbors g v ↔ neighbor G v w.
  Proof using Hg. rewrite neighbor_upair by done. apply (gok_nei _ Hg). Qed.
  Lemma gadj v w : w ∈ g_adjacent g v ↔ madj G v w.
  Proof using Hg. unfold madj. rewrite spouse_upair, neighbor_upair by done. apply (gok_adj _ Hg). Qed.
  Lemma madj_nodes v w : madj G v w → v ∈ g_nodes g ∧ w ∈ g_nodes g.
  Proof using Hg.
    unfold madj. rewrite spouse_upair, neighbor_upair by done. intros [H|[H|[H|H]]].
    - by apply (gok_dirN _ Hg).
    - apply (gok_dirN _ Hg) in H. tauto.
    - by apply (over_upair _ _ _ _ (gok_biN _ Hg)).
    - by apply (over_upair _ _ _ _ (gok_unN _ Hg)).
  Qed.
  Lemma gmix_simple : simple G.
  Proof using Hg.
    split.
    - intros x. unfold madj. rewrite spouse_upair, neighbor_upair by done. intros [Hx|[Hx|[Hx|Hx]]].
      + by apply (gok_dir1 _ Hg) in Hx as [? _].
      + by apply (gok_dir1 _ Hg) in Hx as [? _].
      + by apply (upair_ne_lt _ _ _ (gok_bilt _ Hg)) in Hx.
      + by apply (upair_ne_lt _ _ _ (gok_unlt _ Hg)) in Hx.
    - intros x y Hx. rewrite spouse_upair, neighbor_upair by done. apply (gok_dir1 _ Hg) in Hx. tauto.
    - intros x y. rewrite spouse_upair, neighbor_upair by done. apply (gok_bi1 _ Hg).
  Qed.
  Lemma gmix_separate : separate G.
  Proof using Hg.
    intros x y z. unfold into. rewrite spouse_upair, neighbor_upair by done. intros [Hx|Hx].
    - by apply (gok_sepd _ Hg _ _ z Hx).
    - by apply (gok_sepb _ Hg _ _ z Hx).
  Qed.

  (** The code gives an undirected edge left through an arrowhead the wrong mark;
      such edges do not exist. *)
  Definition proper (s : node * bool) : Prop := s.2 = true ∨ ∃ u, into G u s.1.
  Lemma mstep_proper C s t : mstep G C s t → proper t.
  Proof using.
    destruct s as [v m], t as [w m']. intros (k & He & _). cbn in He. unfold proper. destruct m'; [by left|right].
    exists v. cbn. destruct k; cbn in He; [by left|by right].
  Qed.
  Lemma mball_next_spec sh C s t : (∀ x, x ∈ sh ↔ opened D C x) → proper s →
    t ∈ mball_next g sh C s ↔ mstep G C s t.
  Proof using Hg.
    intros Hsh Hs. destruct s as [v m], t as [w m'].
    assert (m = false → ∀ w, w ∉ g_neighbors g v) as Hno.
    { intros -> w' Hw. destruct Hs as [?|[u Hu]]; [done|]. apply gnei in Hw. by apply (gmix_separate _ _ _ Hu Hw). }
    assert (∀ w, w ∈ g_parents g v ↔ (w, v) ∈ D) as Hp by (intros; apply (gok_par _ Hg)).
    assert (∀ w, w ∈ g_children g v ↔ (v, w) ∈ D) as Hc by (intros; apply (gok_chi _ Hg)).
    assert (mstep G C (v, m) (w, m') ↔
      (w ∈ g_parents g v ∧ m' = true ∧ pass D C v m false) ∨ (w ∈ g_children g v ∧ m' = false ∧ pass D C v m true) ∨
      (w ∈ g_spouses g v ∧ m' = false ∧ pass D C v m false) ∨ (w ∈ g_neighbors g v ∧ m' = true ∧ pass D C v m true)) as ->.
    { rewrite Hp, Hc, gspo, gnei. unfold mstep. cbn [fst snd]. change (mx_dir G) with D. split.
      - intros ([] & He & H); destruct m'; cbn in He; tauto.
      - intros [(?&->&?)|[(?&->&?)|[(?&->&?)|(?&->&?)]]]; [exists false|exists true|exists false|exists true]; done. }
    unfold mball_next, pass. clear Hp Hc Hs. specialize (Hno : m = false → _). destruct m; cbn [orb].
    - case_decide; rewrite ?elem_of_union, ?elem_of_with_dir, ?elem_of_empty; tauto.
    - specialize (Hno eq_refl w). specialize (Hsh v). rewrite elem_of_union. do 2 case_decide;
        rewrite ?elem_of_union, ?elem_of_with_dir, ?elem_of_empty; tauto.
  Qed.

  Lemma mball_run p stop sh A C : (∀ x, x ∈ sh ↔ opened D C x) →
    ∃ b, worklist p stop (mball_next g sh C) (mball_fuel g A) (with_dir true A) ∅ = Ok b ∧
      (b = true ↔ ∀ a s, a ∈ A → rtc (mstep G C) (a, true) s → stop s = false).
  Proof using Hg.
    intros Hsh. set (N := g_nodes g ∪ A). set (U := with_dir true N ∪ with_dir false N).
    assert (size U ≤ 2 * size N) as HsU.
    { unfold U. rewrite size_union_alt. rewrite size_with_dir.
      assert (size (with_dir false N ∖ with_dir true N) ≤ size (with_dir false N)) as H by (apply subseteq_size; set_solver).
      rewrite size_with_dir in H. lia. }
    destruct (worklist_start p stop (mball_next g sh C) U) with (fuel := mball_fuel g A) (sched := with_dir true A) as (b & -> & Hb).
    { intros [v m] _ [w m'] Hw.
      assert (w ∈ g_adjacent g v) as Ha.
      { rewrite gadj. unfold mball_next in Hw. unfold madj.
        change (mx_dir G) with D. rewrite <-(gok_par _ Hg w v), <-(gok_chi _ Hg v w), <-gspo, <-gnei.
        destruct m; [case_decide|rewrite elem_of_union in Hw; repeat case_decide];
          rewrite ?elem_of_union, ?elem_of_with_dir, ?elem_of_empty in Hw; tauto. }
      apply gadj, madj_nodes in Ha as [_ Ha].
      unfold U, N. rewrite elem_of_union, !elem_of_with_dir, elem_of_union. destruct m'; tauto. }
    { unfold U, N. intros [v m]. rewrite elem_of_union, !elem_of_with_dir. set_solver. }
    { unfold mball_fuel. fold N. cbn zeta. nia. }
    exists b. split; [done|]. rewrite Hb.
    assert (∀ s t, proper s → rtc (λ x y, y ∈ mball_next g sh C x) s t ↔ rtc (mstep G C) s t) as Hrtc.
    { intros s t Hs. split; intros Hr; revert Hs; induction Hr as [s|s u t Hsu _ IH]; intros Hs; try apply rtc_refl.
      - apply mball_next_spec in Hsu; [|done|done]. eapply rtc_l; [exact Hsu|]. apply IH. by eapply mstep_proper.
      - eapply rtc_l; [by apply mball_next_spec|]. apply IH. by eapply mstep_proper. }
    split.
    - intros H a s Ha Hr. apply (H (a, true) s); [by apply elem_of_with_dir|]. apply Hrtc; [by left|done].
    - intros H [a m] s Ha Hr. apply elem_of_with_dir in Ha as [Ha ->]. apply (H a s Ha). apply Hrtc; [by left|done].
  Qed.

  (** The set [A] may overlap [C]: the ball does not leave a conditioned node. *)
  Lemma msep_spec p A B C : A ∩ C ## B → ∃ b, msep g o p A B C = Ok b ∧ (b = true ↔ msepd G (A ∖ C) B C).
  Proof using Hg.
    intros HAB. unfold msep. destruct (g_shaded_spec C) as (sh & -> & Hsh). cbn [res_bind].
    destruct (mball_run p (λ s, bool_decide (s.1 ∈ B)) sh A C Hsh) as (b & -> & Hb).
    exists b. split; [done|]. rewrite Hb. rewrite msepd_reach; [|apply gmix_simple|apply gmix_separate|set_solver]. split.
    - intros H a x [Ha HaC]%elem_of_difference Hx [m Hr]. apply (H a _ Ha) in Hr. by case_bool_decide.
    - intros H a [x m] Ha Hr. apply bool_decide_eq_false. cbn. intros Hx.
      destruct (decide (a ∈ C)) as [HaC|HaC].
      { apply rtc_inv in Hr as [[= <- _]|([w m'] & (k & _ & Hs) & _)]; [clear -HAB HaC Hx Ha; set_solver|done]. }
      apply (H a x); [set_solver|done|]. by exists m.
  Qed.
End graph.

(** ** [msep_from_given] *)
Definition mlstep (G : mixed) (C : nset) (s t : link) : Prop :=
  let '(u, v) := s in let '(u', w) := t in
  u' = Some v ∧ madj G v w ∧ u ≠ Some w ∧
  match u with Some u0 => mactive_at G C u0 v w | None => v ∉ C end.

Section links.
  Context (G : mixed) (C : nset).

  Lemma mlink_walk a u v : rtc (mlstep G C) (None, a) (u, v) → ∃ l, mwalk G C v a (v :: l) ∧ head l = u.
  Proof using.
    intros Hr. apply rtc_flip in Hr. remember (None, a) as t eqn:Ht. remember (u, v) as s eqn:Hs. revert u v Ht Hs.
    induction Hr as [s|[u' w] [u v] t Hst _ IH]; intros u1 v1 -> Hs.
    - simplify_eq. by exists [].
    - injection Hs as <- <-. destruct (IH u v eq_refl eq_refl) as (l & (H1 & H2 & H3 & H4) & Hh).
      unfold mlstep in Hst. destruct Hst as (-> & Hadj & _ & Hact). exists (v :: l). split; [|done].
      split; [done|]. split; [by rewrite last_cons_cons|]. split; [rewrite madjs_cons; split; [by apply madj_sym|done]|].
      destruct l as [|x l]; [done|]. cbn in Hh. subst u. rewrite macts_cons. split; [by apply mactive_at_sym|done].
  Qed.

  Lemma mpath_link a v l : a ∉ C → NoDup (v :: l) → mwalk G C v a (v :: l) → rtc (mlstep G C) (None, a) (head l, v).
  Proof using.
    intros HaC. revert v. induction l as [|u l IH]; intros v Hnd (H1 & H2 & H3 & H4).
    { cbn in H2. injection H2 as ->. apply rtc_refl. }
    rewrite madjs_cons in H3. destruct H3 as [Hvu H3]. rewrite last_cons_cons in H2. apply NoDup_cons in Hnd as [Hv Hnd].
    eapply rtc_r.
    - apply (IH u); [done|]. split; [done|]. split; [done|]. split; [done|]. by apply (macts_app1_r G C [v]).
    - unfold mlstep. split; [done|]. split; [by apply madj_sym|]. destruct l as [|t l]; cbn [head].
      + split; [done|]. cbn in H2. congruence.
      + split; [|rewrite macts_cons in H4; apply mactive_at_sym, H4].
        intros [= ->]. set_solver.
  Qed.
End links.

Section from_given.
  Context (g : ag) (Hg : gok g) (o : oracle).
  Notation G := (gmix g).
  Notation D := (g_dir g).

  Lemma g_is_collider_spec u v w : g_is_collider g u v w = true ↔ ∃ u0, u = Some u0 ∧ mcollider G u0 v w.
  Proof using Hg.
    assert (∀ x, v ∈ g_children g x ↔ (x, v) ∈ D) as Hc by (intros; apply (gok_chi _ Hg)).
    assert (∀ x, v ∈ g_spouses g x ↔ spouse G x v) as Hs by (intros; by apply gspo).
    unfold g_is_collider, mcollider, into. change (mx_dir G) with D. destruct u as [u|]; cbn [at_opt].
    - setoid_rewrite <-Hc. setoid_rewrite <-Hs. trans ((v ∈ g_children g u ∨ v ∈ g_spouses g u) ∧ (v ∈ g_children g w ∨ v ∈ g_spouses g w)).
      + destruct (bool_decide_reflect (v ∈ g_children g u)), (bool_decide_reflect (v ∈ g_children g w)),
          (bool_decide_reflect (v ∈ g_spouses g u)), (bool_decide_reflect (v ∈ g_spouses g w)); cbn; split; try done; tauto.
      + split; [intros H; by exists u|]. intros (u0 & [= <-] & H). done.
    - rewrite !bool_decide_eq_false_2 by apply not_elem_of_empty. cbn. split; [done|]. by intros (? & ? & _).
  Qed.
  Lemma mlegal_next_spec desc C s t : (∀ x, x ∈ desc ↔ opened D C x) → t ∈ mlegal_next g desc C s ↔ mlstep G C s t.
  Proof using Hg.
    intros Hd. destruct s as [u v], t as [u' w]. unfold mlegal_next, mlstep. rewrite elem_of_map.
    setoid_rewrite elem_of_filter. setoid_rewrite (gadj g Hg).
    assert (∀ w, (if g_is_collider g u v w then bool_decide (v ∈ desc) else bool_decide (v ∉ C)) = true ↔
      match u with Some u0 => mactive_at G C u0 v w | None => v ∉ C end) as Hif.
    { intros z. pose proof (g_is_collider_spec u v z) as Hcol. destruct (g_is_collider g u v z).
      - destruct Hcol as [Hcol _]. destruct (Hcol eq_refl) as (u0 & -> & Hc). rewrite bool_decide_eq_true, Hd.
        unfold mactive_at. change (mx_dir G) with D. tauto.
      - rewrite bool_decide_eq_true. destruct u as [u0|]; [|done]. unfold mactive_at.
        assert (¬ mcollider G u0 v z) by (intros Hc; by assert (false = true) by (apply Hcol; by exists u0)). tauto. }
    setoid_rewrite Hif. naive_solver.
  Qed.
  Lemma mround_spec desc C labeled ilinks t : (∀ x, x ∈ desc ↔ opened D C x) →
    t ∈ mround g desc C labeled ilinks ↔ (∃ s, s ∈ ilinks ∧ mlstep G C s t) ∧ t ∉ labeled.
  Proof using Hg.
    intros Hd. unfold mround. rewrite elem_of_difference, elem_of_fold_union. setoid_rewrite mlegal_next_spec; done.
  Qed.

  Lemma mlink_loop_spec (desc C : nset) (U init : gset link) : (∀ x, x ∈ desc ↔ opened D C x) →
    (∀ s t, mlstep G C s t → s ∈ U → t ∈ U) →
    ∀ fuel labeled ilinks reach,
    labeled ∪ ilinks ⊆ U →
    2 * size (U ∖ labeled) + (if decide (ilinks ⊆ labeled) then 1 else 0) < fuel →
    (∀ t, t ∈ labeled ∪ ilinks → ∃ s, s ∈ init ∧ rtc (mlstep G C) s t) →
    (∀ s t, s ∈ labeled → mlstep G C s t → t ∈ labeled ∪ ilinks) →
    init ⊆ labeled ∪ ilinks →
    (∀ v, v ∈ reach ↔ ∃ u, (u, v) ∈ labeled ∪ ilinks) →
    ∃ reach', mlink_loop g desc C fuel labeled ilinks reach = Ok reach' ∧
      ∀ v, v ∈ reach' ↔ ∃ s u, s ∈ init ∧ rtc (mlstep G C) s (u, v).
  Proof using Hg.
    intros Hd HU fuel. induction fuel as [|fuel IH]; intros labeled ilinks reach HsubU Hf Hsound Hclosed Hinit Hreach; [lia|].
    cbn [mlink_loop]. pose proof (λ t, mround_spec desc C labeled ilinks t Hd) as Hround.
    set (nxt := mround g desc C labeled ilinks) in *. clearbody nxt.
    destruct (decide (nxt = ∅)) as [->|Hne].
    - eexists. split; [done|]. intros v. rewrite elem_of_union, Hreach. rewrite elem_of_map.
      split.
      + intros [[u Hu]|(? & _ & ?)]; [|clear -H; set_solver]. apply Hsound in Hu as (s & Hs & Hr). by exists s, u.
      + intros (s & u & Hs & Hr). left. exists u. apply Hinit in Hs. clear -Hr Hs Hclosed Hround.
        revert Hr. generalize (u, v). clear u v. intros t0 Hr. induction Hr as [s|s t t' Hst _ IHr]; [done|].
        apply IHr. apply elem_of_union in Hs as [Hs|Hs]; [by eapply Hclosed|].
        destruct (decide (t ∈ labeled)); [by apply elem_of_union_l|]. exfalso. apply (not_elem_of_empty (C:=gset link) t). apply Hround.
        split; [by exists s|done].
    - apply IH.
      + intros t. rewrite elem_of_union. intros [Ht|Ht]; [by apply HsubU|]. apply Hround in Ht as [(s & Hs & Hst) _].
        eapply HU; [done|]. apply HsubU. by apply elem_of_union_r.
      + destruct (decide (ilinks ⊆ labeled)) as [Hsub|Hsub].
        * assert (labeled ∪ ilinks = labeled) as -> by (clear -Hsub; set_solver).
          destruct (decide (nxt ⊆ labeled)) as [Hc|]; [|lia]. exfalso.
          apply set_choose_L in Hne as [t Ht]. pose proof (Hc t Ht). apply Hround in Ht as [_ Ht]. done.
        * assert (size (U ∖ (labeled ∪ ilinks)) < size (U ∖ labeled)).
          { apply subset_size. split; [clear; set_solver|]. intros Hc. apply Hsub. intros t Ht.
            destruct (decide (t ∈ labeled)) as [|Hl]; [done|]. assert (t ∈ U) as HtU by (apply HsubU; by apply elem_of_union_r).
            assert (t ∈ U ∖ (labeled ∪ ilinks)) as Ht' by (apply Hc; clear -HtU Hl; set_solver). clear -Ht' Ht. set_solver. }
          destruct (decide (nxt ⊆ labeled ∪ ilinks)); lia.
      + intros t. rewrite elem_of_union. intros [Ht|Ht]; [by apply Hsound|]. apply Hround in Ht as [(s & Hs & Hst) _].
        destruct (Hsound s) as (s0 & Hs0 & Hr0); [by apply elem_of_union_r|]. exists s0. split; [done|]. by eapply rtc_r.
      + intros s t Hs Hst. destruct (decide (s ∈ labeled)) as [Hsl|Hsl].
        { apply elem_of_union. left. by eapply Hclosed. }
        destruct (decide (t ∈ labeled)); [apply elem_of_union; left; by apply elem_of_union_l|]. apply elem_of_union. right. apply Hround. split; [|done].
        exists s. split; [|done]. clear -Hs Hsl. set_solver.
      + clear -Hinit. set_solver.
      + intros v. rewrite elem_of_union, Hreach, elem_of_map. setoid_rewrite elem_of_union. split.
        * intros [[u Hu]|([u w] & -> & Hu)]; exists u; [by left; apply elem_of_union|by right].
        * intros [u [Hu|Hu]]; [left; exists u; by apply elem_of_union|right; by exists (u, v)].
  Qed.

  Lemma msep_from_given_spec A C :
    ∃ X, msep_from_given g o A C = Ok X ∧
      ∀ v, v ∈ X ↔ v ∈ g_nodes g ∧ v ∉ A ∧ v ∉ C ∧ msepd G (A ∖ C) {[v]} C.
  Proof using Hg.
    unfold msep_from_given.
    destruct (closure_incr_set (g_parents g) o (g_nodes g) (g_parents_sub g Hg) (g_fuel g) [91] C) as (desc & -> & Hdesc).
    { unfold g_fuel. lia. }
    assert (∀ x, x ∈ desc ↔ opened D C x) as Hd.
    { intros x. rewrite Hdesc. unfold opened. by setoid_rewrite (rtc_g_parents g Hg). }
    cbn [res_bind].
    set (N := g_nodes g ∪ A). set (init := set_map (λ a, (None, a)) A : gset link).
    set (L := None :: (Some <$> elements N)).
    set (U := list_to_set (L ≫= (λ u, (λ v, (u, v)) <$> elements N)) : gset link).
    assert (∀ u v, (u, v) ∈ U ↔ v ∈ N ∧ ∀ x, u = Some x → x ∈ N) as HU.
    { intros u v. unfold U, L. rewrite elem_of_list_to_set. rewrite elem_of_list_bind. setoid_rewrite elem_of_list_fmap.
      setoid_rewrite elem_of_cons. setoid_rewrite elem_of_list_fmap. setoid_rewrite elem_of_elements. split.
      - intros (u' & (v' & [= -> ->] & ?) & [->|(x & -> & ?)]); naive_solver.
      - intros [Hv Hu]. exists u. split; [by exists v|]. destruct u as [x|]; [|by left]. right. exists x. split; [done|]. by apply Hu. }
    assert (∀ s t, mlstep G C s t → s ∈ U → t ∈ U) as HUc.
    { intros [u v] [u' w] Hst. rewrite !HU. unfold mlstep in Hst. destruct Hst as (-> & Hadj & _). intros [Hv _].
      split; [|intros x [= <-]; done]. unfold N. apply elem_of_union. left. by apply (madj_nodes g Hg) in Hadj as [_ ?]. }
    destruct (mlink_loop_spec desc C U init Hd HUc (mlink_fuel g A) ∅ init A) as (reach & -> & Hreach).
    - intros [u v]. rewrite union_empty_l_L. unfold init. rewrite elem_of_map. intros (a & [= -> ->] & Ha). apply HU.
      unfold N. split; [set_solver|done].
    - rewrite difference_empty_L.
      assert (size U ≤ S (size N) * size N) as HsU.
      { unfold U. etrans; [apply size_list_to_set_le|].
        assert (∀ (M : list (option nat)), length (M ≫= (λ u, (λ v, (u, v)) <$> elements N)) = length M * size N) as Hlen.
        { intros M. induction M as [|x M IHM]; [done|]. rewrite bind_cons, app_length, fmap_length, IHM. unfold size, set_size. done. }
        rewrite Hlen. unfold L. cbn [length]. rewrite fmap_length. done. }
      unfold mlink_fuel. fold N. destruct (decide _); nia.
    - intros t. rewrite union_empty_l_L. intros Ht. exists t. split; [done|]. apply rtc_refl.
    - clear. set_solver.
    - clear. set_solver.
    - intros v. rewrite union_empty_l_L. unfold init. setoid_rewrite elem_of_map. naive_solver.
    - cbn [res_bind]. eexists. split; [done|]. intros v. rewrite !elem_of_difference, Hreach.
      rewrite msepd_walk by (by apply gmix_simple || by apply gmix_separate). unfold init. setoid_rewrite elem_of_map. split.
      + intros (((Hv & HvA) & HvC) & Hr). split; [done|]. split; [done|]. split; [done|].
        intros a x l Ha ->%elem_of_singleton Hl. apply Hr.
        apply mwalk_to_path in Hl as [l' Hl]; [|by apply gmix_simple|by apply gmix_separate].
        apply mpath_sym in Hl. destruct (reverse l') as [|y l''] eqn:Hrl; [by destruct Hl as (? & ? & ?)|].
        assert (y = v) as -> by (destruct Hl as (? & ? & ?); naive_solver).
        apply elem_of_difference in Ha as [Ha HaC].
        exists (None, a), (head l''). split; [by exists a|]. apply (mpath_link _ _ a v l'' HaC); [by destruct Hl|by apply mpath_to_walk].
      + intros (Hv & HvA & HvC & Hsep). split; [done|]. intros (s & u & (a & -> & Ha) & Hr).
        destruct (decide (a ∈ C)) as [HaC|HaC].
        { apply rtc_inv in Hr as [[= <- <-]|([u' w] & Hs & _)]; [done|]. unfold mlstep in Hs. naive_solver. }
        apply mlink_walk in Hr as (l & Hl & _). apply (Hsep a v (reverse (v :: l))); [set_solver..|]. by apply mwalk_sym.
  Qed.
End from_given.
