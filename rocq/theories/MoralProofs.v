(** d-separation and separation in the moral graph of the ancestral subgraph;
    renaming. *)
From Verif Require Import Py Spec SpecDsep DagModel DsepModel UGraphModel TopoProofs StateProofs ReachProofs OrderProofs QueryProofs WalkProofs DsepProofs MarkovProofs UGraphProofs.

Lemma and_iff_compat_l_weak (P Q R : Prop) : (P → Q ↔ R) → P ∧ Q ↔ P ∧ R.
Proof. tauto. Qed.

Section moral.
  Context (E : arcset) (Hac : acyclic E) (A B C : nset) (HAC : A ## C) (HBC : B ## C).
  Let X := A ∪ B ∪ C.
  Notation inAn v := (opened E X v).
  Definition madj (x y : node) : Prop :=
    inAn x ∧ inAn y ∧ x ∉ C ∧ y ∉ C ∧ (adjacent E x y ∨ ∃ z, inAn z ∧ (x, z) ∈ E ∧ (y, z) ∈ E).

  Lemma opened_X v c : c ∈ X → rtc (edge E) v c → inAn v.
  Proof. intros. by exists c. Qed.

  (** Every node of an active walk is an ancestor of the ends or of [C]. *)
  Lemma walk_in_An a b l : a ∈ A → b ∈ B → awalk E C a b l → ∀ v, v ∈ l → inAn v.
  Proof.
    intros Ha Hb (H1 & H2 & H3 & H4) v Hv. apply elem_of_list_split in Hv as (l1 & l2 & ->).
    assert (∀ v, opened E C v → inAn v) as HoC by (intros w (c & Hc & ?); exists c; unfold X; set_solver).
    destruct l2 as [|w l2].
    { rewrite last_snoc in H2. injection H2 as ->. apply (opened_X b b); [unfold X; set_solver|apply rtc_refl]. }
    apply adjs_app in H3 as [H3 H3']. pose proof H3' as H3''. rewrite adjs_cons in H3''. destruct H3'' as [[Hvw|Hwv] _].
    - destruct (follow E C v w l2 b) as [Ho|Ho]; [done|by apply acts_app1_r in H4|done| |by apply HoC|].
      + rewrite last_app in H2. rewrite last_cons_cons in H2. destruct (last (w :: l2)) eqn:Hl; [done|]. by apply last_None in Hl.
      + apply (opened_X v b); [unfold X; set_solver|by apply tc_rtc].
    - destruct l1 as [|u l1 _] using rev_ind.
      { cbn in H1. injection H1 as ->. apply (opened_X a a); [unfold X; set_solver|apply rtc_refl]. }
      rewrite <-app_assoc in *. cbn [app] in *.
      assert (adjacent E u v) as [Huv|Hvu].
      { apply adjs_app1_r in H3. rewrite adjs_cons in H3. apply H3. }
      + apply acts_app1_r in H4. rewrite acts_cons in H4. destruct H4 as [[H4 _] _]. apply HoC, H4. done.
      + assert (adjs E (reverse (l1 ++ [u; v])) ∧ acts E C (reverse (l1 ++ [u; v]))) as [Hr1 Hr2].
        { split; [by apply adjs_reverse|]. apply acts_reverse. 
          replace (l1 ++ u :: v :: w :: l2) with ((l1 ++ [u; v]) ++ w :: l2) in H4 by by rewrite <-app_assoc.
          by apply acts_app1_l in H4. }
        rewrite reverse_app in Hr1, Hr2. cbn in Hr1, Hr2.
        destruct (follow E C v u (reverse l1) a) as [Ho|Ho]; [exact Hr1|exact Hr2|done| |by apply HoC|].
        * rewrite <-head_reverse, reverse_cons, reverse_involutive. destruct l1; cbn in *; done.
        * apply (opened_X v a); [unfold X; set_solver|by apply tc_rtc].
  Qed.

  Lemma walk_moral n : ∀ l x y, length l ≤ n → awalk E C x y (x :: l) → (∀ v, v ∈ x :: l → inAn v) → x ∉ C → y ∉ C → rtc madj x y.
  Proof.
    induction n as [|n IH]; intros l x y Hn (H1 & H2 & H3 & H4) Hin Hx Hy.
    { destruct l; cbn in Hn; [|lia]. cbn in H2. injection H2 as ->. apply rtc_refl. }
    destruct l as [|w l]; [cbn in H2; injection H2 as ->; apply rtc_refl|].
    cbn in Hn. rewrite last_cons_cons in H2. rewrite adjs_cons in H3. destruct H3 as [Hxw H3].
    assert (acts E C (w :: l)) as H4' by by apply (acts_app1_r E C [x]).
    destruct l as [|z l].
    { cbn in H2. injection H2 as ->. apply rtc_once. unfold madj. split; [apply Hin; set_solver|]. split; [apply Hin; set_solver|]. naive_solver. }
    rewrite acts_cons in H4. destruct H4 as [Hat _].
    assert (inAn x ∧ inAn w ∧ inAn z) as (Ix & Iw & Iz) by (split_and!; apply Hin; set_solver).
    destruct (decide ((x, w) ∈ E ∧ (z, w) ∈ E)) as [[Hc1 Hc2]|Hc].
    - rewrite adjs_cons in H3. destruct H3 as [Hwz H3].
      assert (z ∉ C) as Hz.
      { destruct l as [|u l]; [cbn in H2; congruence|]. rewrite acts_cons in H4'. destruct H4' as [[_ H4'] _]. apply H4'.
        intros [? _]. by eapply (no_two E Hac w z). }
      apply rtc_l with z.
      + unfold madj. split_and!; [done..|]. right. by exists w.
      + apply (IH l z y); [cbn in Hn; lia| | |done|done].
        * split; [done|]. rewrite last_cons_cons in H2. split; [done|]. split; [done|]. by apply (acts_app1_r E C [w]).
        * intros v Hv. apply Hin. set_solver.
    - assert (w ∉ C) as Hw by (apply Hat; done).
      apply rtc_l with w.
      + unfold madj. split_and!; [done..|]. by left.
      + apply (IH (z :: l) w y); [cbn in *; lia| | |done|done].
        * split_and!; done.
        * intros v Hv. apply Hin. set_solver.
  Qed.

  (** Reaching [B] is the only obstacle to following a moral path. *)
  Lemma moral_reach a y : a ∈ A → rtc madj a y →
    (∃ dir, reach E C A (y, dir)) ∨ ∃ b dir, b ∈ B ∧ reach E C A (b, dir).
  Proof.
    intros Ha Hr. apply rtc_flip in Hr. remember a as a0 eqn:Heq in Hr. revert Heq.
    induction Hr as [y|y x a' Hxy _ IH]; intros ->; [left; exists true; by apply reach_start|].
    destruct (IH eq_refl) as [[dir Hx]|]; [|by right]. destruct Hxy as (Ix & Iy & HxC & HyC & Hxy).
    (* a node reached along an incoming arc that does not open *)
    assert (∀ v, inAn v → reach E C A (v, false) → (∃ b dir, b ∈ B ∧ reach E C A (b, dir)) ∨ opened E C v ∨ (reach E C A (v, true) ∧ v ∉ C)) as Hturn.
    { intros v (c & Hc & Hvc) Hv. destruct (opened_dec E C v) as [Ho|Ho]; [by right; left|].
      unfold X in Hc. rewrite !elem_of_union in Hc. destruct Hc as [[Hc|Hc]|Hc].
      - right. right. split; [by eapply reach_up|]. intros HvC. apply Ho. exists v. split; [done|apply rtc_refl].
      - left. destruct (reach_down E C A v c false Hv Ho Hvc) as [dir' ?]. by exists c, dir'.
      - destruct Ho. by exists c. }
    destruct Hxy as [[Hxy|Hyx]|(z & Iz & Hxz & Hyz)].
    - left. exists false. eapply reach_step; [exact Hx|]. unfold bstep. done.
    - destruct dir.
      + left. exists true. eapply reach_step; [exact Hx|]. unfold bstep. done.
      + destruct (Hturn x Ix Hx) as [?|[?|[? _]]]; [by right|left; exists true..].
        * eapply reach_step; [exact Hx|]. unfold bstep. done.
        * eapply reach_step; [done|]. unfold bstep. done.
    - assert (reach E C A (z, false)) as Hz. { eapply reach_step; [exact Hx|]. unfold bstep. done. }
      destruct (Hturn z Iz Hz) as [?|[?|[? ?]]]; [by right|left; exists true..].
      + eapply reach_step; [exact Hz|]. unfold bstep. done.
      + eapply reach_step; [done|]. unfold bstep. done.
  Qed.

  Lemma dsepd_moral : dsepd E A B C ↔ ∀ a b, a ∈ A → b ∈ B → ¬ rtc madj a b.
  Proof.
    split.
    - rewrite dsepd_reach by done. intros H a b Ha Hb Hr. apply moral_reach in Hr as [[dir Hr]|(b' & dir & Hb' & Hr)]; [|by eapply H..|done].
      by apply (H b dir).
    - intros H. rewrite dsepd_walk by done. intros a b l Ha Hb Hl. apply (H a b Ha Hb).
      destruct l as [|x l]; [by destruct Hl|]. assert (x = a) as -> by (destruct Hl; naive_solver).
      apply (walk_moral (length l) l); [done|done|by apply (walk_in_An a b)|set_solver|set_solver].
  Qed.
End moral.

(** The moral graph of a DAG. *)
Lemma moral_graph_edges d (Hwf : wf d) o flip x y :
  upair x y ∈ u_edges (moral_graph d o flip) ↔
  x ≠ y ∧ (adjacent (d_arcs d) x y ∨ ∃ z, (x, z) ∈ d_arcs d ∧ (y, z) ∈ d_arcs d).
Proof.
  unfold moral_graph. destruct (ug_make_ok o flip (d_nodes d) (d_arcs d ∪ set_map (λ t : node * node * node, (t.1.1, t.2)) (vstructures d o))) as (_ & _ & -> & _).
  apply and_iff_compat_l_weak. intros Hne. rewrite !elem_of_union, !elem_of_map.
  assert (∀ p, p ∈ vstructures d o → vstruct (d_arcs d) p.1.1 p.1.2 p.2) as Hsound.
  { intros [[u z] v] Hp. rewrite (vstructures_elem d o) in Hp. destruct Hp as (Hz & Hc & H1 & H2).
    apply combinations2_ne in Hc as (Hn & Hu & Hv); [|apply NoDup_on]. rewrite elem_of_on in Hu, Hv. rewrite !(wf_par _ Hwf) in *.
    unfold vstruct, adjacent. naive_solver. }
  split.
  - intros [[H|(p & [= H1 H2] & Hp)]|[H|(p & [= H1 H2] & Hp)]]; [by left; left| |by left; right|];
      apply Hsound in Hp as (? & ? & _); right; exists p.1.2; subst; done.
  - intros [[H|H]|(z & H1 & H2)]; [by left; left|by right; left|].
    destruct (decide ((x, y) ∈ d_arcs d)) as [|Hn1]; [by left; left|]. destruct (decide ((y, x) ∈ d_arcs d)) as [|Hn2]; [by right; left|].
    assert (vstruct (d_arcs d) x z y) as Hv by (unfold vstruct, adjacent; naive_solver).
    apply (vstructures_spec d o Hwf) in Hv as [[Hv _]|[Hv _]].
    + left. right. by exists (x, z, y).
    + right. right. by exists (y, z, x).
Qed.

Lemma moral_graph_nodes d (Hwf : wf d) o flip : u_nodes (moral_graph d o flip) = d_nodes d.
Proof.
  apply set_eq. intros x. unfold moral_graph.
  destruct (ug_make_ok o flip (d_nodes d) (d_arcs d ∪ set_map (λ t : node * node * node, (t.1.1, t.2)) (vstructures d o))) as (_ & _ & _ & ->).
  split; [|by left]. intros [|(y & _ & Hy)]; [done|]. pose proof (wf_over d Hwf) as Ho.
  assert (∀ a b, (a, b) ∈ d_arcs d ∪ set_map (λ t : node * node * node, (t.1.1, t.2)) (vstructures d o) → a ∈ d_nodes d ∧ b ∈ d_nodes d) as H.
  { intros a b. rewrite elem_of_union, elem_of_map. intros [H|([[u z] v] & [= -> ->] & Hp)]; [by apply Ho|].
    rewrite (vstructures_elem d o) in Hp. destruct Hp as (Hz & Hc & H1 & H2).
    apply combinations2_ne in Hc as (Hn & Hu & Hv); [|apply NoDup_on]. rewrite elem_of_on in Hu, Hv. rewrite !(wf_par _ Hwf) in *.
    apply Ho in Hu as []. apply Ho in Hv as []. done. }
  destruct Hy as [Hy|Hy]; by apply H in Hy as [].
Qed.

Lemma dsep_moral d (Hwf : wf d) (Hac : acyclic (d_arcs d)) o flip A B C : A ## C → B ## C →
  ∃ d', ancestral_subgraph d o (A ∪ B ∪ C) = Ok d' ∧
    (dsepd (d_arcs d) A B C ↔
     useparated (u_nodes (moral_graph d' o flip)) (λ x y, upair x y ∈ u_edges (moral_graph d' o flip)) A B C).
Proof.
  intros HAC HBC. destruct (ancestral_subgraph_spec d o Hwf Hac (A ∪ B ∪ C)) as (d' & -> & Hwf' & Hac' & HN & HE).
  exists d'. split; [done|]. rewrite dsepd_moral by done. unfold useparated. rewrite moral_graph_nodes by done.
  assert (∀ x, x ∈ d_nodes d' ↔ opened (d_arcs d) (A ∪ B ∪ C) x) as HN' by done.
  assert (∀ x y, madj (d_arcs d) A B C x y ∧ x ≠ y ↔
     upair x y ∈ u_edges (moral_graph d' o flip) ∧ x ∈ d_nodes d' ∧ y ∈ d_nodes d' ∧ x ∉ C ∧ y ∉ C) as Heq.
  { intros x y. rewrite moral_graph_edges by done. unfold madj, adjacent. rewrite !HE. setoid_rewrite HE. setoid_rewrite <-HN'. 
    pose proof (wf_over d' Hwf') as Ho. split.
    - intros [(Hx & Hy & HxC & HyC & [[H|H]|(z & Hz & H1 & H2)]) Hne]; naive_solver.
    - intros [[Hne [[H|H]|(z & H1 & H2)]] (Hx & Hy & HxC & HyC)]; naive_solver. }
  assert (∀ a b, rtc (madj (d_arcs d) A B C) a b ↔
    rtc (λ x y, upair x y ∈ u_edges (moral_graph d' o flip) ∧ x ∈ d_nodes d' ∧ y ∈ d_nodes d' ∧ x ∉ C ∧ y ∉ C) a b) as Hrtc.
  { intros a b. split; intros H; induction H as [a|a x b Hax _ IH]; [apply rtc_refl| |apply rtc_refl|].
    - destruct (decide (a = x)) as [->|]; [done|]. eapply rtc_l; [|done]. by apply Heq.
    - eapply rtc_l; [|done]. by apply Heq in Hax as []. }
  by setoid_rewrite Hrtc.
Qed.

(** ** Renaming *)
Section rename.
  Context (E E' : arcset) (f : node → node) (N : nset) (HE : over N E).
  Context (Hinj : ∀ x y, x ∈ N → y ∈ N → f x = f y → x = y).
  Context (HE' : ∀ b1 b2, (b1, b2) ∈ E' ↔ ∃ a1 a2, (a1, a2) ∈ E ∧ f a1 = b1 ∧ f a2 = b2).

  Lemma ren_edge x y : x ∈ N → y ∈ N → (f x, f y) ∈ E' ↔ (x, y) ∈ E.
  Proof.
    intros Hx Hy. rewrite HE'. split; [|by eauto]. intros (a1 & a2 & Ha & H1 & H2). destruct (HE _ _ Ha).
    by rewrite <-(Hinj a1 x), <-(Hinj a2 y).
  Qed.
  Lemma ren_rtc x y : x ∈ N → y ∈ N → rtc (edge E') (f x) (f y) ↔ rtc (edge E) x y.
  Proof.
    intros Hx Hy. split.
    - intros H. remember (f x) as b1 eqn:H1. remember (f y) as b2 eqn:H2. revert x Hx H1.
      induction H as [b|b1 b b2 Hb _ IH]; intros x Hx H1.
      + rewrite (Hinj x y); [apply rtc_refl|done|done|congruence].
      + apply HE' in Hb as (a1 & a2 & Ha & Ha1 & Ha2). destruct (HE _ _ Ha). rewrite <-(Hinj a1 x); [|done|done|congruence].
        eapply rtc_l; [exact Ha|]. apply IH; done.
    - intros H. clear Hx Hy. induction H as [x|x z y Hxz _ IH]; [apply rtc_refl|]. eapply rtc_l; [|exact IH]. apply HE'. by exists x, z.
  Qed.

  Context (A B C : nset) (HA : A ⊆ N) (HB : B ⊆ N) (HC : C ⊆ N).
  Notation img S := (set_map f S : nset).
  Lemma ren_opened x : x ∈ N → opened E' (img C) (f x) ↔ opened E C x.
  Proof.
    intros Hx. unfold opened. setoid_rewrite elem_of_map. split.
    - intros (c & (c' & -> & Hc') & Hr). exists c'. split; [done|]. apply ren_rtc; [done|by apply HC|done].
    - intros (c & Hc & Hr). exists (f c). split; [by exists c|]. apply ren_rtc; [done|by apply HC|done].
  Qed.
  Lemma ren_in S x : S ⊆ N → x ∈ N → f x ∈ img S ↔ x ∈ S.
  Proof.
    intros HS Hx. rewrite elem_of_map. split; [|by eauto]. intros (y & Hy & HyS). by rewrite (Hinj x y); [|done|apply HS|].
  Qed.
  Lemma ren_step x dir t : x ∈ N → bstep E' (img C) (f x, dir) t ↔ ∃ y, y ∈ N ∧ t = (f y, t.2) ∧ bstep E C (x, dir) (y, t.2).
  Proof.
    intros Hx. destruct t as [w dir']. cbn [snd].
    assert ((if dir' then (w, f x) ∈ E' else (f x, w) ∈ E') ↔ ∃ y, y ∈ N ∧ w = f y ∧ (if dir' then (y, x) ∈ E else (x, y) ∈ E)) as Hw.
    { destruct dir'; rewrite HE'; split.
      - intros (a1 & a2 & Ha & <- & H2). destruct (HE _ _ Ha). exists a1. rewrite <-(Hinj a2 x); done.
      - intros (y & Hy & -> & Hyx). by exists y, x.
      - intros (a1 & a2 & Ha & H1 & <-). destruct (HE _ _ Ha). exists a2. rewrite <-(Hinj a1 x); done.
      - intros (y & Hy & -> & Hyx). by exists x, y. }
    unfold bstep. destruct dir'; [destruct dir|]; rewrite Hw; rewrite ?ren_opened, ?(ren_in C x HC Hx) by done; naive_solver.
  Qed.
  Lemma ren_reach s : reach E' (img C) (img A) s ↔ ∃ x, x ∈ N ∧ s.1 = f x ∧ reach E C A (x, s.2).
  Proof.
    split.
    - revert s. apply reach_ind.
      + intros a (a' & -> & Ha)%elem_of_map. exists a'. split; [by apply HA|]. split; [done|]. by apply reach_start.
      + intros [v dir] t _ (x & Hx & Heq & Hr) Hst. cbn in Heq, Hr. subst v. apply ren_step in Hst as (y & Hy & Ht & Hst); [|done].
        exists y. split; [done|]. split; [by rewrite Ht|]. by eapply reach_step.
    - destruct s as [w dir]. cbn. intros (x & Hx & -> & Hr).
      assert (∀ s, reach E C A s → s.1 ∈ N ∧ reach E' (img C) (img A) (f s.1, s.2)) as H; [|by apply H in Hr as [_ ?]].
      clear x Hx Hr dir. apply reach_ind.
      + intros a Ha. split; [by apply HA|]. apply reach_start. apply elem_of_map. by exists a.
      + intros [x dir] [y dir'] _ [Hx IH] Hst. cbn in *.
        assert (y ∈ N) as Hy. { destruct dir'; destruct Hst as [Hst _]; by apply HE in Hst as []. }
        split; [done|]. eapply reach_step; [exact IH|]. apply ren_step; [done|]. by exists y.
  Qed.
  Lemma ren_dsepd : acyclic E → acyclic E' → A ## C → dsepd E' (img A) (img B) (img C) ↔ dsepd E A B C.
  Proof.
    intros Hac Hac' HAC. rewrite !dsepd_reach; [|done|done|done|].
    - setoid_rewrite ren_reach. setoid_rewrite elem_of_map. cbn. split.
      + intros H x dir Hx Hr. apply (H (f x) dir); [by eauto|]. exists x. split; [by apply HB|done].
      + intros H b dir (x & -> & Hx) (x' & Hx' & Heq & Hr). apply Hinj in Heq; [|by apply HB|done]. subst. by eapply H.
    - intros b. rewrite !elem_of_map. intros (a & -> & Ha) (c & Heq & Hc). apply Hinj in Heq; [|by apply HA|by apply HC]. subst. set_solver.
  Qed.
End rename.
