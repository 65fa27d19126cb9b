(** The arcs that [residual_essential_graph] takes as directed. *)
From Verif Require Import Py Spec DagModel StateProofs DctModel SpecDct DctUf DctGraph DctTree DctProofs DctResid DctRegModel.

Section reg.
  Context (A : arcset) (ct : list cedge) (cl : list nset) (h : nset → nat) (ord : list (list nset) → list (list nset)).
  Context (Hct : ∀ X Y, (X, Y) ∈ ct → X ∈ cl ∧ Y ∈ cl) (Hh : heights ct h).
  Context (Hord : ∀ l, ord l ≡ₚ l).
  Notation comp := (comp_of ct cl).
  Notation g := (contracted ct cl).
  Context (Huniq : ∀ a b c, (a, c) ∈ g.2 → (b, c) ∈ g.2 → a = b).

  Lemma elem_of_parent_nodes c x : x ∈ parent_nodes ord g c ↔ ∃ p X, (p, c) ∈ g.2 ∧ X ∈ p ∧ x ∈ X.
  Proof using Hord Huniq.
    unfold parent_nodes. destruct (ord (parents_in g c)) as [|b l] eqn:E.
    - split; [by intros ?%elem_of_empty|]. intros (p & X & Hp & _). apply elem_of_parents in Hp. rewrite <-(Hord (parents_in g c)), E in Hp. by apply elem_of_nil in Hp.
    - assert ((b, c) ∈ g.2) as Hb by (apply elem_of_parents; rewrite <-(Hord (parents_in g c)), E; by left).
      rewrite elem_of_union_list. split.
      + intros (X & HX & Hx). by exists b, X.
      + intros (p & X & Hp & HX & Hx). exists X. by rewrite (Huniq b p c).
  Qed.
  Lemma elem_of_reg x y : (x, y) ∈ reg_arcs ord g ↔
    ∃ c p, c ∈ g.1 ∧ (p, c) ∈ g.2 ∧ (∃ X, X ∈ p ∧ x ∈ X) ∧ (∃ X, X ∈ c ∧ x ∈ X) ∧ y ∈ residual ord g c.
  Proof using Hord Huniq.
    unfold reg_arcs. rewrite elem_of_list_to_set. rewrite elem_of_list_bind. split.
    - intros (c & H & Hc). apply elem_of_list_bind in H as (x' & H & Hx). apply elem_of_list_bind in H as (y' & H & Hy). apply elem_of_list_singleton in H as [= <- <-].
      apply elem_of_elements in Hx, Hy. apply elem_of_intersection in Hx as [Hx1 Hx2]. apply elem_of_parent_nodes in Hx1 as (p & X & Hp & HX & Hx). apply elem_of_union_list in Hx2.
      exists c, p. split_and!; try done. by exists X.
    - intros (c & p & Hc & Hp & (X & HX & Hx) & Hx2 & Hy). exists c. split; [|done]. apply elem_of_list_bind. exists x. split.
      + apply elem_of_list_bind. exists y. split; [by left|by apply elem_of_elements].
      + apply elem_of_elements, elem_of_intersection. split; [apply elem_of_parent_nodes; by exists p, X|by apply elem_of_union_list].
  Qed.

  (** ** Two components are linked by one edge *)
  Context (Hforest : forest ct).
  Lemma unique_link U V U' V' : (U, V) ∈ ct → (U', V') ∈ ct → comp U = comp U' → comp V = comp V' → comp U ≠ comp V → U = U' ∧ V = V'.
  Proof using Hct Hforest.
    intros H H' E1 E2 Hne. destruct (decide ((U', V') = (U, V))) as [[= -> ->]|Hn]; [done|]. exfalso.
    destruct (Hct _ _ H) as [HU HV], (Hct _ _ H') as [HU' HV'].
    assert ((V, U) ∉ ct) as HVU.
    { intros Hb. apply Hne. apply comp_eq; [done|]. apply rtsc_symm, rtsc_rl. by split. }
    assert (∀ Y Z, rtsc (bid_rel ct) Y Z → rtc (λ Y Z, linked ct Y Z ∧ (Y, Z) ≠ (U, V) ∧ (Y, Z) ≠ (V, U)) Y Z) as Hb.
    { intros Y Z HYZ. eapply rtc_congruence with (f := λ x, x); [|exact HYZ]. intros a b [[H1 H2]|[H1 H2]]; (split; [first [by left|by right]|]);
      split; intros [= -> ->]; done. }
    destruct (Hforest U V H) as [_ Hf]. apply Hf. transitivity U'; [apply Hb; by apply (comp_eq ct cl U U' HU)|]. eapply rtc_l; [|apply Hb; apply (comp_eq ct cl V' V HV'); by symmetry].
    split; [by left|]. split; [done|]. intros [= -> ->]. done.
  Qed.

  (** ** The common nodes of the cliques of a tree *)
  Context (Hconn : ∀ v X Y, X ∈ cl → Y ∈ cl → v ∈ X → v ∈ Y → connected_over ct {[v]} X Y).
  Context (Hpoint : ∀ X Y, (X, Y) ∈ ct → points_to A X Y).

  (** A node of the parent comes before the nodes of the residual it is in a common clique with. *)
  Lemma parent_before p c x y C P : c ∈ g.1 → (p, c) ∈ g.2 → y ∈ residual ord g c → P ∈ p → x ∈ P → C ∈ cl → x ∈ C → y ∈ C → (x, y) ∈ A.
  Proof using All.
    intros Hc Hpc Hy HP HxP HC HxC HyC.
    pose proof (residual_parents ct cl ord y c Hord Huniq Hy) as Hpar. pose proof (residual_above ct cl h Hct Hh ord y c) as Habove.
    assert (∃ U, U ∈ cl ∧ p = comp U) as (U & HU & Ep). { apply elem_of_arcs in Hpc as (_ & U & V & HUV & -> & _). exists U. split; [|done]. by apply Hct in HUV as [? _]. }
    assert (P ∈ cl ∧ comp P = p) as [HPc EP]. { rewrite Ep in HP |- *. apply elem_of_comp in HP as [HPc HP]. split; [done|]. by apply comp_eq. }
    destruct (decide ((x, y) ∈ A)) as [|Hn]; [done|exfalso].
    set (Inv := λ Z, Z ∈ cl ∧ y ∉ Z ∧ ∀ V W, (V, W) ∈ ct → comp V ≠ comp W → rtc (λ a b, (a, b) ∈ g.2) (comp W) (comp Z) → ¬ rtc (λ a b, (a, b) ∈ g.2) (comp W) p → y ∉ V).
    assert (∀ Z, connected_over ct {[x]} P Z → Inv Z) as HI; [|by apply (HI C); [apply Hconn|]].
    unfold connected_over. apply (rtc_ind_r Inv P).
    - split; [done|]. split; [by apply (Hpar p)|]. intros V W _ _ H1 H2. rewrite EP in H1. by destruct H2.
    - intros Z W _ (HZW & HxZ & HxW) (HZ & HyZ & HI).
      assert (W ∈ cl) as HW by (destruct HZW as [H|H]; apply Hct in H; tauto). split; [done|].
      assert (x ∈ Z ∧ x ∈ W) as [HxZ' HxW'] by (clear -HxZ HxW; set_solver).
      assert (y ∉ W) as HyW.
      { intros HyW. destruct HZW as [H|H]; [by apply Hn, (Hpoint Z W H)|].
        destruct (decide (comp W = comp Z)) as [E|Hne].
        - apply comp_eq in E; [|done]. apply (same_height ct h Hh) in E. destruct (decide ((Z, W) ∈ ct)) as [H'|H']; [by apply Hn, (Hpoint Z W H')|].
          destruct (Hh W Z H) as [_ H2]. apply H2 in H'. lia.
        - apply (HI W Z H Hne); [done| |done]. intros Hanc. apply (arcs_acyclic ct cl h Hct Hh c).
          assert (rtc (λ a b, (a, b) ∈ g.2) c (comp W)) as HcW.
          { eapply rtc_congruence with (f := λ a, a); [|apply (Habove W Hord Huniq (Hconn y) Hc Hy HW HyW)]. by intros a b [? _]. }
          eapply tc_rtc_r; [|exact (rtc_once (R := λ a b, (a, b) ∈ g.2) p c Hpc)]. eapply tc_rtc_r; [|exact Hanc]. eapply tc_rtc_l; [exact HcW|].
          apply tc_once, elem_of_arcs. split; [done|]. by exists W, Z. }
      split; [done|]. intros V W' HVW Hne Hr Hna. destruct (decide (comp Z = comp W)) as [E|HZWne]; [rewrite <-E in Hr; by apply (HI V W')|].
      destruct HZW as [H|H].
      + apply rtc_inv_r in Hr as [E|(b & Hb & Hb')].
        * assert (comp Z = comp V) as E2. { apply (Huniq _ _ (comp W)); apply elem_of_arcs; [split; [done|by exists Z, W]|]. split; [by rewrite <-E|]. by exists V, W'. }
          destruct (unique_link Z W V W') as [-> ->]; done.
        * assert (b = comp Z) as ->. { apply (Huniq _ _ (comp W)); [done|]. apply elem_of_arcs. split; [done|]. by exists Z, W. } by apply (HI V W').
      + apply (HI V W'); [done|done| |done]. eapply rtc_r; [exact Hr|]. apply elem_of_arcs. split; [done|]. by exists W, Z.
  Qed.

  Lemma chains x y a b z : rtc (down ct cl x) a z → rtc (down ct cl y) b z →
    (rtc (down ct cl x) a b ∧ rtc (down ct cl x) b z) ∨ (rtc (down ct cl y) b a ∧ rtc (down ct cl y) a z).
  Proof using Huniq.
    intros Ha Hb. revert z Hb Ha. apply (rtc_ind_r (λ z, rtc (down ct cl x) a z → (rtc (down ct cl x) a b ∧ rtc (down ct cl x) b z) ∨ (rtc (down ct cl y) b a ∧ rtc (down ct cl y) a z)) b).
    - intros Ha. left. by split.
    - intros z z' Hbz Hzz IH Ha. apply rtc_inv_r in Ha as [->|(w & Haw & Hw)].
      + right. split; [by eapply rtc_r|done].
      + assert (w = z) as -> by (destruct Hw as [Hw _], Hzz as [Hz _]; by apply (Huniq _ _ z')).
        destruct (IH Haw) as [[H1 H2]|[H1 H2]]; [left|right]; (split; [done|]); by eapply rtc_r.
  Qed.
  (** A link over a node of the residual of a component that is above [c]. *)
  Lemma above_reg x y a c C : c ∈ g.1 → rtc (down ct cl x) a c → rtc (down ct cl x) c (comp C) → C ∈ cl → x ∈ C → a ≠ c → y ∈ residual ord g c →
    (x, y) ∈ reg_arcs ord g ∧ ∃ p P, (p, c) ∈ g.2 ∧ P ∈ p ∧ x ∈ P.
  Proof using Hord Huniq.
    intros Hc H1 H2 HC HxC Hne Hy. apply rtc_inv_r in H1 as [->|(p & _ & Hp & X & HX & HxX)]; [done|].
    split; [|by exists p, X]. apply elem_of_reg. exists c, p. split_and!; try done; [by exists X|].
    destruct (rtc_inv _ _ H2) as [->|(q & [_ Hq] & _)]; [|done]. exists C. split; [|done]. apply elem_of_comp. split; [done|]. reflexivity.
  Qed.
  Lemma reg_spec x y C cx cy : cx ∈ g.1 → cy ∈ g.1 → x ∈ residual ord g cx → y ∈ residual ord g cy → C ∈ cl → x ∈ C → y ∈ C →
    (cx = cy → (x, y) ∉ reg_arcs ord g) ∧ (cx ≠ cy → ((x, y) ∈ reg_arcs ord g ∧ (x, y) ∈ A) ∨ ((y, x) ∈ reg_arcs ord g ∧ (y, x) ∈ A)).
  Proof using All.
    intros Hcx Hcy Hx Hy HC HxC HyC. split.
    - intros <- (c & p & Hc & Hp & (X & HX & HxX) & _ & Hy')%elem_of_reg.
      assert (c = cx) as -> by (apply (residual_disjoint ct cl h Hct Hh ord y); [done|done|apply Hconn|done..]).
      by apply (residual_parents ct cl ord x cx Hord Huniq Hx p Hp X).
    - intros Hne. destruct (chains x y cx cy (comp C)) as [[H1 H2]|[H1 H2]].
      + by apply (residual_above ct cl h Hct Hh ord x cx C Hord Huniq (Hconn x)).
      + by apply (residual_above ct cl h Hct Hh ord y cy C Hord Huniq (Hconn y)).
      + left. destruct (above_reg x y cx cy C) as [H (p & P & Hp & HP & HxP)]; try done. split; [done|]. by apply (parent_before p cy x y C P).
      + right. destruct (above_reg y x cy cx C) as [H (p & P & Hp & HP & HxP)]; try done. split; [done|]. by apply (parent_before p cx y x C P).
  Qed.
End reg.
