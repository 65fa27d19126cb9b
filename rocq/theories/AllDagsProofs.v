(** [PDAG.all_dags]: soundness, termination, and completeness when any two
    undirected edges share a node. *)
From Verif Require Import Py Spec SpecDsep SpecMec SpecEnum DagModel UGraphModel PdagModel EnumModel TopoProofs StateProofs
  QueryProofs UGraphProofs MarkovProofs PdagProofs ProtProofs EquivProofs ToDagProofs.

Lemma turn_flip A i j : turn A (i, j) = flip_arc A i j.
Proof.
  apply set_eq. intros [u v]. unfold turn. rewrite elem_of_flip, elem_of_union, elem_of_filter, elem_of_singleton. cbn. naive_solver.
Qed.

Lemma elem_of_marks (f : node → bool) (h : node → arc) l R a : (∀ k k', h k = h k' → k = k') →
  a ∈ foldl (λ R k, mark (f k) (h k) R) R l ↔ (∃ k, k ∈ l ∧ a = h k ∧ f k = true) ∨ (a ∈ R ∧ ∀ k, k ∈ l → a ≠ h k).
Proof.
  intros Hinj. revert R. induction l as [|k l IH]; intros R; cbn.
  { split; [|naive_solver set_solver]. intros H. right. split; [done|]. intros k Hk. by apply elem_of_nil in Hk. }
  rewrite IH. clear IH. setoid_rewrite elem_of_cons. unfold mark. split.
  - intros [(k' & ? & -> & ?)|[H1 H2]]; [left; exists k'; auto|].
    destruct (f k) eqn:Hf.
    + apply elem_of_union in H1 as [->%elem_of_singleton|H1]; [left; exists k; auto|].
      destruct (decide (a = h k)) as [->|]; [left; exists k; auto|]. right. split; [done|]. intros k' [->|?]; [done|by apply H2].
    + apply elem_of_difference in H1 as [H1 Hn]. rewrite elem_of_singleton in Hn. right. split; [done|].
      intros k' [->|?]; [done|by apply H2].
  - intros [(k' & [->|Hk'] & -> & Hf)|[H1 H2]].
    + destruct (decide (k ∈ l)) as [Hin|Hin]; [left; by exists k|]. right. split.
      * rewrite Hf. set_solver.
      * intros k' Hk' Heq. apply Hinj in Heq. by subst.
    + left. by exists k'.
    + right. split; [|auto]. destruct (f k); [set_solver|]. apply elem_of_difference. split; [done|].
      rewrite elem_of_singleton. auto.
Qed.

Ltac vsolve := repeat match goal with H : ?T |- _ => lazymatch T with _ ≠ _ => fail | (_, _) ∈ _ => fail | (_, _) ∉ _ => fail | _ => clear H end end; naive_solver.

Section enum.
  Context (g : pdag) (Hg : pok g) (o : oracle).

  (** The views of an entry agree with its arcs and its reversible arcs are covered. *)
  Record sok (s : small) : Prop := Sok {
    sok_ext : pext g (s_arcs s);
    sok_par : ∀ x y, x ∈ dget (s_par s) y ↔ (x, y) ∈ s_arcs s;
    sok_chi : ∀ x y, y ∈ dget (s_chi s) x ↔ (x, y) ∈ s_arcs s;
    sok_rev : ∀ x y, (x, y) ∈ s_rev s → covered (s_arcs s) x y ∧ (x, y) ∉ p_arcs g
  }.

  Lemma pext_flip A i j : pext g A → covered A i j → (i, j) ∉ p_arcs g → pext g (flip_arc A i j).
  Proof.
    intros (Hac & Hsub & Hadj & Hvs) Hc Hn. assert (equivalent A (flip_arc A i j)) as [He1 He2] by by apply flip_equivalent.
    split_and!.
    - by apply flip_acyclic.
    - intros [u v] Huv. apply elem_of_flip. right. split; [by apply Hsub|]. by intros [-> ->].
    - intros x y. by rewrite <-(He1 x y).
    - intros x z y. rewrite <-(He2 x z y), <-(He1 x y). apply Hvs.
  Qed.

  Lemma turn_small_views s i j : sok s → (i, j) ∈ s_rev s → let s' := turn_small g o s (i, j) in
    s_arcs s' = flip_arc (s_arcs s) i j ∧
    (∀ x y, x ∈ dget (s_par s') y ↔ (x, y) ∈ s_arcs s') ∧ (∀ x y, y ∈ dget (s_chi s') x ↔ (x, y) ∈ s_arcs s').
  Proof.
    intros [Hext Hp Hc Hr] Hij s'. destruct (Hr _ _ Hij) as [Hcov _]. destruct Hext as (Hac & _).
    assert (i ≠ j) as Hne by by eapply covered_ne. pose proof Hcov as [HA _].
    assert ((j, i) ∉ s_arcs s) as Hji by by apply acyclic_asym.
    assert (s_arcs s' = flip_arc (s_arcs s) i j) as Hs' by apply turn_flip. split; [done|]. rewrite Hs'.
    cbn [turn_small s_par s_chi s']. split; intros x y; rewrite elem_of_flip.
    - unfold dget at 1. destruct (decide (i = y)) as [<-|H1].
      + rewrite lookup_insert. cbn. rewrite elem_of_union, elem_of_singleton, Hp. vsolve.
      + rewrite lookup_insert_ne by done. destruct (decide (j = y)) as [<-|H2].
        * rewrite lookup_insert. cbn. rewrite elem_of_difference, elem_of_singleton, Hp. vsolve.
        * rewrite lookup_insert_ne by done. fold (dget (s_par s) y). rewrite Hp. vsolve.
    - unfold dget at 1. destruct (decide (i = x)) as [<-|H1].
      + rewrite lookup_insert. cbn. rewrite elem_of_difference, elem_of_singleton, Hc. vsolve.
      + rewrite lookup_insert_ne by done. destruct (decide (j = x)) as [<-|H2].
        * rewrite lookup_insert. cbn. rewrite elem_of_union, elem_of_singleton, Hc. vsolve.
        * rewrite lookup_insert_ne by done. fold (dget (s_chi s) x). rewrite Hc. vsolve.
  Qed.

  Lemma turn_small_rev s i j a b : sok s → (i, j) ∈ s_rev s → let s' := turn_small g o s (i, j) in
    (a, b) ∈ s_rev s' ↔
      if decide ((a, b) ∈ s_arcs s ∧ (a = i ∨ a = j ∨ b = i ∨ b = j))
      then covered (s_arcs s') a b ∧ (a, b) ∉ p_arcs g
      else (a, b) ∈ s_rev s.
  Proof.
    intros Hs Hij s'. destruct (turn_small_views s i j Hs Hij) as (HA & HP & HC). fold s' in HA, HP, HC.
    pose proof Hs as [Hext Hp Hc Hr]. destruct (Hr _ _ Hij) as [Hcov _]. destruct Hext as (Hac & _).
    assert (i ≠ j) as Hne by by eapply covered_ne. pose proof Hcov as [Hin _].
    assert (acyclic (s_arcs s')) as Hac' by (rewrite HA; by apply flip_acyclic).
    set (P' := s_par s') in *.
    assert (∀ x y, covered (s_arcs s') x y ↔ (x, y) ∈ s_arcs s' ∧ dget P' y ∖ {[x]} = dget P' x) as Hcv.
    { intros x y. unfold covered. apply and_iff_compat_l. split.
      - intros H. apply set_eq. intros z. rewrite elem_of_difference, elem_of_singleton, !HP. by rewrite H.
      - intros H z. rewrite <-!HP, <-H. by rewrite elem_of_difference, elem_of_singleton. }
    assert (dget P' j ∖ {[i]} = dget P' i → False) as Hno.
    { intros H. assert (j ∈ dget P' i) as Hj by (rewrite HP, HA; apply elem_of_flip; by left). rewrite <-H in Hj.
      apply elem_of_difference in Hj as [Hj _]. apply HP in Hj. by apply (acyclic_irr _ j Hac'). }
    match goal with |- _ ↔ ?R => set (W := R) end.
    unfold s'. cbn [turn_small s_rev].
    change (<[i:=dget (s_par s) i ∪ {[j]}]> (<[j:=dget (s_par s) j ∖ {[i]}]> (s_par s))) with P'.
    rewrite !elem_of_marks by (intros ? ?; congruence).
    clearbody P' s'. pose (Q := dget P' b ∖ {[a]} = dget P' a ∧ (a, b) ∉ p_arcs g).
    set (A := s_arcs s) in *.
    assert ((a, b) ∈ A → Q → (a, b) ∈ s_arcs s') as HQ.
    { intros Hab [HQ _]. rewrite HA. apply elem_of_flip. right. split; [done|]. intros [-> ->]. by apply Hno. }
    assert (covered (s_arcs s') a b ∧ (a, b) ∉ p_arcs g ↔ (a, b) ∈ s_arcs s' ∧ Q) as Hcq by (rewrite Hcv; unfold Q; tauto).
    assert ((a, b) ∈ A → (a, b) ∈ s_arcs s' → (a, b) ≠ (i, j)) as Hnij.
    { intros _ Hab [= -> ->]. rewrite HA in Hab. apply elem_of_flip in Hab as [[? ?]|[_ Hx]]; [done|by apply Hx]. }
    assert (∀ f X k1, (∀ k, f k = true ↔ dget P' j ∖ {[k]} = dget P' k ∧ (k, j) ∉ p_arcs g) → (∀ k, k ∈ X ↔ (k, j) ∈ A) →
      (∃ k, k ∈ on o k1 X ∧ (a, b) = (k, j) ∧ f k = true) ↔ b = j ∧ (a, b) ∈ A ∧ Q) as E1.
    { intros f X k1 Hf HX. setoid_rewrite elem_of_on. setoid_rewrite Hf. setoid_rewrite HX. unfold Q. clear. naive_solver. }
    assert (∀ f X k1, (∀ k, f k = true ↔ dget P' j = dget P' k ∖ {[j]} ∧ (j, k) ∉ p_arcs g) → (∀ k, k ∈ X ↔ (j, k) ∈ A) →
      (∃ k, k ∈ on o k1 X ∧ (a, b) = (j, k) ∧ f k = true) ↔ a = j ∧ (a, b) ∈ A ∧ Q) as E2.
    { intros f X k1 Hf HX. setoid_rewrite elem_of_on. setoid_rewrite Hf. setoid_rewrite HX. unfold Q. clear. naive_solver. }
    assert (∀ f X k1, (∀ k, f k = true ↔ dget P' i ∖ {[k]} = dget P' k ∧ (k, i) ∉ p_arcs g) → (∀ k, k ∈ X ↔ (k, i) ∈ A) →
      (∃ k, k ∈ on o k1 X ∧ (a, b) = (k, i) ∧ f k = true) ↔ b = i ∧ (a, b) ∈ A ∧ Q) as E3.
    { intros f X k1 Hf HX. setoid_rewrite elem_of_on. setoid_rewrite Hf. setoid_rewrite HX. unfold Q. clear. naive_solver. }
    assert (∀ f X k1, (∀ k, f k = true ↔ dget P' i = dget P' k ∖ {[i]} ∧ (i, k) ∉ p_arcs g) → (∀ k, k ∈ X ↔ (i, k) ∈ A) →
      (∃ k, k ∈ on o k1 X ∧ (a, b) = (i, k) ∧ f k = true) ↔ a = i ∧ (a, b) ∈ A ∧ Q) as E4.
    { intros f X k1 Hf HX. setoid_rewrite elem_of_on. setoid_rewrite Hf. setoid_rewrite HX. unfold Q. clear. naive_solver. }
    assert (∀ X k1 n, (∀ k, k ∈ X ↔ (n, k) ∈ A) → (∀ k, k ∈ on o k1 X → (a, b) ≠ (n, k)) ↔ ¬ (a = n ∧ (a, b) ∈ A)) as N1.
    { intros X k1 n HX. setoid_rewrite elem_of_on. setoid_rewrite HX. unfold Q. clear. naive_solver. }
    assert (∀ X k1 n, (∀ k, k ∈ X ↔ (k, n) ∈ A) → (∀ k, k ∈ on o k1 X → (a, b) ≠ (k, n)) ↔ ¬ (b = n ∧ (a, b) ∈ A)) as N2.
    { intros X k1 n HX. setoid_rewrite elem_of_on. setoid_rewrite HX. unfold Q. clear. naive_solver. }
    rewrite (E1 _ _ [53]), (E2 _ _ [54]), (E3 _ _ [55]), (E4 _ _ [56]), !N1, !N2;
      try (intros; apply bool_decide_eq_true); try (intros; first [apply Hp|apply Hc]).
    clear E1 E2 E3 E4 N1 N2. unfold W. clear W. case_decide as Hd.
    - destruct Hd as [Hd1 Hd2]. rewrite Hcq. clear -HQ Hd1 Hd2. clearbody Q A. destruct (decide (a = i)), (decide (b = i)), (decide (a = j)); tauto.
    - clear -Hd. tauto.
  Qed.

  Lemma turn_small_ok s i j : sok s → (i, j) ∈ s_rev s → sok (turn_small g o s (i, j)).
  Proof.
    intros Hs Hij. destruct (turn_small_views s i j Hs Hij) as (HA & HP & HC). pose proof Hs as [Hext Hp Hc Hr].
    pose proof (Hr _ _ Hij) as [Hcov Hn]. pose proof Hext as (Hac & _).
    constructor; [|done|done|].
    { rewrite HA. by apply pext_flip. }
    intros a b Hab. apply turn_small_rev in Hab; [|done|done]. case_decide as Hd; [done|].
    pose proof (Hr _ _ Hab) as [[Hin Hcv] ?]. split; [|done]. rewrite HA.
    assert (a ≠ i ∧ a ≠ j ∧ b ≠ i ∧ b ≠ j) as (? & ? & ? & ?) by tauto.
    split; [apply elem_of_flip; tauto|]. intros z. rewrite !elem_of_flip, Hcv. tauto.
  Qed.

  (** What an entry offers: every covered arc is reversible in it or leads to a graph already seen. *)
  Definition offers (seen : gset arcset) (s : small) : Prop :=
    ∀ x y, covered (s_arcs s) x y → (x, y) ∉ p_arcs g → (x, y) ∈ s_rev s ∨ flip_arc (s_arcs s) x y ∈ seen.

  (** Any two arcs reversed one after the other share a node. *)
  Definition hub : Prop := ∀ A i j a b, pext g A → covered A i j → (i, j) ∉ p_arcs g →
    covered (flip_arc A i j) a b → (a, b) ∉ p_arcs g → a = i ∨ a = j ∨ b = i ∨ b = j.

  Lemma turn_small_offers (s : small) (i j : node) (seen : gset arcset) : hub → sok s → (i, j) ∈ s_rev s → s_arcs s ∈ seen →
    offers seen (turn_small g o s (i, j)).
  Proof.
    intros Hhub Hs Hij Hseen x y Hxy Hn. destruct (turn_small_views s i j Hs Hij) as (HA & _ & _).
    pose proof Hs as [Hext Hp Hc Hr]. pose proof (Hr _ _ Hij) as [Hcov Hnij]. pose proof Hext as (Hac & _).
    assert (x = i ∨ x = j ∨ y = i ∨ y = j) as Hd.
    { rewrite HA in Hxy. by apply (Hhub (s_arcs s) i j x y). }
    destruct (decide ((x, y) = (j, i))) as [[= -> ->]|Hne].
    - right. rewrite HA. rewrite flip_back; [done|..].
      + by destruct Hcov.
      + by eapply covered_ne.
      + by apply acyclic_asym; [|destruct Hcov].
    - left. apply turn_small_rev; [done|done|]. rewrite decide_True; [done|]. split; [|done].
      destruct Hxy as [Hxy _]. rewrite HA in Hxy. apply elem_of_flip in Hxy as [[-> ->]|[? _]]; done.
  Qed.

  Definition pushes (s : small) (seen : gset arcset) (q : list small) (l : list arc) : list small :=
    foldl (λ q a, if decide (turn (s_arcs s) a ∈ seen) then q else turn_small g o s a :: q) q l.

  Lemma elem_of_pushes s seen q l x : x ∈ pushes s seen q l ↔
    x ∈ q ∨ ∃ a, a ∈ l ∧ turn (s_arcs s) a ∉ seen ∧ x = turn_small g o s a.
  Proof.
    unfold pushes. revert q. induction l as [|a l IH]; intros q; cbn [foldl].
    { setoid_rewrite elem_of_nil. naive_solver. }
    rewrite IH. setoid_rewrite elem_of_cons. case_decide as Hd; [naive_solver|]. rewrite elem_of_cons. naive_solver.
  Qed.

  Lemma turn_small_arcs s a : s_arcs (turn_small g o s a) = turn (s_arcs s) a.
  Proof. by destruct a. Qed.

  Lemma pushes_top s seen q l :
    pushes s seen q l = q ∨ ∃ s' q', pushes s seen q l = s' :: q' ∧ s_arcs s' ∉ seen.
  Proof.
    unfold pushes. revert q. induction l as [|a l IH]; intros q; cbn [foldl]; [by left|]. case_decide as Hd; [apply IH|].
    right. destruct (IH (turn_small g o s a :: q)) as [H|H]; [|done].
    exists (turn_small g o s a), q. split; [exact H|]. by rewrite turn_small_arcs.
  Qed.

  Definition closed (R : gset arcset) (Q : arcset → Prop) : Prop :=
    ∀ X x y, X ∈ R → covered X x y → (x, y) ∉ p_arcs g → flip_arc X x y ∈ R ∨ Q (flip_arc X x y).

  Record inv (seen : gset arcset) (q : list small) : Prop := Inv {
    inv_sok : ∀ s, s ∈ q → sok s;
    inv_seen : ∀ X, X ∈ seen → pext g X;
    inv_hub : hub → (∀ s, s ∈ q → offers seen s) ∧ closed seen (λ X, ∃ s, s ∈ q ∧ s_arcs s = X)
  }.

  Lemma inv_step seen s q l : (∀ a, a ∈ l ↔ a ∈ s_rev s) → inv seen (s :: q) →
    inv ({[s_arcs s]} ∪ seen) (pushes s ({[s_arcs s]} ∪ seen) q l).
  Proof.
    intros Hl [H1 H2 H3]. assert (sok s) as Hs by (apply H1; left). set (seen' := {[s_arcs s]} ∪ seen). constructor.
    - intros x. rewrite elem_of_pushes. intros [Hx|([i j] & Ha & _ & ->)]; [apply H1; by right|].
      apply turn_small_ok; [done|by apply Hl].
    - intros X. unfold seen'. rewrite elem_of_union, elem_of_singleton. intros [->|?]; [apply Hs|by apply H2].
    - intros Hhub. destruct (H3 Hhub) as [Hoff Hcl]. split.
      + intros x. rewrite elem_of_pushes. intros [Hx|([i j] & Ha & _ & ->)].
        * intros u v Huv Hn. destruct (Hoff x (elem_of_list_further x s q Hx) u v Huv Hn) as [?|?]; [by left|right].
          unfold seen'. apply elem_of_union. by right.
        * apply turn_small_offers; [done|done|by apply Hl|]. unfold seen'. apply elem_of_union. left. by apply elem_of_singleton.
      + intros X u v HX Huv Hn. unfold seen' in HX. apply elem_of_union in HX as [->%elem_of_singleton|HX].
        * destruct (Hoff s (elem_of_list_here s q) u v Huv Hn) as [Hr|Hr].
          -- rewrite <-turn_flip. destruct (decide (turn (s_arcs s) (u, v) ∈ seen')) as [|Hnew]; [by left|]. right.
             exists (turn_small g o s (u, v)). rewrite elem_of_pushes. split; [|by rewrite turn_small_arcs].
             right. exists (u, v). split; [by apply Hl|done].
          -- left. unfold seen'. apply elem_of_union. by right.
        * destruct (Hcl X u v HX Huv Hn) as [?|(x & Hx & Hax)]; [left; unfold seen'; apply elem_of_union; by right|].
          apply elem_of_cons in Hx as [->|Hx].
          -- left. unfold seen'. rewrite <-Hax. apply elem_of_union. left. by apply elem_of_singleton.
          -- right. exists x. rewrite elem_of_pushes. split; [by left|done].
  Qed.

  Definition answer (t : nat) (q : list small) (seen : gset arcset) : Prop :=
    ∃ n R, (∀ fuel, n ≤ fuel → all_dags_loop g o fuel t q seen = Ok R) ∧ seen ⊆ R ∧ (∀ s, s ∈ q → s_arcs s ∈ R) ∧
      (∀ X, X ∈ R → pext g X) ∧ (hub → closed R (λ _, False)).

  Lemma answer_step t s q seen :
    answer (S t) (pushes s ({[s_arcs s]} ∪ seen) q (oa o [52; t] (s_rev s))) ({[s_arcs s]} ∪ seen) → answer t (s :: q) seen.
  Proof.
    intros (n & R & HR & Hsub & Hq & Hgood & Hcl). exists (S n), R. split_and!; [|clear -Hsub; set_solver| |done|done].
    - intros [|fuel] Hf; [lia|]. cbn [all_dags_loop]. apply HR. lia.
    - intros x [->|Hx]%elem_of_cons; [apply Hsub; set_solver|]. apply Hq. apply elem_of_pushes. by left.
  Qed.

  (** All orientations of the skeleton, as a finite set. *)
  Fixpoint subsets (l : list arc) : gset arcset :=
    match l with
    | [] => {[∅]}
    | a :: l' => subsets l' ∪ set_map (λ X : arcset, {[a]} ∪ X) (subsets l')
    end.
  Lemma elem_of_subsets (l : list arc) (X : arcset) : (∀ a, a ∈ X → a ∈ l) → X ∈ subsets l.
  Proof.
    revert X. induction l as [|a l IH]; intros X HX; cbn.
    { apply elem_of_singleton. apply set_eq. intros a. split; [|set_solver]. intros Ha. apply HX in Ha. by apply elem_of_nil in Ha. }
    apply elem_of_union. destruct (decide (a ∈ X)) as [Ha|Ha].
    - right. apply elem_of_map. exists (X ∖ {[a]}). split.
      + apply set_eq. intros b. rewrite elem_of_union, elem_of_difference, elem_of_singleton. destruct (decide (b = a)) as [->|]; naive_solver.
      + apply IH. intros b. rewrite elem_of_difference, elem_of_singleton. intros [Hb Hne]. apply HX in Hb. by apply elem_of_cons in Hb as [?|?].
    - left. apply IH. intros b Hb. assert (b ≠ a) by (by intros ->). apply HX in Hb. by apply elem_of_cons in Hb as [?|?].
  Qed.
  Definition universe : gset arcset :=
    subsets (elements (p_arcs g ∪ set_map swap (p_arcs g) ∪ p_edges g ∪ set_map swap (p_edges g))).
  Lemma in_universe X : pext g X → X ∈ universe.
  Proof.
    intros (_ & _ & Hadj & _). apply elem_of_subsets. intros [x y] Hxy. apply elem_of_elements.
    assert (adjacent X x y) as H by by left. apply Hadj in H. rewrite !elem_of_union, !elem_of_map. unfold swap.
    destruct H as [[H|H]|H]; [auto|left; left; right; by exists (y, x)|]. unfold und, upair in H.
    destruct (Nat.min_spec x y) as [[? Hm]|[? Hm]], (Nat.max_spec x y) as [[? Hx]|[? Hx]]; rewrite Hm, Hx in H; try lia.
    - left. by right.
    - right. by exists (y, x).
  Qed.

  Lemma loop_spec t q seen : inv seen q → answer t q seen.
  Proof.
    remember (size (universe ∖ seen)) as m eqn:Hm. revert t q seen Hm. induction (lt_wf m) as [m _ IH].
    assert (∀ t s q seen, m = size (universe ∖ seen) → inv seen (s :: q) → s_arcs s ∉ seen → answer t (s :: q) seen) as Hnew.
    { intros t s q seen -> Hinv Hs. apply answer_step.
      eapply IH; [|reflexivity|apply inv_step; [intros; apply elem_of_oa|done]].
      apply subset_size. split; [set_solver|]. intros Hsub.
      assert (s_arcs s ∈ universe ∖ ({[s_arcs s]} ∪ seen)) as Hin; [|set_solver].
      apply Hsub, elem_of_difference. split; [|done]. apply in_universe. apply (inv_sok _ _ Hinv). left. }
    intros t q. remember (length q) as k eqn:Hk. revert t q Hk. induction k as [|k IHk]; intros t q Hk seen Hm Hinv.
    { destruct q; [|done]. exists 0, seen. split_and!.
      - by intros [|].
      - done.
      - intros s Hs. by apply elem_of_nil in Hs.
      - apply Hinv.
      - intros Hhub X x y HX Hxy Hn. destruct (inv_hub _ _ Hinv Hhub) as [_ Hcl]. destruct (Hcl X x y HX Hxy Hn) as [?|(s & Hs & _)]; [by left|].
        by apply elem_of_nil in Hs. }
    destruct q as [|s q]; [done|]. injection Hk as Hk.
    destruct (decide (s_arcs s ∈ seen)) as [Hs|Hs]; [|by apply Hnew].
    apply answer_step.
    assert (inv ({[s_arcs s]} ∪ seen) (pushes s ({[s_arcs s]} ∪ seen) q (oa o [52; t] (s_rev s)))) as Hinv'.
    { apply inv_step; [intros; apply elem_of_oa|done]. }
    assert ({[s_arcs s]} ∪ seen = seen) as Heq by set_solver. rewrite Heq in *.
    destruct (pushes_top s seen q (oa o [52; t] (s_rev s))) as [Hp|(s' & q' & Hp & Hs')]; rewrite Hp in *.
    - by apply IHk.
    - by apply Hnew.
  Qed.
End enum.

Lemma all_dags_spec g o : pok g → (∃ E, pext g E) →
  ∃ n R d, to_dag g o = Ok d ∧ (∀ fuel, n ≤ fuel → all_dags g o fuel = Ok R) ∧ d_arcs d ∈ R ∧
    (∀ X, X ∈ R → pext g X) ∧ (hub g → closed g R (λ _, False)).
Proof.
  intros Hg HE. destruct (to_dag_ok g o Hg HE) as (d & Hd & Hwf & Hext & _).
  set (s := Small (d_arcs d) (reversible_arcs d ∖ p_arcs g) (d_par d) (d_chi d)).
  pose proof Hext as (Hac & _).
  assert (∀ x y, (x, y) ∈ reversible_arcs d ↔ covered (d_arcs d) x y) as Hrev by (intros; by apply reversible_arcs_spec).
  destruct (loop_spec g Hg o 0 [s] ∅) as (n & R & HR & _ & Hq & Hgood & Hcl).
  { constructor.
    - intros x ->%elem_of_list_singleton. constructor; [done|apply (wf_par d Hwf)|apply (wf_chi d Hwf)|].
      intros x y. cbn. rewrite elem_of_difference, Hrev. done.
    - intros X HX. by apply not_elem_of_empty in HX.
    - intros _. split.
      + intros z ->%elem_of_list_singleton x y Hxy Hn. left. cbn. rewrite elem_of_difference, Hrev. done.
      + intros X x y HX. by apply not_elem_of_empty in HX. }
  exists n, R, d. split; [done|]. split.
  { intros fuel Hf. unfold all_dags. rewrite Hd. cbn [res_bind]. by apply HR. }
  split; [apply (Hq s); by left|]. done.
Qed.
