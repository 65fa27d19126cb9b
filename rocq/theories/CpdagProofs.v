(** [remove_unprotected_orientations] and [to_complete_pdag] compute the
    protected arcs. *)
From Verif Require Import Py Spec SpecMec DagModel UGraphModel PdagModel TopoProofs StateProofs OrderProofs QueryProofs MarkovProofs UGraphProofs PdagProofs ProtProofs.

(** ** The flag of one arc *)
Section flag.
  Context (g : pdag) (m : flags) (i j : node).
  Notation P x y := (m !! (x, y) = Some FP).
  Notation adj x y := (has_edge_or_arc g x y = true).
  Notation nadj x y := (has_edge_or_arc g x y = false).

  Lemma conf_a_spec ks f0 :
    (∀ k, k ∈ ks → is_Some (m !! (k, i))) →
    ∃ f, conf_a g m i j ks f0 = Ok f ∧
      ((f = FP ∧ (f0 = FP ∨ ∃ k, k ∈ ks ∧ nadj k j ∧ P k i)) ∨
       (f = FU ∧ (f0 = FU ∨ ∃ k, k ∈ ks ∧ nadj k j ∧ ¬ P k i)) ∨
       (f = FN ∧ f0 = FN ∧ ∀ k, k ∈ ks → adj k j)).
  Proof.
    revert f0. induction ks as [|k ks IH]; intros f0 Hks; cbn.
    - exists f0. split; [done|]. destruct f0; [left; by auto|right; left; by auto|right; right].
      split; [done|]. split; [done|]. intros k Hk. by apply elem_of_nil in Hk.
    - assert (∀ k', k' ∈ ks → is_Some (m !! (k', i))) as Hks' by (intros; apply Hks; by right).
      destruct (has_edge_or_arc g k j) eqn:Ha.
      + destruct (IH f0 Hks') as (f & -> & Hf). exists f. split; [done|]. setoid_rewrite elem_of_cons. naive_solver.
      + destruct (Hks k ltac:(left)) as [fl Hfl]. rewrite Hfl. destruct fl.
        * exists FP. split; [done|]. left. split; [done|]. right. exists k. split; [left|done].
        * destruct (IH FU Hks') as (f & -> & Hf). exists f. split; [done|].
          destruct Hf as [[-> [?|(k' & ? & ?)]]|[[-> _]|[_ [? _]]]]; [done|left|right; left|done].
          -- split; [done|]. right. exists k'. by rewrite elem_of_cons; auto.
          -- split; [done|]. right. exists k. rewrite elem_of_cons, Hfl. auto.
        * destruct (IH FU Hks') as (f & -> & Hf). exists f. split; [done|].
          destruct Hf as [[-> [?|(k' & ? & ?)]]|[[-> _]|[_ [? _]]]]; [done|left|right; left|done].
          -- split; [done|]. right. exists k'. by rewrite elem_of_cons; auto.
          -- split; [done|]. right. exists k. rewrite elem_of_cons, Hfl. auto.
  Qed.

  Lemma conf_b_spec ks f0 : f0 ≠ FP →
    (∀ k, k ∈ ks → i ∈ p_parents g k → is_Some (m !! (i, k)) ∧ is_Some (m !! (k, j))) →
    ∃ f, conf_b g m i j ks f0 = Ok f ∧
      ((f = FP ∧ ∃ k, k ∈ ks ∧ i ∈ p_parents g k ∧ P i k ∧ P k j) ∨
       (f = FU ∧ (f0 = FU ∨ ∃ k, k ∈ ks ∧ i ∈ p_parents g k ∧ ¬ (P i k ∧ P k j))) ∨
       (f = FN ∧ f0 = FN ∧ ∀ k, k ∈ ks → i ∉ p_parents g k)).
  Proof.
    revert f0. induction ks as [|k ks IH]; intros f0 Hf0 Hks; cbn.
    - exists f0. split; [done|]. destruct f0; [done|right; left; by auto|right; right].
      split; [done|]. split; [done|]. intros k Hk. by apply elem_of_nil in Hk.
    - assert (∀ k', k' ∈ ks → i ∈ p_parents g k' → is_Some (m !! (i, k')) ∧ is_Some (m !! (k', j))) as Hks' by (intros; apply Hks; [by right|done]).
      case_decide as Ha.
      2: { destruct (IH f0 Hf0 Hks') as (f & -> & Hf). exists f. split; [done|]. setoid_rewrite elem_of_cons. naive_solver. }
      destruct (Hks k ltac:(left) Ha) as [[f1 Hf1] [f2 Hf2]]. rewrite Hf1.
      assert (¬ (P i k ∧ P k j) → ∃ f, conf_b g m i j ks FU = Ok f ∧
         ((f = FP ∧ ∃ k0, k0 ∈ k :: ks ∧ i ∈ p_parents g k0 ∧ P i k0 ∧ P k0 j) ∨
          (f = FU ∧ (f0 = FU ∨ ∃ k0, k0 ∈ k :: ks ∧ i ∈ p_parents g k0 ∧ ¬ (P i k0 ∧ P k0 j))) ∨
          (f = FN ∧ f0 = FN ∧ ∀ k0, k0 ∈ k :: ks → i ∉ p_parents g k0))) as Hu.
      { intros Hn. destruct (IH FU ltac:(done) Hks') as (f & -> & Hf). exists f. split; [done|].
        destruct Hf as [[-> (k' & ? & ?)]|[[-> _]|[_ [? _]]]]; [left|right; left|done].
        - split; [done|]. exists k'. by rewrite elem_of_cons; auto.
        - split; [done|]. right. exists k. rewrite elem_of_cons. auto. }
      rewrite Hf1, Hf2 in Hu.
      destruct f1; [|apply Hu; naive_solver..]. rewrite Hf2. destruct f2; [|apply Hu; naive_solver..].
      exists FP. split; [done|]. left. split; [done|]. exists k. split; [left|done].
  Qed.

  Definition dconf (k1 k2 : node) : Prop :=
    upair i k1 ∈ p_edges g ∧ upair i k2 ∈ p_edges g ∧ nadj k1 k2.
  Lemma dconf_true k1 k2 :
    has_edge g i k1 && has_edge g i k2 && negb (has_edge_or_arc g k1 k2) = true ↔ dconf k1 k2.
  Proof. unfold dconf. rewrite !andb_true_iff, negb_true_iff, !has_edge_true. tauto. Qed.

  Lemma conf_d_spec brk ks f0 :
    (∀ k1 k2, (k1, k2) ∈ ks → is_Some (m !! (k1, j)) ∧ is_Some (m !! (k2, j))) →
    ∃ f, conf_d brk g m i j ks f0 = Ok f ∧
      ((f = FP ∧ (f0 = FP ∨ ∃ k1 k2, (k1, k2) ∈ ks ∧ dconf k1 k2 ∧ P k1 j ∧ P k2 j)) ∨
       (f = FU ∧ (f0 = FU ∨ ∃ k1 k2, (k1, k2) ∈ ks ∧ dconf k1 k2 ∧ ¬ (P k1 j ∧ P k2 j))) ∨
       (f = FN ∧ f0 = FN ∧ ∀ k1 k2, (k1, k2) ∈ ks → ¬ dconf k1 k2)).
  Proof.
    revert f0. induction ks as [|[k1 k2] ks IH]; intros f0 Hks; cbn.
    - exists f0. split; [done|]. destruct f0; [left; by auto|right; left; by auto|right; right].
      split; [done|]. split; [done|]. intros k1 k2 Hk. by apply elem_of_nil in Hk.
    - assert (∀ k1 k2, (k1, k2) ∈ ks → is_Some (m !! (k1, j)) ∧ is_Some (m !! (k2, j))) as Hks' by (intros; apply Hks; by right).
      destruct (has_edge g i k1 && _ && _) eqn:Ha.
      2: { assert (¬ dconf k1 k2) as Hn by (rewrite <-dconf_true, Ha; done).
        destruct (IH f0 Hks') as (f & -> & Hf). exists f. split; [done|]. setoid_rewrite elem_of_cons.
        destruct Hf as [[-> [?|(k & k' & ?)]]|[[-> [?|(k & k' & ?)]]|(-> & -> & Hf)]]; [naive_solver..|].
        right; right. split; [done|]. split; [done|]. intros k k' [[= -> ->]|?]; [done|by apply Hf]. }
      apply dconf_true in Ha.
      destruct (Hks k1 k2 ltac:(left)) as [[f1 Hf1] [f2 Hf2]]. rewrite Hf1.
      assert (¬ (P k1 j ∧ P k2 j) → ∃ f, conf_d brk g m i j ks FU = Ok f ∧
         ((f = FP ∧ (f0 = FP ∨ ∃ k1' k2', (k1', k2') ∈ (k1, k2) :: ks ∧ dconf k1' k2' ∧ P k1' j ∧ P k2' j)) ∨
          (f = FU ∧ (f0 = FU ∨ ∃ k1' k2', (k1', k2') ∈ (k1, k2) :: ks ∧ dconf k1' k2' ∧ ¬ (P k1' j ∧ P k2' j))) ∨
          (f = FN ∧ f0 = FN ∧ ∀ k1' k2', (k1', k2') ∈ (k1, k2) :: ks → ¬ dconf k1' k2'))) as Hu.
      { intros Hn. destruct (IH FU Hks') as (f & -> & Hf). exists f. split; [done|].
        destruct Hf as [[-> [?|(k & k' & ? & ?)]]|[[-> _]|[_ [? _]]]]; [done|left|right; left|done].
        - split; [done|]. right. exists k, k'. by rewrite elem_of_cons; auto.
        - split; [done|]. right. exists k1, k2. rewrite elem_of_cons. auto. }
      rewrite Hf1, Hf2 in Hu.
      destruct f1; [|apply Hu; naive_solver..]. rewrite Hf2. destruct f2; [|apply Hu; naive_solver..].
      destruct brk.
      + exists FP. split; [done|]. left. split; [done|]. right. exists k1, k2. split; [left|done].
      + destruct (IH FP Hks') as (f & -> & Hf). exists f. split; [done|].
        destruct Hf as [[-> _]|[[-> [?|(k & k' & ? & ?)]]|[_ [? _]]]]; [left|done|right; left|done].
        * split; [done|]. right. exists k1, k2. rewrite elem_of_cons, Hf1, Hf2. auto.
        * split; [done|]. right. exists k, k'. rewrite elem_of_cons. auto.
  Qed.

  (** What the flag means, in terms of arcs. *)
  Notation A x y := ((x, y) ∈ p_arcs g).
  Inductive conf (Q : node → node → Prop) : Prop :=
    | Conf_a k : A k i → nadj k j → Q k i → conf Q
    | Conf_b k : A i k → A k j → Q i k → Q k j → conf Q
    | Conf_d k1 k2 : A k1 j → A k2 j → k1 ≠ k2 → dconf k1 k2 → Q k1 j → Q k2 j → conf Q.
  Inductive badconf : Prop :=
    | Bad_a k : A k i → nadj k j → ¬ P k i → badconf
    | Bad_b k : A i k → A k j → ¬ (P i k ∧ P k j) → badconf
    | Bad_d k1 k2 : A k1 j → A k2 j → k1 ≠ k2 → nadj k1 k2 → ¬ (P k1 j ∧ P k2 j) → badconf.

  Lemma arc_flag_spec brk o key : pok g → (∀ a, a ∈ p_arcs g → is_Some (m !! a)) →
    ∃ f, arc_flag brk g o key m (i, j) = Ok f ∧
      (f = FP → conf (λ x y, P x y)) ∧ (f = FU → badconf) ∧ (f = FN → ¬ conf (λ _ _, True)).
  Proof.
    intros Hg Htot. unfold arc_flag.
    assert (∀ x y, x ∈ p_parents g y ↔ A x y) as Hpar by apply (pok_par g Hg).
    destruct (conf_a_spec (on o [42; key; i; j] (p_parents g i)) FN) as (f1 & -> & Hf1).
    { intros k. rewrite elem_of_on, Hpar. intros. by apply Htot. }
    setoid_rewrite elem_of_on in Hf1. setoid_rewrite Hpar in Hf1. cbn [res_bind].
    case_decide as Hd.
    { exists f1. subst f1. cbn. split; [done|]. split; [|done]. intros _.
      destruct Hf1 as [[_ [?|(k & ? & ? & ?)]]|[[? _]|[? _]]]; [done|by eapply Conf_a|done..]. }
    destruct (conf_b_spec (on o [43; key; i; j] (p_parents g j)) f1 Hd) as (f2 & -> & Hf2).
    { intros k. rewrite elem_of_on, !Hpar. intros. split; by apply Htot. }
    setoid_rewrite elem_of_on in Hf2. setoid_rewrite Hpar in Hf2. cbn [res_bind].
    case_decide as Hd2.
    { exists f2. subst f2. split; [done|]. split; [|done]. intros _.
      destruct Hf2 as [(_ & k & ? & ? & ? & ?)|[[? _]|[? _]]]; [by eapply Conf_b|done..]. }
    destruct (conf_d_spec brk (combinations2 (on o [44; key; i; j] (p_parents g j))) f2) as (f3 & -> & Hf3).
    { intros k1 k2 Hk. apply combinations2_ne in Hk as (_ & Hk1 & Hk2); [|apply NoDup_on]. rewrite elem_of_on, Hpar in Hk1, Hk2. split; by apply Htot. }
    assert (∀ k1 k2, (k1, k2) ∈ combinations2 (on o [44; key; i; j] (p_parents g j)) → k1 ≠ k2 ∧ A k1 j ∧ A k2 j) as Hc.
    { intros k1 k2 Hk. apply combinations2_ne in Hk as (? & Hk1 & Hk2); [|apply NoDup_on]. by rewrite elem_of_on, Hpar in Hk1, Hk2. }
    exists f3. split; [done|]. split; [|split].
    - intros ->. destruct Hf3 as [[_ [?|(k1 & k2 & Hk & ? & ? & ?)]]|[[? _]|[? _]]]; [done| |done..].
      apply Hc in Hk as (? & ? & ?). by apply (Conf_d _ k1 k2).
    - intros ->. destruct Hf3 as [[? _]|[[_ [->|(k1 & k2 & Hk & (? & ? & ?) & Hn)]]|[? _]]]; [done| | |done].
      + destruct Hf2 as [[? _]|[[_ [->|(k & ? & ? & Hn)]]|[? _]]]; [done| | |done].
        * destruct Hf1 as [[? _]|[[_ [?|(k & ? & ? & Hn)]]|[? _]]]; [done|done| |done]. by eapply Bad_a.
        * by apply (Bad_b k).
      + apply Hc in Hk as (? & ? & ?). by apply (Bad_d k1 k2).
    - intros ->. destruct Hf3 as [[? _]|[[? _]|(_ & -> & H3)]]; [done..|].
      destruct Hf2 as [[? _]|[[? _]|(_ & -> & H2)]]; [done..|].
      destruct Hf1 as [[? _]|[[? _]|(_ & _ & H1)]]; [done..|].
      intros [k Hk Hn _|k Hk1 Hk2 _ _|k1 k2 Hk1 Hk2 Hne Hc' _ _].
      + rewrite (H1 k Hk) in Hn. done.
      + by apply (H2 k).
      + assert ((k1, k2) ∈ combinations2 (on o [44; key; i; j] (p_parents g j)) ∨
                (k2, k1) ∈ combinations2 (on o [44; key; i; j] (p_parents g j))) as [H|H].
        { destruct (combinations2_total (on o [44; key; i; j] (p_parents g j)) k1 k2) as [[??]|[??]];
            [apply NoDup_on|rewrite elem_of_on, Hpar; done..|done|by left|by right]. }
        * by apply (H3 _ _ H).
        * apply (H3 _ _ H). destruct Hc' as (? & ? & Hn). split; [done|]. split; [done|].
          apply not_true_is_false. rewrite <-not_true_iff_false in Hn. rewrite has_edge_or_arc_true in Hn |- *.
          rewrite upair_comm. tauto.
  Qed.
End flag.

Lemma lookup_set_flags (f : flag) (X : arcset) (m : flags) (a : arc) : set_flags f X m !! a = if decide (a ∈ X) then Some f else m !! a.
Proof.
  unfold set_flags.
  cut ((a ∈ X → set_fold (λ a m, <[a := f]> m) m X !! a = Some f) ∧ (a ∉ X → set_fold (λ a m, <[a := f]> m) m X !! a = m !! a)).
  { case_decide; naive_solver. }
  apply (set_fold_ind_L (λ (r : flags) (X : arcset), (a ∈ X → r !! a = Some f) ∧ (a ∉ X → r !! a = m !! a))).
  - set_solver.
  - intros x Y r Hx IH. destruct (decide (x = a)) as [->|Hne].
    + rewrite lookup_insert. set_solver.
    + rewrite lookup_insert_ne by done. set_solver.
Qed.

(** The graph [g] shows the arcs of [E], those in [p_arcs g] with direction. *)
Record shows (E : arcset) (g : pdag) : Prop := Shows {
  sh_ok : pok g;
  sh_sub : p_arcs g ⊆ E;
  sh_edge : ∀ x y, upair x y ∈ p_edges g ↔ adjacent (E ∖ p_arcs g) x y
}.
Lemma shows_adj E g x y : shows E g → has_edge_or_arc g x y = true ↔ adjacent E x y.
Proof.
  intros [H1 H2 H3]. rewrite has_edge_or_arc_true, H3. unfold adjacent. rewrite !elem_of_difference.
  destruct (decide ((x, y) ∈ p_arcs g)) as [H|H]; [pose proof (H2 _ H); tauto|].
  destruct (decide ((y, x) ∈ p_arcs g)) as [H'|H']; [pose proof (H2 _ H'); tauto|tauto].
Qed.
Lemma shows_nadj E g x y : shows E g → has_edge_or_arc g x y = false ↔ ¬ adjacent E x y.
Proof. intros H. rewrite <-(shows_adj E g x y H). by rewrite not_true_iff_false. Qed.
Lemma shows_edge_adj E g x y : shows E g → upair x y ∈ p_edges g → adjacent E x y ∧ (x, y) ∉ p_arcs g ∧ (y, x) ∉ p_arcs g.
Proof.
  intros H Hxy. split; [|split].
  - apply (sh_edge E g H) in Hxy. unfold adjacent in *. rewrite !elem_of_difference in Hxy. tauto.
  - intros Ha. by apply (pok_disj g (sh_ok E g H)) in Ha.
  - intros Ha. apply (pok_disj g (sh_ok E g H)) in Ha. by rewrite upair_comm in Ha.
Qed.

Section protected.
  Context (E K0 : arcset) (Hac : acyclic E) (HK : K0 ⊆ E) (HV : vs_known E K0).
  Notation pr a := (prot E K0 a.1 a.2).

  Lemma prot_vs x z y : vstruct E x z y → prot E K0 x z ∧ prot E K0 y z.
  Proof.
    intros H. split; apply prot_known; [by eapply HV|]. apply (HV y z x). destruct H as (?&?&?&?).
    split; [done|]. split; [done|]. split; [done|]. by rewrite adjacent_sym.
  Qed.

  (** A configuration whose arcs are protected protects the arc. *)
  Lemma conf_prot g i j : shows E g → K0 ⊆ p_arcs g →
    adjacent E i j → (j, i) ∉ p_arcs g →
    conf g i j (prot E K0) → prot E K0 i j.
  Proof.
    intros Hg HKg Hij Hnk Hc. pose proof (sh_sub E g Hg) as Hsub.
    destruct Hc as [k Hk Hn Hp|k Hk1 Hk2 Hp1 Hp2|k1 k2 Hk1 Hk2 Hne (He1 & He2 & Hn) Hp1 Hp2].
    - apply (shows_nadj E g _ _ Hg) in Hn.
      assert (k ≠ j) by (intros ->; done). apply Hsub in Hk.
      assert ((i, j) ∈ E).
      { destruct Hij as [?|Hji]; [done|exfalso].
        apply Hnk, HKg. apply (HV j i k). split; [done|]. split; [done|]. split; [done|]. by rewrite adjacent_sym. }
      by apply (prot_a _ _ k).
    - apply (prot_b _ _ i k j); [|done|done]. apply (rule_b_arc E i k); auto.
    - apply (shows_nadj E g _ _ Hg) in Hn.
      assert (¬ ((k1, i) ∈ E ∧ (k2, i) ∈ E)) as Hnv.
      { intros [H1 H2]. apply (shows_edge_adj E g _ _ Hg) in He1 as (_ & _ & He1). apply He1, HKg.
        apply (HV k1 i k2). done. }
      apply (shows_edge_adj E g _ _ Hg) in He1 as (He1 & _ & _). apply (shows_edge_adj E g _ _ Hg) in He2 as (He2 & _ & _).
      apply (prot_d _ _ i j k1 k2); auto. apply (rule_d_arc E i j k1 k2); auto.
      intros (? & ? & _). by apply Hnv.
  Qed.

  (** What an arc that is still undecided waits for. *)
  Inductive waiting (g : pdag) (und : arcset) (i j : node) : Prop :=
    | Wait_a k : (k, i) ∈ p_arcs g → (k, i) ∈ und → waiting g und i j
    | Wait_b k : (i, k) ∈ p_arcs g → (k, j) ∈ p_arcs g → (i, k) ∈ und ∨ (k, j) ∈ und → waiting g und i j
    | Wait_d k1 k2 : (k1, j) ∈ p_arcs g → (k2, j) ∈ p_arcs g → k1 ≠ k2 → ¬ adjacent E k1 k2 →
        (k1, j) ∈ und ∨ (k2, j) ∈ und → waiting g und i j.

  Definition flag_means (g : pdag) (und : arcset) (a : arc) (f : flag) : Prop :=
    (f = FP → pr a) ∧ (f = FU → waiting g und a.1 a.2) ∧ (f = FN → ¬ conf g a.1 a.2 (λ _ _, True)).

  (** Invariant of the flags during a round on [g] with undecided arcs [und]. *)
  Record finv (g : pdag) (und : arcset) (m : flags) : Prop := Finv {
    fi_some : ∀ a, a ∈ p_arcs g → is_Some (m !! a);
    fi_prot : ∀ a, a ∈ p_arcs g → m !! a = Some FP → pr a;
    fi_dec : ∀ a, a ∈ p_arcs g → a ∉ und → m !! a = Some FP
  }.

  Lemma arc_flag_means g und m brk o key a :
    shows E g → K0 ⊆ p_arcs g → finv g und m → adjacent E a.1 a.2 → (a.2, a.1) ∉ p_arcs g →
    ∃ f, arc_flag brk g o key m a = Ok f ∧ flag_means g und a f.
  Proof.
    destruct a as [i j]. cbn [fst snd]. intros Hg HKg [F1 F2 F3] Hij Hji.
    destruct (arc_flag_spec g m i j brk o key (sh_ok E g Hg) F1) as (f & -> & Hp & Hu & Hn).
    exists f. split; [done|]. split; [|split].
    - intros ->. apply (conf_prot g); [done..|]. destruct (Hp eq_refl) as [k|k|k1 k2].
      + apply (Conf_a _ _ _ _ k); [done|done|]. by apply (F2 (k, i)).
      + apply (Conf_b _ _ _ _ k); [done|done|by apply (F2 (i, k))|by apply (F2 (k, j))].
      + apply (Conf_d _ _ _ _ k1 k2); [done..|by apply (F2 (k1, j))|by apply (F2 (k2, j))].
    - intros ->. cbn.
      assert (∀ a, a ∈ p_arcs g → ¬ m !! a = Some FP → a ∈ und) as F3'.
      { intros a Ha Hna. destruct (decide (a ∈ und)) as [|Hd]; [done|]. by destruct Hna; apply F3. }
      destruct (Hu eq_refl) as [k H1 H2 H3|k H1 H2 H3|k1 k2 H1 H2 Hne H3 H4].
      + apply (Wait_a _ _ _ _ k); [done|]. by apply F3'.
      + apply (Wait_b _ _ _ _ k); [done|done|]. destruct (decide (m !! (i, k) = Some FP)) as [Hm|Hm]; [right|left; by apply F3'].
        apply F3'; [done|]. naive_solver.
      + apply (Wait_d _ _ _ _ k1 k2); [done..|by apply (shows_nadj E g)|].
        destruct (decide (m !! (k1, j) = Some FP)) as [Hm|Hm]; [right|left; by apply F3'].
        apply F3'; [done|]. naive_solver.
    - intros ->. by apply Hn.
  Qed.

  Lemma flag_round_spec g und m brk o key :
    shows E g → K0 ⊆ p_arcs g → finv g und m →
    (∀ a, a ∈ und → adjacent E a.1 a.2 ∧ (a.2, a.1) ∉ p_arcs g) →
    ∃ m', flag_round brk g o key und m = Ok m' ∧ finv g und m' ∧
      (∀ a, a ∉ und → m' !! a = m !! a) ∧
      (∀ a, a ∈ und → ∃ f, m' !! a = Some f ∧ flag_means g und a f).
  Proof.
    intros Hg HKg Hm Hund. unfold flag_round.
    assert (∀ l m, NoDup l → (∀ a, a ∈ l → a ∈ und) → finv g und m →
      ∃ m', loopR (λ a m, res_bind (arc_flag brk g o key m a) (λ f, Ok (<[a := f]> m))) l m = Ok m' ∧ finv g und m' ∧
        (∀ a, a ∉ l → m' !! a = m !! a) ∧ (∀ a, a ∈ l → ∃ f, m' !! a = Some f ∧ flag_means g und a f)) as Hl.
    { clear m Hm. induction l as [|a l IH]; intros m Hnd Hl Hm; cbn.
      - exists m. split; [done|]. split; [done|]. split; [done|]. intros a Ha. by apply elem_of_nil in Ha.
      - apply NoDup_cons in Hnd as [Hal Hnd].
        assert (a ∈ und) as Ha by (apply Hl; left).
        destruct (arc_flag_means g und m brk o key a Hg HKg Hm) as (f & -> & Hf); [by apply Hund..|]. cbn [res_bind].
        destruct (IH (<[a := f]> m)) as (m' & Hm' & Hi & H1 & H2); [done|intros; apply Hl; by right| |].
        { destruct Hm as [F1 F2 F3]. constructor.
          - intros b Hb. destruct (decide (a = b)) as [->|]; [rewrite lookup_insert; by eexists|]. rewrite lookup_insert_ne by done. auto.
          - intros b Hb. destruct (decide (a = b)) as [->|]; [rewrite lookup_insert; intros [= ->]; by apply Hf|]. rewrite lookup_insert_ne by done. auto.
          - intros b Hb Hbu. destruct (decide (a = b)) as [->|]; [done|]. rewrite lookup_insert_ne by done. auto. }
        exists m'. split; [done|]. split; [done|]. split.
        + intros b. rewrite not_elem_of_cons. intros [Hb1 Hb2]. rewrite H1 by done. by rewrite lookup_insert_ne by done.
        + intros b [->|Hb]%elem_of_cons; [|by apply H2]. exists f. split; [|done]. rewrite H1 by done. by rewrite lookup_insert. }
    destruct (Hl (oa o [45; key] und) m) as (m' & -> & H1 & H2 & H3); [apply NoDup_oa|intros a; by rewrite elem_of_oa|done|].
    exists m'. split; [done|]. split; [done|]. setoid_rewrite elem_of_oa in H2. setoid_rewrite elem_of_oa in H3. done.
  Qed.

  (** The replacement loop. *)
  Lemma replace_loop (g : pdag) (m' : flags) (l : list arc) :
    shows E g → NoDup l → (∀ a, a ∈ l → a ∈ p_arcs g) →
    ∃ g', mfor l (λ a, if decide (m' !! a = Some FN) then replace_arc_with_edge a else mret tt) g = (g', Ok tt) ∧
      shows E g' ∧ p_nodes g' = p_nodes g ∧ p_known g' = p_known g ∧
      (∀ a, a ∈ p_arcs g' ↔ a ∈ p_arcs g ∧ ¬ (a ∈ l ∧ m' !! a = Some FN)).
  Proof.
    revert g. induction l as [|a l IH]; intros g Hg Hnd Hl; cbn.
    - exists g. split; [done|]. split_and!; [done..|]. intros a. rewrite elem_of_nil. tauto.
    - apply NoDup_cons in Hnd as [Hal Hnd]. unfold mthen, mbind'. case_decide as Hm.
      + destruct a as [i j]. destruct (replace_arc_with_edge_ok g i j (sh_ok E g Hg)) as (g1 & -> & Hok & HN & HK' & HA & HE); [apply Hl; left|].
        assert ((i, j) ∈ p_arcs g) as Hij by (apply Hl; left). pose proof (sh_sub E g Hg _ Hij) as HijE.
        destruct (IH g1) as (g' & -> & H1 & H2 & H3 & H4).
        * constructor; [done|rewrite HA; pose proof (sh_sub E g Hg); clear -H; set_solver|].
          intros x y. rewrite HE, HA, elem_of_union, elem_of_singleton, (sh_edge E g Hg), upair_eq_or. unfold adjacent.
          rewrite !elem_of_difference, !elem_of_singleton. destruct (decide ((x, y) = (i, j))) as [[= -> ->]|]; [tauto|].
          destruct (decide ((y, x) = (i, j))) as [[= -> ->]|]; [tauto|]. naive_solver.
        * done.
        * intros a Ha. rewrite HA, elem_of_difference, elem_of_singleton. split; [apply Hl; by right|]. by intros ->.
        * exists g'. split; [done|]. split_and!; [done|congruence..|]. intros a. rewrite H4, HA, elem_of_difference, elem_of_singleton, elem_of_cons. naive_solver.
      + cbn. destruct (IH g Hg Hnd) as (g' & -> & H1 & H2 & H3 & H4); [intros; apply Hl; by right|].
        exists g'. split; [done|]. split_and!; [done..|]. intros b. rewrite H4, elem_of_cons. naive_solver.
  Qed.

  Record rinv (g : pdag) (und : arcset) (m : flags) : Prop := Rinv {
    ri_shows : shows E g;
    ri_finv : finv g und m;
    ri_und : und ⊆ p_arcs g;
    ri_unk : und ## K0;
    ri_low : ∀ i j, prot E K0 i j → (i, j) ∈ p_arcs g;
    ri_back : ∀ i j k, (i, j) ∈ E → (i, j) ∉ p_arcs g → (k, i) ∈ E → ¬ adjacent E k j → (k, i) ∉ p_arcs g
  }.

  Lemma unconf_unprot g und m i j : rinv g und m → (i, j) ∈ und → ¬ conf g i j (λ _ _, True) → ¬ prot E K0 i j.
  Proof.
    intros [Hg _ Hu Hk Hlow Hback] Hij Hn Hp.
    assert ((i, j) ∈ p_arcs g) as HijD by by apply Hu. pose proof (sh_sub E g Hg _ HijD) as HijE.
    inversion Hp as [? ? HK0|k ? ? _ Hki Hna|? k ? _ Hik Hkj|? ? k1 k2 _ H1 H2 Hne Hna Ha1 Ha2 Hnv]; subst.
    - by apply (Hk (i, j)).
    - apply Hn. apply (Conf_a _ _ _ _ k); [by apply Hlow|by apply (shows_nadj E g)|done].
    - apply Hn. apply (Conf_b _ _ _ _ k); [by apply Hlow|by apply Hlow|done|done].
    - assert (∀ k, prot E K0 k j → (i, k) ∉ p_arcs g) as Hb.
      { intros k Hk' Hik. apply Hn. apply (Conf_b _ _ _ _ k); [done|by apply Hlow|done|done]. }
      assert (∀ k k', prot E K0 k j → prot E K0 k' j → adjacent E i k → adjacent E i k' → ¬ adjacent E k k' →
        ¬ ((k, i) ∈ E ∧ (k', i) ∈ E) → upair i k ∈ p_edges g) as He.
      { intros k k' Hkj Hk'j Hak Hak' Hnk Hnv'. apply (sh_edge E g Hg). unfold adjacent in Hak |- *. rewrite !elem_of_difference.
        destruct Hak as [Hik|Hki]; [left; by auto|right]. split; [done|]. intros HkiD.
        assert ((i, k') ∈ E) as Hik' by (destruct Hak' as [?|?]; [done|by destruct Hnv']).
        apply (Hback i k' k) in HkiD; [done|done|by apply Hb|done|done]. }
      apply Hn. apply (Conf_d _ _ _ _ k1 k2); [by apply Hlow|by apply Hlow|done| |done|done].
      split; [by apply (He k1 k2)|]. split; [|by apply (shows_nadj E g)].
      apply (He k2 k1); [done..|by rewrite adjacent_sym|tauto].
  Qed.

  (** Every round decides at least one arc: the one whose head comes first in a
      topological order and, among those, whose tail comes last. *)
  Lemma some_decided g und m : rinv g und m → und ≠ ∅ → ∃ a, a ∈ und ∧ ¬ waiting g und a.1 a.2.
  Proof.
    intros [Hg _ Hu Hk Hlow _] Hne. pose proof (sh_sub E g Hg) as Hsub.
    pose (N := (set_map fst E : nset) ∪ (set_map snd E : nset)).
    destruct (exists_topo N E) as [l Hl]; [done|..].
    { intros x y Hxy. unfold N. rewrite !elem_of_union, !elem_of_map. split; [left; by exists (x, y)|right; by exists (x, y)]. }
    pose (pos := λ x, default 0 (fst <$> list_find (x =.) l)).
    assert (∀ x y, (x, y) ∈ E → pos x < pos y) as Hpos.
    { intros x y Hxy. destruct Hl as (Hnd & Hin & Hlt).
      assert (∀ z, z ∈ N → l !! pos z = Some z) as Hz.
      { intros z Hz. apply Hin in Hz. unfold pos. destruct (list_find (z =.) l) as [[k z']|] eqn:Hf.
        - apply list_find_Some in Hf as (Hf & <- & _). done.
        - apply list_find_None in Hf. rewrite Forall_forall in Hf. by destruct (Hf z Hz). }
      apply (Hlt _ _ x y Hxy); apply Hz; unfold N; rewrite elem_of_union, !elem_of_map; [left|right]; by exists (x, y). }
    pose (maxp := S (length l)).
    pose (key := λ a : arc, pos a.2 * maxp + (length l - pos a.1)).
    assert (∀ x, pos x ≤ length l) as Hle.
    { intros x. unfold pos. destruct (list_find (x =.) l) as [[k z']|] eqn:Hf; cbn; [|lia].
      apply list_find_Some in Hf as (Hf & _). apply lookup_lt_Some in Hf. lia. }
    assert (Transitive (λ a b, key a ≤ key b)) by (intros a b c; lia).
    assert (∀ a b, Decision ((λ a b, key a ≤ key b) a b)) by (intros; cbv beta; apply _).
    destruct (minimal_exists_L (λ a b, key a ≤ key b) und Hne) as (a & Ha & Hmin).
    exists a. split; [done|]. destruct a as [i j]. cbn.
    assert (∀ b, b ∈ und → key (i, j) ≤ key b) as Hmin'.
    { intros b Hb. destruct (Nat.le_gt_cases (key (i, j)) (key b)) as [?|Hlt]; [done|]. apply (Hmin b Hb). cbv beta. lia. }
    clear Hmin. assert ((i, j) ∈ E) as Hij by by apply Hsub, Hu.
    assert (∀ x y, (x, y) ∈ und → pos y < pos j → False) as Hc1.
    { intros x y Hxy Hlt. specialize (Hmin' _ Hxy). unfold key, maxp in Hmin'. cbn in Hmin'.
      pose proof (Hle x). pose proof (Hle i). nia. }
    intros [k H1 H2|k H1 H2 H3|k1 k2 H1 H2 Hne' Hn H3].
    - apply (Hc1 _ _ H2). by apply Hpos.
    - destruct H3 as [H3|H3].
      + apply (Hc1 _ _ H3). by apply Hpos, Hsub.
      + specialize (Hmin' _ H3). unfold key in Hmin'. cbn in Hmin'. pose proof (Hpos _ _ (Hsub _ H1)). pose proof (Hle k). lia.
    - assert (vstruct E k1 j k2) as Hv by (split; [by apply Hsub|split; [by apply Hsub|done]]).
      assert (vstruct E k2 j k1) as Hv' by (split; [by apply Hsub|split; [by apply Hsub|split; [done|by rewrite adjacent_sym]]]).
      destruct H3 as [H3|H3]; [apply (Hk _ H3); by apply (HV k1 j k2)|apply (Hk _ H3); by apply (HV k2 j k1)].
  Qed.

  Lemma rup_loop_spec o fuel g und m :
    rinv g und m → size und < fuel →
    ∃ g', rup_loop o fuel m und g = (g', Ok tt) ∧ shows E g' ∧ p_nodes g' = p_nodes g ∧ p_known g' = p_known g ∧
      ∀ i j, (i, j) ∈ p_arcs g' ↔ prot E K0 i j.
  Proof.
    revert g und m. induction fuel as [|fuel IH]; intros g und m Hr Hf; [lia|].
    cbn [rup_loop]. case_decide as Hund.
    { exists g. split; [done|]. destruct Hr as [Hg [F1 F2 F3] Hu Hk Hlow Hback]. split_and!; [done..|].
      intros i j. split; [|apply Hlow]. intros Hij. apply (F2 (i, j)); [done|]. apply F3; [done|]. subst und. apply not_elem_of_empty. }
    pose proof Hr as [Hg Hm Hu Hk Hlow Hback]. pose proof (sh_sub E g Hg) as Hsub.
    destruct (flag_round_spec g und m false o fuel Hg) as (m' & -> & Hm' & H1 & H2); [|done|..].
    { intros [x y] Hxy. apply Hlow. by apply prot_known. }
    { intros [i j] Ha. pose proof (Hu _ Ha) as HaD. split; [left; by apply Hsub|]. cbn. intros Hji.
      by apply (acyclic_asym E i j Hac); apply Hsub. }
    destruct (replace_loop g m' (oa o [46; fuel] und) Hg) as (g1 & Hg1 & G1 & G2 & G3 & G4); [apply NoDup_oa| |].
    { intros a. rewrite elem_of_oa. apply Hu. }
    setoid_rewrite elem_of_oa in G4. unfold mthen at 1, mbind' at 1. rewrite Hg1.
    assert (∀ i j, (i, j) ∈ und → m' !! (i, j) = Some FN → ¬ conf g i j (λ _ _, True)) as Hfn.
    { intros i j Hij Hfl. destruct (H2 _ Hij) as (f & Hf' & _ & _ & Hn). rewrite Hfl in Hf'. injection Hf' as <-. by apply Hn. }
    destruct (IH g1 (filter (λ a, m' !! a = Some FU) und) m') as (g' & -> & K1 & K2 & K3 & K4).
    - constructor.
      + done.
      + destruct Hm' as [F1 F2 F3]. constructor.
        * intros a (Ha & _)%G4. by apply F1.
        * intros a (Ha & _)%G4. by apply F2.
        * intros a (Ha & Hna)%G4. rewrite elem_of_filter. intros Hnu. destruct (decide (a ∈ und)) as [Hau|Hau]; [|by apply F3].
          destruct (H2 a Hau) as (f & Hf' & _). destruct f; [done|by destruct Hnu|by destruct Hna].
      + intros a. rewrite elem_of_filter, G4. intros [Hfu Hau]. split; [by apply Hu|]. intros [_ Hfn']. congruence.
      + clear -Hk. intros a. rewrite elem_of_filter. set_solver.
      + intros i j Hp. rewrite G4. split; [by apply Hlow|]. intros [Hij Hfl]. apply (unconf_unprot g und m i j Hr Hij); [by apply Hfn|done].
      + intros i j k Hij Hnij Hki Hn. destruct (decide ((i, j) ∈ p_arcs g)) as [HijD|HijD].
        * assert ((i, j) ∈ und ∧ m' !! (i, j) = Some FN) as [Hiju Hfl].
          { destruct (decide ((i, j) ∈ und ∧ m' !! (i, j) = Some FN)) as [|Hd]; [done|]. destruct Hnij. by apply G4. }
          intros (HkiD & _)%G4. apply (Hfn i j Hiju Hfl). apply (Conf_a _ _ _ _ k); [done|by apply (shows_nadj E g)|done].
        * intros (HkiD & _)%G4. by apply (Hback i j k).
    - destruct (some_decided g und m Hr Hund) as (a & Ha & Hnw).
      assert (filter (λ a, m' !! a = Some FU) und ⊆ und ∖ {[a]}) as Hss.
      { intros b. rewrite elem_of_filter, elem_of_difference, elem_of_singleton. intros [Hb Hbu]. split; [done|]. intros ->.
        destruct (H2 a Ha) as (f & Hf' & _ & Hw & _). rewrite Hb in Hf'. injection Hf' as <-. by apply Hnw, Hw. }
      apply subseteq_size in Hss. rewrite size_difference in Hss by (clear -Ha; set_solver). rewrite size_singleton in Hss.
      assert (size und ≠ 0) by (intros Hs0; apply Hund, leibniz_equiv; by apply size_empty_inv). lia.
    - exists g'. split; [done|]. split_and!; [done|congruence..|done].
  Qed.

  Lemma rup_spec o g :
    pok g → p_arcs g = E → p_edges g = ∅ → p_known g = K0 →
    ∃ g', remove_unprotected_orientations o g = (g', Ok tt) ∧ shows E g' ∧ p_nodes g' = p_nodes g ∧ p_known g' = p_known g ∧
      ∀ i j, (i, j) ∈ p_arcs g' ↔ prot E K0 i j.
  Proof.
    intros Hg HE He Hk. unfold remove_unprotected_orientations. apply rup_loop_spec; [|lia].
    constructor.
    - constructor; [done|by rewrite HE|]. intros x y. rewrite He, HE. unfold adjacent. clear. set_solver.
    - constructor.
      + intros a Ha. rewrite lookup_set_flags. case_decide as Hd; [by eexists|]. rewrite lookup_set_flags.
        rewrite decide_True; [by eexists|]. rewrite elem_of_difference in Hd. destruct (decide (a ∈ p_known g)); [done|]. by destruct Hd.
      + intros [x y] Ha. rewrite !lookup_set_flags. repeat case_decide; try done. intros _. cbn. apply prot_known. by rewrite <-Hk.
      + intros a Ha Hau. rewrite lookup_set_flags, decide_False by done. rewrite lookup_set_flags, decide_True; [done|].
        rewrite elem_of_difference in Hau. destruct (decide (a ∈ p_known g)); [done|]. by destruct Hau.
    - clear. set_solver.
    - rewrite Hk. clear. set_solver.
    - intros i j Hp. rewrite HE. by apply (prot_sub _ _ _ _ HK).
    - intros i j k Hij Hn. by rewrite HE in Hn.
  Qed.

  (** The loop that adds orientations. *)
  Record cinv (g : pdag) (und : arcset) (m : flags) : Prop := Cinv {
    ci_shows : shows E g;
    ci_und : ∀ a, a ∈ und ↔ upair a.1 a.2 ∈ p_edges g;
    ci_fp : ∀ a, a ∈ p_arcs g → m !! a = Some FP;
    ci_known : K0 ⊆ p_arcs g;
    ci_prot : ∀ i j, (i, j) ∈ p_arcs g → prot E K0 i j
  }.

  Lemma cinv_und_arc g und m a : cinv g und m → a ∈ und → a ∉ p_arcs g ∧ (a.2, a.1) ∉ p_arcs g ∧ adjacent E a.1 a.2.
  Proof.
    intros [Hg Hu _ _ _] Ha%Hu. destruct a as [i j]. cbn in *. split; [|split].
    - intros H. by apply (pok_disj g (sh_ok E g Hg) i j).
    - intros H. apply (pok_disj g (sh_ok E g Hg) j i); [done|]. by rewrite upair_comm.
    - apply (sh_edge E g Hg) in Ha. unfold adjacent in *. rewrite !elem_of_difference in Ha. tauto.
  Qed.

  Lemma closed_prot g und m : cinv g und m → (∀ i j, (i, j) ∈ und → ¬ conf g i j (λ _ _, True)) →
    ∀ i j, prot E K0 i j → (i, j) ∈ p_arcs g.
  Proof.
    intros [Hg Hu Hfp Hk Hpr] Hn.
    assert (∀ i j, (i, j) ∈ E → (i, j) ∉ p_arcs g → (i, j) ∈ und) as Hund.
    { intros i j Hij Hnij. apply Hu. cbn. apply (sh_edge E g Hg). left. by apply elem_of_difference. }
    intros i j Hp. induction Hp as [i j HK0|k i j HijE Hki IHki Hna|i k j HijE Hik IHik Hkj IHkj|i j k1 k2 HijE H1 IH1 H2 IH2 Hne Hna Ha1 Ha2 Hnv].
    - by apply Hk.
    - destruct (decide ((i, j) ∈ p_arcs g)) as [|HijD]; [done|]. destruct (Hn i j); [by apply Hund|].
      apply (Conf_a _ _ _ _ k); [done|by apply (shows_nadj E g)|done].
    - destruct (decide ((i, j) ∈ p_arcs g)) as [|HijD]; [done|]. destruct (Hn i j); [by apply Hund|].
      by apply (Conf_b _ _ _ _ k).
    - destruct (decide ((i, j) ∈ p_arcs g)) as [|HijD]; [done|]. destruct (Hn i j); [by apply Hund|].
      assert (∀ k, (k, j) ∈ p_arcs g → (i, k) ∉ p_arcs g) as Hb.
      { intros k Hk' Hik. destruct (Hn i j); [by apply Hund|]. by apply (Conf_b _ _ _ _ k). }
      assert (∀ k k', (k, j) ∈ p_arcs g → (k', j) ∈ p_arcs g → adjacent E i k → adjacent E i k' → ¬ adjacent E k k' →
        ¬ ((k, i) ∈ E ∧ (k', i) ∈ E) → upair i k ∈ p_edges g) as He.
      { intros k k' Hkj Hk'j Hak Hak' Hnk Hnv'. apply (sh_edge E g Hg). unfold adjacent in Hak |- *. rewrite !elem_of_difference.
        destruct Hak as [Hik|Hki]; [left; by auto|right]. split; [done|]. intros HkiD.
        assert ((i, k') ∈ E) as Hik' by (destruct Hak' as [?|?]; [done|by destruct Hnv']).
        destruct (Hn i k'); [apply Hund; [done|by apply Hb]|]. apply (Conf_a _ _ _ _ k); [done|by apply (shows_nadj E g)|done]. }
      apply (Conf_d _ _ _ _ k1 k2); [done|done|done| |done|done].
      split; [by apply (He k1 k2)|]. split; [|by apply (shows_nadj E g)].
      apply (He k2 k1); [done..|by rewrite adjacent_sym|tauto].
  Qed.

  Lemma orient_loop_spec (m' : flags) (l : list arc) (und : arcset) g :
    NoDup l → cinv g und m' →
    (∀ a, a ∈ l → m' !! a = Some FP → a ∈ und ∧ pr a) →
    ∃ g' und', orient_loop m' l und g = (g', Ok und') ∧ cinv g' und' m' ∧ p_nodes g' = p_nodes g ∧ p_known g' = p_known g ∧
      und' ⊆ und ∧ ∀ a, a ∈ l → m' !! a = Some FP → a ∉ und'.
  Proof.
    revert und g. induction l as [|a l IH]; intros und g Hnd Hc Hl; cbn.
    - exists g, und. split; [done|]. split_and!; [done..|]. intros a Ha. by apply elem_of_nil in Ha.
    - apply NoDup_cons in Hnd as [Hal Hnd]. case_decide as Hm.
      + destruct (Hl a) as [Hau Hpa]; [left|done|]. destruct a as [i j]. cbn [fst snd] in *.
        pose proof Hc as [Hg Hu Hfp Hk Hpr].
        destruct (cinv_und_arc g und m' (i, j) Hc Hau) as (Hna & Hnb & Hadj). cbn [fst snd] in *.
        assert ((i, j) ∈ E) as HijE by by apply (prot_sub _ _ _ _ HK).
        assert (i ≠ j) as Hne by by intros ->; apply (acyclic_irr E j).
        unfold has_arc. rewrite bool_decide_eq_false_2 by done.
        rewrite decide_True by done. apply Hu in Hau as Hedge. cbn in Hedge.
        rewrite decide_True by (apply elem_of_difference; split; [apply Hu; cbn; by rewrite upair_comm|rewrite elem_of_singleton; congruence]).
        destruct (replace_edge_with_arc_ok g i j (sh_ok E g Hg) Hedge) as (g1 & Hg1 & Hok & HN & HK' & HA & HE).
        unfold mthen, mbind'. rewrite Hg1.
        assert (cinv g1 (und ∖ {[(i, j)]} ∖ {[(j, i)]}) m') as Hc1.
        { constructor.
          - constructor; [done|rewrite HA; pose proof (sh_sub E g Hg); clear -H HijE; set_solver|].
            intros x y. rewrite HE, HA, elem_of_difference, elem_of_singleton, (sh_edge E g Hg), upair_eq_or. unfold adjacent.
            rewrite !elem_of_difference, !elem_of_union, !elem_of_singleton.
            assert ((j, i) ∉ E) as HjiE by (intros ?; by apply (acyclic_asym E i j)).
            destruct (decide ((x, y) = (i, j))) as [[= -> ->]|]; [naive_solver|].
            destruct (decide ((y, x) = (i, j))) as [[= -> ->]|]; [naive_solver|]. naive_solver.
          - intros [x y]. cbn. rewrite HE, !elem_of_difference, !elem_of_singleton, upair_eq_or, Hu. cbn. naive_solver.
          - intros b. rewrite HA, elem_of_union, elem_of_singleton. intros [->|Hb]; [done|by apply Hfp].
          - rewrite HA. clear -Hk. set_solver.
          - intros x y. rewrite HA, elem_of_union, elem_of_singleton. intros [[= -> ->]|Hb]; [done|by apply Hpr]. }
        destruct (IH _ _ Hnd Hc1) as (g' & und' & -> & H1 & H2 & H3 & H4 & H5).
        * intros b Hb Hbm. destruct (Hl b) as [Hbu Hbp]; [by right|done|]. split; [|done].
          rewrite !elem_of_difference, !elem_of_singleton. split_and!; [done|by intros ->|]. intros ->.
          apply (acyclic_asym E i j Hac); [done|]. by apply (prot_sub _ _ _ _ HK).
        * exists g', und'. split; [done|]. split_and!; [done|congruence..|clear -H4; set_solver|].
          intros b [->|Hb]%elem_of_cons Hbm; [|by apply H5]. intros Hb. apply H4 in Hb. clear -Hb. set_solver.
      + destruct (IH und g Hnd Hc) as (g' & und' & -> & H1 & H2 & H3 & H4 & H5); [intros; apply Hl; [by right|done]|].
        exists g', und'. split; [done|]. split_and!; [done..|]. intros b [->|Hb]%elem_of_cons Hbm; [done|by apply H5].
  Qed.

  Lemma complete_loop_spec o fuel g und m :
    cinv g und m → size und < fuel →
    ∃ g', complete_loop o fuel m und g = (g', Ok tt) ∧ shows E g' ∧ p_nodes g' = p_nodes g ∧ p_known g' = p_known g ∧
      ∀ i j, (i, j) ∈ p_arcs g' ↔ prot E K0 i j.
  Proof.
    revert g und m. induction fuel as [|fuel IH]; intros g und m Hc Hf; [lia|].
    cbn [complete_loop]. pose proof Hc as [Hg Hu Hfp Hk Hpr]. case_decide as Hund.
    { exists g. split; [done|]. split_and!; [done..|]. intros i j. split; [apply Hpr|].
      apply (closed_prot g und m Hc). intros x y Hxy. by rewrite Hund, elem_of_empty in Hxy. }
    assert (finv g und m) as Hfi.
    { constructor; [intros a Ha; rewrite Hfp by done; by eexists|intros [x y] Ha _; by apply Hpr|intros; by apply Hfp]. }
    destruct (flag_round_spec g und m true o fuel Hg Hk Hfi) as (m' & -> & Hm' & H1 & H2).
    { intros a Ha. destruct (cinv_und_arc g und m a Hc Ha) as (? & ? & ?). done. }
    assert (cinv g und m') as Hc'.
    { constructor; [done|done| |done|done]. intros a Ha. rewrite H1; [by apply Hfp|]. intros Hau.
      by destruct (cinv_und_arc g und m a Hc Hau). }
    case_decide as Hall.
    { exists g. split; [done|]. split_and!; [done..|]. intros i j. split; [apply Hpr|].
      apply (closed_prot g und m Hc). intros x y Hxy. destruct (H2 _ Hxy) as (f & Hf' & _ & _ & Hn).
      rewrite (Hall _ Hxy) in Hf'. injection Hf' as <-. by apply Hn. }
    unfold mbind'.
    destruct (orient_loop_spec m' (oa o [46; fuel] und) und g) as (g1 & und1 & -> & G1 & G2 & G3 & G4 & G5); [apply NoDup_oa|done|..].
    { intros a. rewrite elem_of_oa. intros Ha Hfl. split; [done|]. destruct (H2 _ Ha) as (f & Hf' & Hp & _). rewrite Hfl in Hf'.
      injection Hf' as <-. by apply Hp. }
    setoid_rewrite elem_of_oa in G5.
    assert (∃ a, a ∈ und ∧ m' !! a ≠ Some FN) as (a & Ha & Hafl).
    { destruct (decide (set_Exists (λ a, m' !! a ≠ Some FN) und)) as [(a & ? & ?)|Hne]; [by exists a|].
      destruct Hall. intros a Ha. destruct (decide (m' !! a = Some FN)); [done|]. destruct Hne. by exists a. }
    assert (m' !! a = Some FP) as Hap.
    { destruct (H2 _ Ha) as (f & Hf' & _ & Hw & _). rewrite Hf'. destruct f; [done| |by rewrite Hf' in Hafl].
      exfalso. assert (∀ b, b ∈ p_arcs g → b ∈ und → False) as Hbb.
      { intros b Hb Hbu. by destruct (cinv_und_arc g und m b Hc Hbu). }
      destruct (Hw eq_refl) as [k W1 W2|k W1 W2 [W3|W3]|k1 k2 W1 W2 ? ? [W3|W3]].
      all: first [exact (Hbb _ W1 W2)|exact (Hbb _ W1 W3)|exact (Hbb _ W2 W3)]. }
    destruct (IH g1 und1 m' G1) as (g' & -> & K1 & K2 & K3 & K4).
    - assert (und1 ⊆ und ∖ {[a]}) as Hss.
      { intros b Hb. rewrite elem_of_difference, elem_of_singleton. split; [by apply G4|]. intros ->. by apply (G5 a Ha Hap). }
      apply subseteq_size in Hss. rewrite size_difference in Hss by (clear -Ha; set_solver). rewrite size_singleton in Hss.
      assert (size und ≠ 0) by (intros Hs0; apply Hund, leibniz_equiv; by apply size_empty_inv). lia.
    - exists g'. split; [done|]. split_and!; [done|congruence..|done].
  Qed.

  Lemma complete_spec o g :
    pok g → p_arcs g = K0 → (∀ x y, upair x y ∈ p_edges g ↔ adjacent (E ∖ K0) x y) →
    ∃ g', to_complete_pdag o g = (g', Ok tt) ∧ shows E g' ∧ p_nodes g' = p_nodes g ∧ p_known g' = p_known g ∧
      ∀ i j, (i, j) ∈ p_arcs g' ↔ prot E K0 i j.
  Proof.
    intros Hg HA He. unfold to_complete_pdag. apply complete_loop_spec; [|lia].
    assert (∀ a, a ∈ p_edges g ∪ set_map swap (p_edges g) ↔ upair a.1 a.2 ∈ p_edges g) as Hu.
    { intros [x y]. rewrite elem_of_union, elem_of_map. cbn. split.
      - intros [H|([x' y'] & [= -> ->] & H)]; pose proof (pok_edge g Hg _ H) as Hlt; cbn in Hlt; unfold upair;
        [rewrite Nat.min_l, Nat.max_r by lia|rewrite Nat.min_r, Nat.max_l by lia]; done.
      - unfold upair. intros H. destruct (Nat.le_gt_cases x y).
        + rewrite Nat.min_l, Nat.max_r in H by lia. by left.
        + rewrite Nat.min_r, Nat.max_l in H by lia. right. by exists (y, x). }
    constructor.
    - constructor; [done|by rewrite HA|]. intros x y. by rewrite He, HA.
    - done.
    - intros a Ha. rewrite lookup_set_flags, decide_False; [by rewrite lookup_set_flags, decide_True|].
      intros Hau%Hu. destruct a as [x y]. by apply (pok_disj g Hg x y).
    - by rewrite HA.
    - intros i j. rewrite HA. apply prot_known.
  Qed.
End protected.
