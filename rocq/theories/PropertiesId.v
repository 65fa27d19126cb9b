(** Final theorems about the formulas of identification: C125. *)
From Coq Require Import QArith.Qcanon.
From Verif Require Import Py Spec DagModel QMatModel DiscreteModel IdFormulaModel SpecDiscrete SpecId TopoProofs StateProofs ReachProofs QueryProofs CoreProofs MarkovProofs QMatProofs
  PropertiesDag DiscreteProofs QcTac PropertiesDiscrete.
From Coq Require Import Field.
#[local] Open Scope Qc_scope.

Section formulas.
  Context (D : ddag) (P : nset → assignment → Qc).
  Notation N := (d_nodes (dd_dag D)).
  Notation mass := (mass D P).
  Notation den := (den D P).
  Notation sum_out := (sum_out D).

  Lemma sum_out_split (X Y : nset) f a : X ∩ Y = ∅ → sum_out (X ∪ Y) f a = sum_out X (sum_out Y f) a.
  Proof using All.
    intros H. unfold SpecId.sum_out. rewrite (sum_over_perm D (elements (X ∪ Y)) (elements X ++ elements Y)); [apply sum_over_app|apply NoDup_elements|].
    apply elements_disj_union. set_solver.
  Qed.
  Lemma mass_sum J (Y S : nset) a : Y ⊆ N → Y ∩ S = ∅ → sum_out Y (mass J (Y ∪ S)) a = mass J S a.
  Proof using All.
    intros HY HS. unfold SpecId.mass. change (sum_out Y (sum_out (N ∖ (Y ∪ S)) (P J)) a = sum_out (N ∖ S) (P J) a).
    rewrite <-sum_out_split by set_solver. f_equal. apply set_eq. intros v. destruct (decide (v ∈ Y)); set_solver.
  Qed.
  Context (HP : on_nodes D P).
  Lemma sum_out_agree (X : nset) f a b : (∀ c c', (∀ v, v ∈ N → c !!! v = c' !!! v) → f c = f c') → (∀ v, v ∈ N → v ∉ X → a !!! v = b !!! v) →
    sum_out X f a = sum_out X f b.
  Proof using All. intros Hf Hab. apply (sum_over_agree D N); [done|]. intros v Hv Hx. apply Hab; [done|]. by rewrite elem_of_elements in Hx. Qed.
  Lemma mass_agree J (S : nset) a b : (∀ v, v ∈ S → v ∈ N → a !!! v = b !!! v) → mass J S a = mass J S b.
  Proof using All. intros H. apply (sum_out_agree (N ∖ S)); [apply HP|]. intros v H1 H2. apply H; [|done]. destruct (decide (v ∈ S)); [done|set_solver]. Qed.
  Lemma den_agree f : one_term f → ∀ a b, (∀ v, v ∈ N → a !!! v = b !!! v) → den f a = den f b.
  Proof using All.
    induction f as [A C J|A l|A X f IH]; intros H1 a b H; [|done|].
    - cbn. rewrite (mass_agree J (A ∪ C) a b), (mass_agree J C a b); auto.
    - cbn. apply sum_out_agree; [by apply IH|auto].
  Qed.
  Lemma sum_out_mul (X : nset) f g a : (∀ b, (∀ v, v ∉ X → b !!! v = a !!! v) → g b = g a) → sum_out X (λ b, f b * g b) a = sum_out X f a * g a.
  Proof using All. intros H. apply sum_over_mul. intros b [Hb _]. apply H. intros v Hv. apply Hb. by rewrite elem_of_elements. Qed.

  Lemma term_sum A C J (Y : nset) a : A ∩ C = ∅ → A ∪ C ⊆ N → Y ⊆ A → sum_out Y (den (Term A C J)) a = mass J ((A ∖ Y) ∪ C) a / mass J C a.
  Proof using All.
    intros HAC HN HY. cbn. unfold Qcdiv. rewrite (sum_out_mul Y (mass J (A ∪ C)) (λ b, / mass J C b)).
    2:{ intros b Hb. f_equal. apply mass_agree. intros v Hv _. apply Hb. set_solver. }
    f_equal. assert (A ∪ C = Y ∪ ((A ∖ Y) ∪ C)) as ->; [|apply mass_sum; set_solver].
    apply set_eq. intros v. destruct (decide (v ∈ Y)); set_solver.
  Qed.
  Lemma one_term_norm f a : one_term f → formed D f → possible D P f a → sum_out (f_active f) (den f) a = 1.
  Proof using All.
    revert a. induction f as [A C J|A l|A X f IH]; intros a H1 Hf Hp; [|done|]; cbn [f_active].
    - destruct Hf as [Hf1 Hf2]. rewrite term_sum by done. cbn in Hp. assert ((A ∖ A) ∪ C = C) as -> by set_solver. by field.
    - destruct Hf as (Hf & HA & ->). cbn in Hp. rewrite <-(IH a H1 Hf Hp). change (den (Marg A (f_active f ∖ A) f)) with (sum_out (f_active f ∖ A) (den f)).
      rewrite <-sum_out_split by set_solver. f_equal. apply set_eq. intros v. destruct (decide (v ∈ A)); set_solver.
  Qed.
  Lemma possible_agree f a b : one_term f → formed D f → (∀ v, v ∉ f_active f → b !!! v = a !!! v) → possible D P f a → possible D P f b.
  Proof using All.
    induction f as [A C J|A l|A X f IH]; intros H1 Hf Hab Hp; [|done|]; cbn in *.
    - destruct Hf as [Hf1 Hf2]. rewrite (mass_agree J C b a); [done|]. intros v Hv _. apply Hab. set_solver.
    - destruct Hf as (Hf & HA & _). apply IH; [done|done| |done]. intros v Hv. apply Hab. set_solver.
  Qed.
  (** ** Marginals *)
  Lemma marginal_main f (M : nset) : formed D f → M ≠ ∅ → M ⊆ f_active f →
    ∃ g, get_cond f M ∅ = Ok g ∧ f_active g = M ∧ formed D g ∧ ∀ a, den g a = sum_out (f_active f ∖ M) (den f) a.
  Proof using All.
    intros Hf HM HMA. destruct f as [A C J|A l|A X f]; cbn [get_cond f_active] in *; rewrite (decide_True (P := _ ∧ _)) by set_solver.
    - destruct Hf as [Hf1 Hf2]. rewrite decide_False by done. eexists. split; [done|]. split; [done|]. split; [split; set_solver|]. intros a.
      rewrite term_sum by set_solver. assert (A ∖ (A ∖ M) = M) as ->. { apply set_eq. intros v. destruct (decide (v ∈ M)); set_solver. } cbn. by rewrite (right_id_L ∅ (∪)).
    - rewrite decide_True by done. unfold make_marg. rewrite decide_True by done. eexists. split; [done|]. split; [done|]. split; [done|]. done.
    - destruct Hf as (Hf & HA & ->). rewrite decide_True by done. unfold make_marg. rewrite decide_True by set_solver. eexists. split; [done|]. split; [done|].
      split; [split; [done|split; [set_solver|done]]|]. intros a. cbn [SpecId.den].
      change (SpecId.den D P (Marg A (f_active f ∖ A) f)) with (sum_out (f_active f ∖ A) (den f)).
      rewrite <-sum_out_split by set_solver. f_equal. apply set_eq. intros v. destruct (decide (v ∈ A)), (decide (v ∈ M)); set_solver.
  Qed.
  (** ** Conditional distributions *)
  Lemma cond_main f (C : nset) : one_term f → formed D f → C ⊆ f_active f → ∀ (M : nset), M ∩ C = ∅ → M ⊆ f_active f → (M ≠ ∅ ∨ C ≠ ∅) →
    let M' := if decide (M = ∅) then f_active f ∖ C else M in
    ∃ g, get_cond f M C = Ok g ∧ f_active g = M' ∧ one_term g ∧ formed D g ∧
      ∀ a, possible D P f a → den g a = sum_out (f_active f ∖ (M' ∪ C)) (den f) a / sum_out (f_active f ∖ C) (den f) a.
  Proof using All.
    induction f as [A C0 J|A l|A X f IH]; intros H1 Hf HC M HMC HM Hne M'; [|done|]; cbn [get_cond f_active] in *; rewrite (decide_True (P := _ ∧ _)) by set_solver.
    - destruct Hf as [Hf1 Hf2]. eexists. split; [done|]. split; [done|]. split; [done|].
      assert (M' ⊆ A ∧ M' ∩ C = ∅) as [HM1 HM2] by (unfold M'; case_decide; set_solver). fold M'. clearbody M'. clear Hne. split; [split; set_solver|].
      intros a Hp. cbn in Hp. rewrite !term_sum by set_solver.
      assert (A ∖ (A ∖ (M' ∪ C)) ∪ C0 = M' ∪ (C0 ∪ C)) as ->. { apply set_eq. intros v. destruct (decide (v ∈ M')), (decide (v ∈ C)), (decide (v ∈ C0)); set_solver. }
      assert (A ∖ (A ∖ C) ∪ C0 = C0 ∪ C) as ->. { apply set_eq. intros v. destruct (decide (v ∈ C)), (decide (v ∈ C0)); set_solver. }
      change (mass J (M' ∪ (C0 ∪ C)) a / mass J (C0 ∪ C) a = mass J (M' ∪ (C0 ∪ C)) a / mass J C0 a / (mass J (C0 ∪ C) a / mass J C0 a)).
      destruct (decide (mass J (C0 ∪ C) a = 0)) as [E|E]; [|by field]. rewrite E. unfold Qcdiv. rewrite (Qcmult_0_l (/ _)). assert (/ 0 = 0) as -> by done. ring.
    - destruct Hf as (Hf & HA & ->). destruct (decide (C = ∅)) as [->|HC0].
      { destruct Hne as [Hne|]; [|done]. unfold M'. rewrite decide_False by done. unfold make_marg. rewrite decide_True by set_solver. eexists. split; [done|]. split; [done|]. split; [done|].
        split; [split; [done|split; [set_solver|done]]|]. intros a Hp.
        assert (sum_out (A ∖ ∅) (den (Marg A (f_active f ∖ A) f)) a = 1) as ->.
        { rewrite difference_empty_L. apply (one_term_norm (Marg A (f_active f ∖ A) f)); done. }
        assert (∀ x, x / 1 = x) as -> by (intros x; field; done).
        change (den (Marg A (f_active f ∖ A) f)) with (sum_out (f_active f ∖ A) (den f)). rewrite <-sum_out_split by set_solver. cbn. f_equal.
        apply set_eq. intros v. destruct (decide (v ∈ A)), (decide (v ∈ M)); set_solver. }
      assert (M' ⊆ A ∧ M' ∩ C = ∅) as [HM1 HM2] by (unfold M'; case_decide; set_solver). fold M'. clearbody M'. assert (C ⊆ f_active f) as HCf by set_solver.
      destruct (IH H1 Hf) with (M := ∅ : nset) as (g & Hg & Hga & Hg1 & Hgf & Hgd); [done|set_solver|set_solver|by right|]. rewrite decide_True in Hga, Hgd by done. clear IH.
      assert (M' ⊆ f_active f ∖ C) as HMf by set_solver.
      rewrite Hg. cbn [res_bind]. unfold make_marg. rewrite Hga, decide_True by done. eexists. split; [done|]. split; [done|]. split; [done|].
      split; [split; [done|by rewrite Hga]|]. intros a Hp. cbn [SpecId.den]. cbn in Hp.
      change (SpecId.den D P (Marg A (f_active f ∖ A) f)) with (sum_out (f_active f ∖ A) (den f)).
      rewrite <-!sum_out_split by set_solver.
      assert (A ∖ (M' ∪ C) ∪ f_active f ∖ A = (f_active f ∖ C) ∖ M') as ->. { clear -HA HM1 HC. apply set_eq. intros v. destruct (decide (v ∈ A)); set_solver. }
      assert (A ∖ C ∪ f_active f ∖ A = f_active f ∖ C) as ->. { clear -HA HC. apply set_eq. intros v. destruct (decide (v ∈ A)); set_solver. }
      transitivity (sum_out ((f_active f ∖ C) ∖ M') (λ b, den f b * / sum_out (f_active f ∖ C) (den f) b) a).
      + apply sum_over_ext. intros b [Hb _]. rewrite Hgd.
        2:{ apply (possible_agree f a b H1 Hf); [|done]. intros v Hv. apply Hb. rewrite elem_of_elements. set_solver. }
        assert (f_active f ∖ (f_active f ∖ C ∪ C) = ∅) as ->. { clear -HCf. apply set_eq. intros v. destruct (decide (v ∈ C)); set_solver. }
        unfold SpecId.sum_out at 1. rewrite elements_empty. done.
      + apply sum_out_mul. intros b Hb. f_equal. apply sum_out_agree; [by apply den_agree|]. intros v _ Hv. apply Hb. set_solver.
  Qed.
End formulas.

(** ** C125: conditional and marginal formulas *)
(** [marginalize_out] returns a formula of the other variables that denotes the sum over the values of those in [X]. *)
Theorem C125_marginalize (D : ddag) (P : nset → assignment → Qc) (f : formula) (X : nset) :
  on_nodes D P → formed D f → f_active f ∖ X ≠ ∅ →
  ∃ g, marginalize_out f X = Ok g ∧ f_active g = f_active f ∖ X ∧ formed D g ∧ ∀ a, den D P g a = sum_out D (f_active f ∩ X) (den D P f) a.
Proof.
  intros HP Hf Hne. destruct (marginal_main D P HP f (f_active f ∖ X) Hf Hne) as (g & Hg & Ha & Hgf & Hd); [set_solver|].
  exists g. split; [done|]. split; [done|]. split; [done|]. intros a. rewrite Hd. f_equal. apply set_eq. intros v. destruct (decide (v ∈ X)); set_solver.
Qed.
(** A formula of a single term: [get_conditional] denotes the conditional distribution of the variables [M] (all others, if [M] is empty) given [C]. *)
Theorem C125_conditional (D : ddag) (P : nset → assignment → Qc) (f : formula) (M C : nset) :
  on_nodes D P → one_term f → formed D f → M ∩ C = ∅ → M ∪ C ⊆ f_active f → M ∪ C ≠ ∅ →
  let M' := if decide (M = ∅) then f_active f ∖ C else M in
  ∃ g, get_cond f M C = Ok g ∧ f_active g = M' ∧ one_term g ∧ formed D g ∧
    ∀ a, possible D P f a → den D P g a = sum_out D (f_active f ∖ (M' ∪ C)) (den D P f) a / sum_out D (f_active f ∖ C) (den D P f) a.
Proof. intros HP H1 Hf HMC HA Hne. apply cond_main; [done..|set_solver|done|set_solver|]. destruct (decide (M = ∅)); [right; set_solver|by left]. Qed.
(** Such a formula is a probability distribution of its variables: the values sum to 1. *)
Theorem C125_normalized (D : ddag) (P : nset → assignment → Qc) (f : formula) (a : assignment) :
  on_nodes D P → one_term f → formed D f → possible D P f a → sum_out D (f_active f) (den D P f) a = 1.
Proof. intros HP. by apply one_term_norm. Qed.
(** Variables that are not there, or twice: an error. *)
Theorem C125_error (f : formula) (M C : nset) : M ∩ C ≠ ∅ ∨ ¬ M ∪ C ⊆ f_active f → get_cond f M C = Raise ValueError.
Proof. intros H. destruct f; cbn [get_cond]; rewrite (decide_False (P := _ ∧ _)) by tauto; done. Qed.
(** A product cannot be conditioned on variables that one of its factors does not have. *)
Theorem C125_product_error (A : nset) (terms : list formula) (t : formula) (M C : nset) : C ≠ ∅ → t ∈ terms → ¬ C ⊆ f_active t →
  ∃ e, get_cond (Prod A terms) M C = Raise e.
Proof.
  intros HC Ht HCt. cbn [get_cond]. case_decide; [|by eexists]. rewrite decide_False by done. clear H.
  match goal with |- context [res_bind (?go terms)] => assert (∃ e, go terms = Raise e) as [e He] end.
  { induction terms as [|x l IH]; [by apply elem_of_nil in Ht|]. apply elem_of_cons in Ht as [<-|Ht].
    - rewrite C125_error by (right; set_solver). by eexists.
    - destruct (get_cond x ∅ C); cbn [res_bind]; [|by eexists]. destruct (IH Ht) as [e ->]. by eexists. }
  rewrite He. by eexists.
Qed.

(** *** Examples *)
Definition ex_two : ddag := DDag (dag_of {[0; 1]}%nat ∅) [0; 1]%nat ∅ ∅ (list_to_map [(0%nat, [qz 0; qz 1]); (1%nat, [qz 0; qz 1])]).
Definition ex_law (_ : nset) (a : assignment) : Qc := t_at (ex_tab [1; 2; 3; 4]%Z [2; 2]%nat) [a !!! 0%nat; a !!! 1%nat].
Lemma ex_law_nodes : on_nodes ex_two ex_law.
Proof. intros J a b H. unfold ex_law. rewrite (H 0%nat), (H 1%nat); [done|by_vm..]. Qed.
(** The sum of P(0,1) over node 0 given node 1: the formula is [P(0|1)], with the value 1/4. *)
Example C125_example :
  let f := Marg {[0; 1]}%nat ∅ (Term {[0; 1]}%nat ∅ ∅) in
  on_nodes ex_two ex_law ∧ one_term f ∧ formed ex_two f ∧ possible ex_two ex_law f ∅ ∧
  (∃ g, get_cond f {[0]}%nat {[1]}%nat = Ok g ∧ den ex_two ex_law g ∅ = qz 1 / qz 4) ∧
  ∃ g, marginalize_out (Prod {[0; 1]}%nat [Term {[0]}%nat {[1]}%nat ∅; Term {[1]}%nat ∅ ∅]) {[0]}%nat = Ok g ∧ den ex_two ex_law g ∅ = q10 4.
Proof.
  intros f. split; [apply ex_law_nodes|]. split; [done|]. split; [repeat split; by_vm|]. split; [|split].
  - intros H. apply (f_equal (λ q, bool_decide (q = 0))) in H. vm_compute in H. done.
  - assert (match get_cond f {[0]}%nat {[1]}%nat with Ok g => bool_decide (den ex_two ex_law g ∅ = qz 1 / qz 4) | Raise _ => false end = true) as H by (vm_compute; reflexivity).
    destruct (get_cond f {[0]}%nat {[1]}%nat) as [g|]; [|done]. exists g. split; [done|]. by apply bool_decide_eq_true in H.
  - assert (match marginalize_out (Prod {[0; 1]}%nat [Term {[0]}%nat {[1]}%nat ∅; Term {[1]}%nat ∅ ∅]) {[0]}%nat with Ok g => bool_decide (den ex_two ex_law g ∅ = q10 4) | Raise _ => false end = true) as H by (vm_compute; reflexivity).
    destruct (marginalize_out _ _) as [g|]; [|done]. exists g. split; [done|]. by apply bool_decide_eq_true in H.
Qed.
(** With nothing left, [marginalize_out] of a term returns the term itself instead of the sum. *)
Theorem C125_all_refuted : ∃ D P f X g a, on_nodes D P ∧ one_term f ∧ formed D f ∧ possible D P f a ∧ marginalize_out f X = Ok g ∧
  den D P g a ≠ sum_out D (f_active f ∩ X) (den D P f) a.
Proof.
  exists ex_two, ex_law, (Term {[0]}%nat ∅ ∅), {[0]}%nat, (Term {[0]}%nat ∅ ∅), ∅. split; [apply ex_law_nodes|]. split; [done|]. split; [split; by_vm|]. split; [|split].
  - intros H. apply (f_equal (λ q, bool_decide (q = 0))) in H. vm_compute in H. done.
  - unfold marginalize_out. cbn [f_active get_cond]. rewrite difference_diag_L, decide_True by by_vm. rewrite decide_True by done. by rewrite difference_empty_L, (left_id_L ∅ (∪)).
  - intros H. apply (f_equal (λ q, bool_decide (q = 1))) in H. vm_compute in H. done.
Qed.
(** The product of the conditional factors is not the conditional distribution of the product: [P(0,1) P(0,1)] given node 1. *)
Theorem C125_product_refuted : ∃ D P f M C g a, on_nodes D P ∧ formed D f ∧ M ∩ C = ∅ ∧ M ∪ C = f_active f ∧ M ≠ ∅ ∧ get_cond f M C = Ok g ∧
  sum_out D M (den D P f) a ≠ 0 ∧ den D P g a = qz 1 / qz 16 ∧ den D P f a / sum_out D M (den D P f) a = qz 1 / qz 10.
Proof.
  set (f := Prod {[0; 1]}%nat [Term {[0; 1]}%nat ∅ ∅; Term {[0; 1]}%nat ∅ ∅]).
  assert (match get_cond f {[0]}%nat {[1]}%nat with Ok g => bool_decide (den ex_two ex_law g ∅ = qz 1 / qz 16) | Raise _ => false end = true) as H by (vm_compute; reflexivity).
  destruct (get_cond f {[0]}%nat {[1]}%nat) as [g|] eqn:Eg; [|done]. apply bool_decide_eq_true in H.
  exists ex_two, ex_law, f, {[0]}%nat, {[1]}%nat, g, ∅. split; [apply ex_law_nodes|]. split; [cbn; by_vm|]. split; [by_vm|]. split; [by_vm|]. split; [by_vm|]. split; [done|]. split; [|split; [done|]].
  - intros H'. apply (f_equal (λ q, bool_decide (q = 0))) in H'. vm_compute in H'. done.
  - assert (bool_decide (den ex_two ex_law f ∅ / sum_out ex_two {[0]}%nat (den ex_two ex_law f) ∅ = qz 1 / qz 10) = true) as H' by (vm_compute; reflexivity). by apply bool_decide_eq_true in H'.
Qed.

Print Assumptions C125_marginalize.
Print Assumptions C125_conditional.
Print Assumptions C125_normalized.
Print Assumptions C125_error.
Print Assumptions C125_product_error.
Print Assumptions C125_all_refuted.
Print Assumptions C125_product_refuted.
