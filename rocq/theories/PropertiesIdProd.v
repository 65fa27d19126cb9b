(** Conditional distributions of products of formulas: C125. *)
From Coq Require Import QArith.Qcanon.
From Verif Require Import Py Spec DagModel QMatModel DiscreteModel IdFormulaModel SpecDiscrete SpecId TopoProofs StateProofs ReachProofs QueryProofs CoreProofs MarkovProofs QMatProofs
  PropertiesDag DiscreteProofs QcTac PropertiesDiscrete PropertiesId.
From Coq Require Import Field.
#[local] Open Scope Qc_scope.

(** The variables whose values a formula of a single term mentions. *)
Fixpoint scope (f : formula) : nset :=
  match f with Term A C _ => A ∪ C | Prod _ _ => ∅ | Marg _ X f => scope f ∖ X end.
(** No factor mentions a variable of another one, except for those in [C]. *)
Fixpoint apart (C : nset) (terms : list formula) : Prop :=
  match terms with
  | [] => True
  | t :: l => (∀ u, u ∈ l → (f_active t ∖ C) ∩ scope u = ∅ ∧ (f_active u ∖ C) ∩ scope t = ∅) ∧ apart C l
  end.

Lemma Qcinv_mul (x y : Qc) : / (x * y) = / x * / y.
Proof.
  assert (/ 0 = 0) as E by done.
  destruct (decide (x = 0)) as [->|Hx]; [rewrite Qcmult_0_l, E; ring|]. destruct (decide (y = 0)) as [->|Hy]; [rewrite Qcmult_0_r, E; ring|]. by field.
Qed.

Section products.
  Context (D : ddag) (P : nset → assignment → Qc) (HP : on_nodes D P).
  Notation den := (den D P).
  Notation sum_out := (sum_out D).
  Definition prod_of (fs : list (assignment → Qc)) (a : assignment) : Qc := foldr (λ f acc, f a * acc) 1 fs.

  Lemma prod_cons f fs a : prod_of (f :: fs) a = f a * prod_of fs a.
  Proof using All. done. Qed.
  Lemma scope_active f : one_term f → formed D f → f_active f ⊆ scope f.
  Proof using All.
    induction f as [A C J|A l|A X f IH]; intros H1 Hf; [|done|]; cbn in *; [set_solver|]. destruct Hf as (Hf & HA & ->). specialize (IH H1 Hf). set_solver.
  Qed.
  Lemma sum_out_scope (X S : nset) f a b : (∀ c c', (∀ v, v ∈ S → c !!! v = c' !!! v) → f c = f c') → (∀ v, v ∈ S ∖ X → a !!! v = b !!! v) →
    sum_out X f a = sum_out X f b.
  Proof using All. intros Hf Hab. apply (sum_over_agree D S); [done|]. intros v Hv Hx. apply Hab. rewrite elem_of_elements in Hx. set_solver. Qed.
  Lemma den_scope f : one_term f → ∀ a b, (∀ v, v ∈ scope f → a !!! v = b !!! v) → den f a = den f b.
  Proof using All.
    induction f as [A C J|A l|A X f IH]; intros H1 a b H; [|done|]; cbn in *.
    - rewrite (mass_agree D P HP J (A ∪ C) a b), (mass_agree D P HP J C a b); [done|intros v Hv _; apply H; set_solver..].
    - apply (sum_out_scope X (scope f)); [by apply IH|done].
  Qed.
  Lemma possible_scope f a b : one_term f → formed D f → (∀ v, v ∈ scope f → v ∉ f_active f → b !!! v = a !!! v) → possible D P f a → possible D P f b.
  Proof using All.
    induction f as [A C J|A l|A X f IH]; intros H1 Hf Hab Hp; [|done|]; cbn in *.
    - destruct Hf as [Hf1 Hf2]. rewrite (mass_agree D P HP J C b a); [done|]. intros v Hv _. apply Hab; set_solver.
    - destruct Hf as (Hf & HA & ->). apply IH; [done|done| |done]. intros v Hv Hn. apply Hab; set_solver.
  Qed.

  (** The sum of a product of factors without common variables. *)
  Lemma prod_sum C l : Forall (λ t, one_term t ∧ formed D t) l → apart C l → ∀ a,
    sum_out (⋃ (f_active <$> l) ∖ C) (prod_of (den <$> l)) a = prod_of ((λ t, sum_out (f_active t ∖ C) (den t)) <$> l) a.
  Proof using All.
    induction l as [|t l IH]; intros Hl Hap a.
    - cbn. assert ((∅ : nset) ∖ C = ∅) as -> by set_solver. unfold SpecId.sum_out. rewrite elements_empty. done.
    - apply Forall_cons in Hl as [[Ht1 Htf] Hl]. destruct Hap as [Hap1 Hap2]. specialize (IH Hl Hap2). cbn.
      set (B := ⋃ (f_active <$> l)) in *.
      assert ((B ∖ C) ∩ scope t = ∅) as HBt.
      { apply set_eq. intros v. split; [|set_solver]. intros [[HvB HvC]%elem_of_difference Hvt]%elem_of_intersection.
        apply elem_of_union_list in HvB as (Z & (u & -> & Hu)%elem_of_list_fmap & HvZ). destruct (Hap1 u Hu) as [_ H2]. set_solver. }
      pose proof (scope_active t Ht1 Htf) as Hta.
      assert ((f_active t ∪ B) ∖ C = (f_active t ∖ C) ∪ (B ∖ C)) as -> by set_solver.
      rewrite (sum_out_split D P) by set_solver.
      transitivity (sum_out (f_active t ∖ C) (λ b, den t b * prod_of ((λ t, sum_out (f_active t ∖ C) (den t)) <$> l) b) a).
      + apply sum_over_ext. intros b _. rewrite <-IH. rewrite Qcmult_comm. rewrite <-(sum_out_mul D P HP (B ∖ C) (prod_of (den <$> l)) (den t) b).
        * apply sum_over_ext. intros c _. cbn. apply Qcmult_comm.
        * intros c Hc. apply den_scope; [done|]. intros v Hv. apply Hc. set_solver.
      + rewrite (sum_out_mul D P HP); [done|]. intros b Hb. clear IH HBt B. induction l as [|u l IHl]; [done|].
        apply Forall_cons in Hl as [[Hu1 Huf] Hl]. destruct Hap2 as [_ Hap2]. cbn. f_equal.
        * apply (sum_out_scope _ (scope u)); [by apply den_scope|]. intros v Hv. apply Hb. destruct (Hap1 u) as [H1 _]; [apply elem_of_list_here|]. set_solver.
        * apply IHl; [done| |done]. intros w Hw. apply Hap1. by apply elem_of_list_further.
  Qed.

  Definition cond_factor (C : nset) (t t' : formula) : Prop :=
    f_active t' = f_active t ∖ C ∧ ∀ a, possible D P t a → den t' a = den t a / sum_out (f_active t ∖ C) (den t) a.
  Lemma prod_cond C l l' a : Forall2 (cond_factor C) l l' → Forall (λ t, possible D P t a) l →
    prod_of (den <$> l') a = prod_of (den <$> l) a / prod_of ((λ t, sum_out (f_active t ∖ C) (den t)) <$> l) a.
  Proof using All.
    intros H. induction H as [|t t' l l' [_ Ht] Hl IH]; intros Hp; [done|]. apply Forall_cons in Hp as [Hp1 Hp2]. rewrite !fmap_cons, !prod_cons, Ht, IH by done.
    unfold Qcdiv. rewrite Qcinv_mul. ring.
  Qed.
  Lemma den_prod A l a : den (Prod A l) a = prod_of (den <$> l) a.
  Proof using All. cbn. unfold prod_of. induction l as [|t l IH]; [done|]. cbn. by rewrite IH. Qed.
  Lemma active_diff C l l' : Forall2 (cond_factor C) l l' → ⋃ (f_active <$> l') = ⋃ (f_active <$> l) ∖ C.
  Proof using All. induction 1 as [|t t' l l' [Ht _] Hl IH]; cbn; [set_solver|]. rewrite Ht, IH. set_solver. Qed.
  Lemma possible_all C l a b : Forall (λ t, one_term t ∧ formed D t) l → apart C l → (∀ v, v ∉ ⋃ (f_active <$> l) ∖ C → b !!! v = a !!! v) →
    Forall (λ t, possible D P t a) l → Forall (λ t, possible D P t b) l.
  Proof using All.
    intros Hl Hap Hab Hp. apply Forall_forall. intros t Ht. rewrite Forall_forall in Hl, Hp. destruct (Hl t Ht) as [H1 H2].
    apply (possible_scope t a b H1 H2); [|by apply Hp]. intros v Hv Hn. apply Hab. intros [HvB HvC]%elem_of_difference.
    apply elem_of_union_list in HvB as (Z & (u & -> & Hu)%elem_of_list_fmap & HvZ).
    assert (u = t ∨ (f_active u ∖ C) ∩ scope t = ∅) as [->|Hd]; [|done|set_solver].
    clear -Hap Ht Hu. induction l as [|x l IH]; [by apply elem_of_nil in Ht|]. destruct Hap as [Hx Hap].
    apply elem_of_cons in Ht as [->|Ht], Hu as [->|Hu]; [by left|right; by apply Hx|right; by apply Hx|by apply IH].
  Qed.
End products.

(** A product whose factors have no variable in common except for those in [C]: [get_conditional] denotes the conditional
    distribution of the variables [M] (all others, if [M] is empty) given [C]. *)
Theorem C125_product (D : ddag) (P : nset → assignment → Qc) (terms : list formula) (M C : nset) :
  on_nodes D P → terms ≠ [] → Forall (λ t, one_term t ∧ formed D t ∧ C ⊆ f_active t) terms → apart C terms → C ≠ ∅ →
  let A := ⋃ (f_active <$> terms) in
  M ∩ C = ∅ → M ⊆ A →
  let M' := if decide (M = ∅) then A ∖ C else M in
  ∃ g, get_cond (Prod A terms) M C = Ok g ∧ f_active g = M' ∧
    ∀ a, Forall (λ t, possible D P t a) terms →
      den D P g a = sum_out D (A ∖ (M' ∪ C)) (den D P (Prod A terms)) a / sum_out D (A ∖ C) (den D P (Prod A terms)) a.
Proof.
  intros HP Hne Hl Hap HC A HMC HM M'.
  assert (Forall (λ t, one_term t ∧ formed D t) terms) as Hl2 by (eapply Forall_impl; [exact Hl|]; naive_solver).
  assert (C ⊆ A) as HCA.
  { destruct terms as [|t l]; [done|]. apply Forall_cons in Hl as [(_ & _ & H) _]. unfold A. cbn. set_solver. }
  assert (M' ⊆ A ∖ C) as HM' by (unfold M'; case_decide; set_solver).
  cbn [get_cond f_active]. rewrite (decide_True (P := _ ∧ _)) by set_solver. rewrite (decide_False (P := C = ∅)) by done. fold M'. clearbody M'.
  match goal with |- context [res_bind (?go terms)] => assert (∃ l', go terms = Ok l' ∧ Forall2 (cond_factor D P C) terms l') as (l' & Hgo & Hf) end.
  { clear -HP Hl HC. induction terms as [|t l IH]; [exists []; split; [done|constructor]|]. apply Forall_cons in Hl as [(H1 & Hf & HCt) Hl].
    destruct (IH Hl) as (l' & Hl' & HF). destruct (cond_main D P HP t C H1 Hf HCt ∅) as (g & Hg & Hga & _ & _ & Hgd); [set_solver|set_solver|by right|].
    rewrite decide_True in Hga, Hgd by done. exists (g :: l'). rewrite Hg. cbn [res_bind]. rewrite Hl'. split; [done|]. constructor; [|done]. split; [done|].
    intros a Hp. rewrite Hgd by done. f_equal. assert (f_active t ∖ (f_active t ∖ C ∪ C) = ∅) as ->.
    { apply set_eq. intros v. destruct (decide (v ∈ C)); set_solver. }
    unfold SpecId.sum_out. by rewrite elements_empty. }
  rewrite Hgo. cbn [res_bind]. unfold make_prod. rewrite decide_False.
  2:{ intros ->. apply Forall2_length in Hf. destruct terms; [done|discriminate]. }
  cbn [res_bind]. rewrite (active_diff D P HP C terms l' Hf). fold A.
  set (p := Prod (A ∖ C) l').
  assert (∀ a, Forall (λ t, possible D P t a) terms → den D P p a = den D P (Prod A terms) a / sum_out D (A ∖ C) (den D P (Prod A terms)) a) as Hden.
  { intros a Hp. unfold p. rewrite !(den_prod D P HP). rewrite (prod_cond D P HP C terms l' a Hf Hp). f_equal. rewrite <-(prod_sum D P HP C terms Hl2 Hap).
    apply sum_over_ext. intros b _. by rewrite (den_prod D P HP). }
  destruct (decide (M' ∪ C = A)) as [HMA|HMA].
  - exists p. split; [done|]. assert (M' = A ∖ C) as ->.
    { apply set_eq. intros v. rewrite <-HMA. set_solver. }
    split; [done|]. intros a Hp. rewrite Hden by done. f_equal. assert (A ∖ (A ∖ C ∪ C) = ∅) as ->.
    { apply set_eq. intros v. destruct (decide (v ∈ C)); set_solver. }
    unfold SpecId.sum_out. by rewrite elements_empty.
  - unfold make_marg. cbn [f_active p]. rewrite decide_True by done. eexists. split; [done|]. split; [done|]. intros a Hp.
    change (sum_out D ((A ∖ C) ∖ M') (den D P p) a = sum_out D (A ∖ (M' ∪ C)) (den D P (Prod A terms)) a / sum_out D (A ∖ C) (den D P (Prod A terms)) a).
    assert ((A ∖ C) ∖ M' = A ∖ (M' ∪ C)) as -> by set_solver.
    transitivity (sum_out D (A ∖ (M' ∪ C)) (λ b, den D P (Prod A terms) b * / sum_out D (A ∖ C) (den D P (Prod A terms)) b) a).
    + apply sum_over_ext. intros b [Hb _]. apply Hden. apply (possible_all D P HP C terms a b Hl2 Hap); [|done].
      intros v Hv. apply Hb. rewrite elem_of_elements. fold A in Hv. set_solver.
    + unfold Qcdiv. apply (sum_out_mul D P HP). intros b Hb. f_equal.
      apply (sum_out_scope D P HP _ (⋃ (scope <$> terms))).
      * intros c c' Hc. rewrite !(den_prod D P HP). clear -HP Hl2 Hc. induction terms as [|t l IH]; [done|]. apply Forall_cons in Hl2 as [[H1 _] Hl2]. cbn in *. f_equal.
        -- apply (den_scope D P HP t H1). intros v Hv. apply Hc. set_solver.
        -- apply IH; [done|]. intros v Hv. apply Hc. set_solver.
      * intros v Hv. apply Hb. set_solver.
Qed.

(** The factors P(0,1) and P(0,2) given node 0: the result is P(1|0) P(2|0). *)
Definition ex_three : ddag := DDag (dag_of {[0; 1; 2]}%nat ∅) [0; 1; 2]%nat ∅ ∅ (list_to_map [(0%nat, [qz 0; qz 1]); (1%nat, [qz 0; qz 1]); (2%nat, [qz 0; qz 1])]).
Definition ex_law3 (_ : nset) (a : assignment) : Qc := t_at (ex_tab [1; 2; 3; 4; 5; 6; 7; 8]%Z [2; 2; 2]%nat) [a !!! 0%nat; a !!! 1%nat; a !!! 2%nat].
Example C125_product_example :
  let ts := [Term {[0; 1]}%nat ∅ ∅; Term {[0; 2]}%nat ∅ ∅] in
  on_nodes ex_three ex_law3 ∧ Forall (λ t, one_term t ∧ formed ex_three t ∧ {[0%nat]} ⊆ f_active t) ts ∧ apart {[0]}%nat ts ∧
  Forall (λ t, possible ex_three ex_law3 t ∅) ts ∧
  ∃ g, get_cond (Prod {[0; 1; 2]}%nat ts) {[1]}%nat {[0]}%nat = Ok g ∧ den ex_three ex_law3 g ∅ = qz 3 / qz 10.
Proof.
  intros ts. split; [|split; [|split; [|split]]].
  - intros J a b H. unfold ex_law3. rewrite (H 0%nat), (H 1%nat), (H 2%nat); [done|by_vm..].
  - repeat constructor; by_vm.
  - split; [|by split; [intros u Hu; by apply elem_of_nil in Hu|]]. intros u ->%elem_of_list_singleton. split; by_vm.
  - repeat constructor; intros H; apply (f_equal (λ q, bool_decide (q = 0))) in H; vm_compute in H; done.
  - assert (match get_cond (Prod {[0; 1; 2]}%nat ts) {[1]}%nat {[0]}%nat with Ok g => bool_decide (den ex_three ex_law3 g ∅ = qz 3 / qz 10) | Raise _ => false end = true) as H by (vm_compute; reflexivity).
    destruct (get_cond _ _ _) as [g|]; [|done]. exists g. split; [done|]. by apply bool_decide_eq_true in H.
Qed.

Print Assumptions C125_product.
