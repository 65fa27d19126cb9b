(** C107: the densities of perfect interventional distributions. *)
From Coq Require Import QArith.Qcanon.
From Verif Require Import Py Spec DagModel QMatModel GaussModel ScmModel PdfModel SpecScm PropertiesScm.
#[local] Open Scope Qc_scope.

(** A mixture of constants, and its values. *)
Fixpoint of_constants (d : pdist) : Prop :=
  match d with DConst _ => True | DBinary d1 d2 _ => of_constants d1 ∧ of_constants d2 | _ => False end.
Fixpoint values (d : pdist) : list Qc := match d with DConst q => [q] | DBinary d1 d2 _ => values d1 ++ values d2 | _ => [] end.
(** All probabilities are between 0 and 1. *)
Fixpoint fractions (d : pdist) : Prop :=
  match d with DBinary d1 d2 p => 0 <= p ∧ p <= 1 ∧ fractions d1 ∧ fractions d2 | _ => True end.
Definition sum_list (l : list Qc) : Qc := foldr Qcplus 0 l.

Lemma pdf_total d vals : of_constants d → ∃ q, pdf d vals = Ok q.
Proof.
  induction d as [q|d1 IH1 d2 IH2 p|ds]; cbn; [eauto| |done]. intros [H1 H2]. destruct (IH1 H1) as [a ->], (IH2 H2) as [b ->]. eauto.
Qed.
(** On single values it is a probability: the numbers are not negative and add up to 1 over the values. *)
Theorem C107_pdf_single d S : of_constants d → NoDup S → (∀ x, x ∈ values d → x ∈ S) →
  ∃ f, (∀ x, pdf d [x] = Ok (f x)) ∧ sum_list (f <$> S) = 1 ∧ (∀ x, x ∉ values d → f x = 0) ∧ (fractions d → ∀ x, 0 <= f x).
Proof.
  intros Hc HS. induction d as [q|d1 IH1 d2 IH2 p|ds]; cbn in Hc; [| |done].
  - intros Hin. exists (λ x, const_pdf q [x]). split; [done|]. assert (∀ x, const_pdf q [x] = if decide (x = q) then 1 else 0) as Hq.
    { intros x. unfold const_pdf. destruct (decide (x = q)) as [->|Hne]; [by rewrite decide_True by (by constructor)|]. rewrite decide_False; [done|]. by intros [? _]%Forall_cons. }
    split; [|split].
    + assert (q ∈ S) as Hq' by (apply Hin; by left). clear Hin. induction HS as [|x S Hx HS IH]; [by apply elem_of_nil in Hq'|]. cbn. rewrite Hq.
      destruct (decide (x = q)) as [->|Hne].
      * assert (sum_list ((λ x, const_pdf q [x]) <$> S) = 0) as H0; [|unfold sum_list in H0; rewrite H0; ring].
        clear -Hx Hq. induction S as [|y S IH]; [done|]. cbn. rewrite Hq, decide_False by (intros ->; apply Hx; by left). unfold sum_list in IH. rewrite IH; [ring|]. intros H. apply Hx. by right.
      * apply elem_of_cons in Hq' as [->|Hq']; [done|]. specialize (IH Hq'). unfold sum_list in IH. rewrite IH. ring.
    + intros x Hx. rewrite Hq, decide_False; [done|]. intros ->. apply Hx. by left.
    + intros _ x. rewrite Hq. by destruct (decide (x = q)).
  - intros Hin. destruct Hc as [H1 H2]. destruct (IH1 H1) as (f1 & E1 & S1 & Z1 & N1); [intros x Hx; apply Hin, elem_of_app; by left|].
    destruct (IH2 H2) as (f2 & E2 & S2 & Z2 & N2); [intros x Hx; apply Hin, elem_of_app; by right|]. exists (λ x, p * f1 x + (1 - p) * f2 x).
    split; [intros x; cbn; by rewrite E1, E2|]. split; [|split].
    + assert (∀ l, sum_list ((λ x, p * f1 x + (1 - p) * f2 x) <$> l) = p * sum_list (f1 <$> l) + (1 - p) * sum_list (f2 <$> l)) as ->.
      { unfold sum_list. intros l. induction l as [|x l IH]; cbn; [ring|]. rewrite IH. ring. }
      rewrite S1, S2. ring.
    + intros x Hx. cbn in Hx. rewrite elem_of_app in Hx. rewrite Z1, Z2 by tauto. ring.
    + intros (Hp & Hp' & F1 & F2) x. specialize (N1 F1 x). specialize (N2 F2 x).
      assert (0 <= 1 - p) as Hq. { apply Qcle_minus_iff in Hp'. exact Hp'. }
      replace 0 with (0 + 0) by ring. apply Qcplus_le_compat.
      * replace 0 with (0 * f1 x) by ring. by apply Qcmult_le_compat_r.
      * replace 0 with (0 * f2 x) by ring. by apply Qcmult_le_compat_r.
Qed.
(** On an array it is that of its value if all entries are equal, whatever the length, and 0 otherwise: it is not the density
    of independent draws. *)
Theorem C107_pdf_array d vals : of_constants d →
  (∀ x, vals ≠ [] → (∀ y, y ∈ vals → y = x) → pdf d vals = pdf d [x]) ∧
  (∀ x y, x ∈ vals → y ∈ vals → x ≠ y → pdf d vals = Ok 0).
Proof.
  intros Hc. split.
  - intros x Hne Hall. induction d as [q|d1 IH1 d2 IH2 p|ds]; cbn in Hc; [| |done].
    + cbn. unfold const_pdf. f_equal. destruct (decide (x = q)) as [->|Hq].
      * rewrite !decide_True; [done|by constructor|]. by apply Forall_forall.
      * rewrite !decide_False; [done|by intros [? _]%Forall_cons|]. intros H. destruct vals as [|y l]; [done|]. apply Forall_cons in H as [-> _]. by rewrite (Hall q) in Hq by left.
    + cbn. destruct Hc. by rewrite IH1, IH2.
  - intros x y Hx Hy Hne. induction d as [q|d1 IH1 d2 IH2 p|ds]; cbn in Hc; [| |done].
    + cbn. unfold const_pdf. rewrite decide_False; [done|]. rewrite Forall_forall. intros H. apply Hne. by rewrite (H x), (H y).
    + cbn. destruct Hc. rewrite IH1, IH2 by done. cbn. f_equal. ring.
Qed.
(** The ways in which one draw ends at a constant, each with its probability: the first component is chosen with probability [p],
    as [sample] does. *)
Fixpoint ways (d : pdist) : list (Qc * Qc) :=
  match d with
  | DConst q => [(q, 1)]
  | DBinary d1 d2 p => ((λ w, (w.1, p * w.2)) <$> ways d1) ++ ((λ w, (w.1, (1 - p) * w.2)) <$> ways d2)
  | DMulti _ => []
  end.
(** On a single value the density is the probability that one draw gives this value. *)
Theorem C107_pdf_weights d x : of_constants d →
  pdf d [x] = Ok (sum_list (snd <$> filter (λ w, w.1 = x) (ways d))).
Proof.
  intros Hc. induction d as [q|d1 IH1 d2 IH2 p|ds]; cbn in Hc; [| |done].
  - cbn [pdf ways]. unfold const_pdf. f_equal. rewrite filter_cons, filter_nil. cbn [fst]. destruct (decide (q = x)) as [->|Hne].
    + rewrite decide_True by (by constructor). cbn. ring.
    + rewrite decide_False; [done|]. intros [-> _]%Forall_cons. done.
  - cbn [pdf ways]. destruct Hc as [H1 H2]. rewrite (IH1 H1), (IH2 H2). cbn [res_bind]. f_equal. clear. rewrite filter_app, fmap_app.
    assert (∀ l1 l2, sum_list (l1 ++ l2) = sum_list l1 + sum_list l2) as ->.
    { unfold sum_list. intros l1 l2. induction l1 as [|y l1 IH]; cbn; [ring|]. rewrite IH. ring. }
    assert (∀ c (l : list (Qc * Qc)), sum_list (snd <$> filter (λ w, w.1 = x) ((λ w, (w.1, c * w.2)) <$> l)) = c * sum_list (snd <$> filter (λ w, w.1 = x) l)) as Hs.
    { unfold sum_list. intros c l. induction l as [|[y w] l IH]; [cbn; ring|]. rewrite fmap_cons, !filter_cons. cbn [fst].
      destruct (decide (y = x)); cbn; rewrite IH; ring. }
    by rewrite !Hs.
Qed.
(** A mixture with a [MultinomialIntervention] in it has no density: the call raises. *)
Fixpoint has_multi (d : pdist) : Prop :=
  match d with DConst _ => False | DBinary d1 d2 _ => has_multi d1 ∨ has_multi d2 | DMulti _ => True end.
Theorem C107_pdf_raises d vals : (∃ e, pdf d vals = Raise e) ↔ has_multi d.
Proof.
  induction d as [q|d1 IH1 d2 IH2 p|ds]; cbn; [split; [by intros [? ?]|done]| |split; eauto].
  rewrite <-IH1, <-IH2. destruct (pdf d1 vals) as [a|e]; cbn; [|split; eauto].
  destruct (pdf d2 vals) as [b|e]; cbn; [|split; eauto]. split; [by intros [? ?]|by intros [[? ?]|[? ?]]].
Qed.
(** A mixture of three constants. *)
Example C107_pdf_example :
  let d := DBinary (DConst 1) (DBinary (DConst 0) (DConst (zq 2)) (Q2Qc (QArith_base.Qmake 1 2))) (Q2Qc (QArith_base.Qmake 1 2)) in
  of_constants d ∧ fractions d ∧ NoDup [0; 1; zq 2] ∧ (∀ x, x ∈ values d → x ∈ [0; 1; zq 2]) ∧
  pdf d [1] = Ok (Q2Qc (QArith_base.Qmake 1 2)) ∧ pdf d [zq 2] = Ok (Q2Qc (QArith_base.Qmake 1 4)) ∧ pdf d [1; 0] = Ok 0 ∧ pdf d [1; 1] = Ok (Q2Qc (QArith_base.Qmake 1 2)) ∧
  has_multi (DBinary d (DMulti [d]) 0) ∧ pdf (DBinary (DConst 1) (DConst 0) (Q2Qc (QArith_base.Qmake 1 4))) [1] = Ok (Q2Qc (QArith_base.Qmake 1 4)).
Proof.
  cbn zeta. split; [done|]. split; [cbn; repeat split; by_vm|]. split; [by_vm|]. split; [|repeat split; (by_vm || (cbn; tauto))].
  intros x Hx. cbn in Hx. rewrite !elem_of_cons in *. tauto.
Qed.

Print Assumptions C107_pdf_single.
Print Assumptions C107_pdf_array.
Print Assumptions C107_pdf_weights.
Print Assumptions C107_pdf_raises.
