(** Final theorems about [SemiMarkovian.sub_identification]: C130. *)
From Coq Require Import QArith.Qcanon Field.
From Verif Require Import Py Spec DagModel UGraphModel QMatModel DiscreteModel AncestralModel SemiModel IdFormulaModel SubIdModel SpecDiscrete SpecId TopoProofs StateProofs
  DiscreteProofs QcTac PropertiesDiscrete PropertiesSemi PropertiesId.
#[local] Open Scope Qc_scope.

(** ** C130: [sub_identification] *)

(** Without intervention: the formula returned denotes the marginal distribution of [y]. *)
Theorem C130_marginal (D : ddag) (P : nset → assignment → Qc) rest (g : sm) (y : nset) (f : formula) :
  on_nodes D P → formed D f → f_active f = s_nodes g → y ⊆ s_nodes g → y ≠ ∅ →
  ∃ h, sub_identification rest g y ∅ f = (y, Ok (Some h)) ∧ f_active h = y ∧ formed D h ∧
    ∀ a, den D P h a = sum_out D (s_nodes g ∖ y) (den D P f) a.
Proof.
  intros HP Hf HA Hy Hne. assert (f_active f ∖ (s_nodes g ∖ y) = y) as E.
  { rewrite HA. apply set_eq. intros v. destruct (decide (v ∈ y)); set_solver. }
  destruct (C125_marginalize D P f (s_nodes g ∖ y) HP Hf) as (h & Hh & Ha & Hw & Hd); [by rewrite E|].
  exists h. unfold sub_identification. rewrite decide_True by apply size_empty. rewrite Hh. cbn [res_bind]. split; [done|]. split; [by rewrite Ha|]. split; [done|].
  intros a. rewrite Hd. f_equal. rewrite HA. clear. set_solver.
Qed.
(** Applied to the observational distribution of all nodes of the graph: the marginal of [y]
    under [P ∅], and the values add up to 1. *)
Corollary C130_observational (D : ddag) (P : nset → assignment → Qc) rest (g : sm) (y : nset) :
  on_nodes D P → d_nodes (dd_dag D) = s_nodes g → y ⊆ s_nodes g → y ≠ ∅ → (∀ a, sum_out D (s_nodes g) (P ∅) a = 1) →
  ∃ h, sub_identification rest g y ∅ (Term (s_nodes g) ∅ ∅) = (y, Ok (Some h)) ∧ f_active h = y ∧
    (∀ a, den D P h a = sum_out D (s_nodes g ∖ y) (P ∅) a) ∧ ∀ a, sum_out D y (den D P h) a = 1.
Proof.
  intros HP HN Hy Hne H1. destruct (C130_marginal D P rest g y (Term (s_nodes g) ∅ ∅) HP) as (h & Hh & Ha & Hw & Hd); [|done|done|done|].
  { cbn. rewrite HN. set_solver. }
  assert (∀ a, den D P (Term (s_nodes g) ∅ ∅) a = P ∅ a) as Hden.
  { intros a. cbn. unfold mass. rewrite HN. assert (s_nodes g ∖ (s_nodes g ∪ ∅) = ∅) as -> by set_solver. rewrite difference_empty_L.
    change (sum_over D (elements (s_nodes g)) (P ∅) a) with (sum_out D (s_nodes g) (P ∅) a). rewrite H1.
    change (sum_over D (elements ∅) (P ∅) a) with (sum_out D ∅ (P ∅) a). unfold sum_out. rewrite elements_empty. cbn. by field. }
  assert (∀ a, den D P h a = sum_out D (s_nodes g ∖ y) (P ∅) a) as Hd'.
  { intros a. rewrite Hd. unfold sum_out. apply sum_over_ext. done. }
  exists h. split; [done|]. split; [done|]. split; [done|].
  intros a. transitivity (sum_out D y (sum_out D (s_nodes g ∖ y) (P ∅)) a); [unfold sum_out at 1 2; apply sum_over_ext; done|].
  rewrite <-sum_out_split by set_solver. assert (y ∪ s_nodes g ∖ y = s_nodes g) as -> by (apply set_eq; intros v; destruct (decide (v ∈ y)); set_solver). apply H1.
Qed.

(** With an intervention nothing is ever returned, not even [None] for an effect that is not
    identified; the caller's set [y] then also holds its ancestors. *)
Theorem C130_error rest (g : sm) (y x : nset) (f : formula) : sm_wf g → x ≠ ∅ →
  let r := sub_identification rest g y x f in
  r.2 = Raise TypeError ∧ ∀ v, v ∈ r.1 ↔ v ∈ y ∨ ∃ w, w ∈ y ∧ ancestor (s_dir g) v w.
Proof.
  intros Hg Hx. cbn zeta. unfold sub_identification. rewrite decide_False by (intros H%size_empty_inv; by apply Hx, leibniz_equiv).
  pose proof (C52_ancestors_of_refuted g y true Hg) as H. cbn zeta in H. destruct (s_ancestors_of g y true) as [y' r]. cbn in H |- *.
  destruct H as [-> H]. done.
Qed.
(** A distribution that lacks some of the variables of [y]: their marginal is not returned, and
    no error is raised. *)
Theorem C130_missing rest (g : sm) (y A J : nset) : A ∩ y ≠ ∅ → A ⊆ s_nodes g →
  sub_identification rest g y ∅ (Term A ∅ J) = (y, Ok (Some (Term (A ∩ y) ∅ J))).
Proof.
  intros Hne HA. unfold sub_identification. rewrite decide_True by apply size_empty. unfold marginalize_out. cbn [f_active get_cond].
  assert (A ∖ (s_nodes g ∖ y) = A ∩ y) as -> by (apply set_eq; intros v; destruct (decide (v ∈ y)); set_solver).
  rewrite decide_True by set_solver. rewrite decide_False by done. cbn [res_bind]. do 4 f_equal. set_solver.
Qed.
(** For no variables the distribution of all is returned instead. *)
Theorem C130_nothing_refuted : ∃ (g : sm) (f : formula), sm_wf g ∧ f_active f = s_nodes g ∧ ∀ rest,
  ∃ h, sub_identification rest g ∅ ∅ f = (∅, Ok (Some h)) ∧ f_active h = {[0; 1]}%nat.
Proof.
  exists (sm_make {[0; 1]}%nat [(0, 1)%nat] []), (Term {[0; 1]}%nat ∅ ∅). split; [apply (C74_new {[0; 1]}%nat)|]. split; [by_vm|].
  intros rest. exists (Term {[0; 1]}%nat ∅ ∅). split; [|done]. unfold sub_identification. rewrite decide_True by apply size_empty.
  assert (marginalize_out (Term {[0; 1]}%nat ∅ ∅) (s_nodes (sm_make {[0; 1]}%nat [(0, 1)%nat] []) ∖ ∅) = Ok (Term {[0; 1]}%nat ∅ ∅)) as ->; [|done].
  unfold marginalize_out. cbn [f_active get_cond]. assert ({[0; 1]} ∖ (s_nodes (sm_make {[0; 1]} [(0, 1)] []) ∖ ∅) = (∅ : nset))%nat as -> by by_vm.
  rewrite decide_True by by_vm. rewrite decide_True by done. by rewrite difference_empty_L, (left_id_L ∅ (∪)).
Qed.

Example C130_example : let g := sm_make {[0; 1; 2]}%nat [(0, 1); (1, 2)]%nat [(0, 2)%nat] in
  sm_wf g ∧ ∃ h, sub_identification (λ _, Ok None) g {[2]}%nat ∅ (Term {[0; 1; 2]}%nat ∅ ∅) = ({[2]}%nat, Ok (Some h)) ∧ f_active h = {[2]}%nat ∧
  (sub_identification (λ _, Ok None) g {[2]}%nat {[1]}%nat (Term {[0; 1; 2]}%nat ∅ ∅)).2 = Raise TypeError.
Proof.
  cbn zeta. set (g := sm_make {[0; 1; 2]}%nat [(0, 1); (1, 2)]%nat [(0, 2)%nat]). assert (sm_wf g) as Hg by apply (C74_new {[0; 1; 2]}%nat). split; [done|].
  assert (s_nodes g = {[0; 1; 2]}%nat) as HN by by_vm.
  eexists. split; [apply C130_missing; [by_vm|by rewrite HN]|]. split; [cbn; by_vm|]. apply C130_error; [done|]. by_vm.
Qed.
Example C130_observational_example : on_nodes ex_two ex_law ∧ (∀ a, sum_out ex_two {[0; 1]}%nat (ex_law ∅) a = 1) ∧
  ∃ h, sub_identification (λ _, Ok None) (sm_make {[0; 1]}%nat [(0, 1)%nat] []) {[1]}%nat ∅ (Term {[0; 1]}%nat ∅ ∅) = ({[1]}%nat, Ok (Some h)) ∧
    ∀ a, sum_out ex_two {[1]}%nat (den ex_two ex_law h) a = 1.
Proof.
  pose proof ex_law_nodes as HP. split; [done|].
  assert (∀ a, sum_out ex_two {[0; 1]}%nat (ex_law ∅) a = 1) as H1.
  { intros a. rewrite (sum_out_agree ex_two ex_law HP {[0; 1]}%nat (ex_law ∅) a ∅).
    - apply (bool_decide_unpack _). vm_compute. done.
    - intros c c' H. by apply HP.
    - intros v Hv Hn. exfalso. apply Hn. assert (d_nodes (dd_dag ex_two) = {[0; 1]}%nat) as <- by by_vm. done. }
  split; [done|]. set (g := sm_make {[0; 1]}%nat [(0, 1)%nat] []). assert (s_nodes g = {[0; 1]}%nat) as HN by by_vm.
  destruct (C130_observational ex_two ex_law (λ _, Ok None) g {[1]}%nat HP) as (h & Hh & _ & _ & Hs); rewrite ?HN; try done; try by_vm.
  rewrite HN in Hh. by exists h.
Qed.

Print Assumptions C130_marginal.
Print Assumptions C130_observational.
Print Assumptions C130_error.
Print Assumptions C130_missing.
Print Assumptions C130_nothing_refuted.
