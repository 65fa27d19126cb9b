(** Final theorems about fitting with classifiers: C123. *)
From Coq Require Import QArith.Qcanon.
From Verif Require Import Py Spec DagModel QMatModel DiscreteModel DiscreteSampleModel DiscreteFitModel PgmModel ClfModel SpecDiscrete SpecFit SpecClf TopoProofs StateProofs ReachProofs QueryProofs CoreProofs MarkovProofs QMatProofs
  PropertiesDag DiscreteProofs SampleProofs QcTac FitProofs PropertiesFit PropertiesDiscrete4 PropertiesPgm ClfProofs.
#[local] Open Scope Qc_scope.

(** The fitted network has the given graph.  A node without parents has the relative frequencies of its values, a node whose column is constant this value, and any other node
    the probabilities of the classifier trained on its parents, 0 for values that do not occur. *)
Theorem C123_fit (o : oracle) (train : list (list Z) → list Z → res clf) (d : dag) (w : nat) (data : list row)
    (n2p : option (gmap node (list node))) (al : option (gmap node (list Qc))) :
  learns train → views_agree d → acyclic (d_arcs d) → table_for d w data →
  (∀ m, n2p = Some m → parents_listed d m) → (∀ m, al = Some m → alphabets_fit d m data) → (al = None → usable d w data) →
  ∃ D, fit_clf o train d w data n2p al = Ok D ∧ ddag_wf D ∧ stochastic D ∧ nonneg D ∧
    d_nodes (dd_dag D) = d_nodes d ∧ d_arcs (dd_dag D) = d_arcs d ∧ (∀ m, n2p = Some m → dd_par D = m) ∧ (∀ m, al = Some m → dd_alph D = m) ∧
    (al = None → ∀ v, v ∈ d_nodes d → plain D v ∧ (∀ z, z ∈ column data v → (z < Z.of_nat (card D v))%Z) ∧ ∃ z, z ∈ column data v ∧ card D v = S (Z.to_nat z)) ∧
    ∀ v ps a, dd_par D !! v = Some ps → in_range D (ps ++ [v]) a →
      (ps = [] → prob D a v = qz (Z.of_nat (length (filter (λ z, qz z = value_at D a v) (column data v)))) / qz (Z.of_nat (length data))) ∧
      (∀ z, ps ≠ [] → (∀ y, y ∈ column data v → y = z) → prob D a v = if decide (value_at D a v = qz z) then 1 else 0) ∧
      (∀ s t, ps ≠ [] → s ∈ column data v → t ∈ column data v → s ≠ t →
        ∃ c, train (features data ps) (column data v) = Ok c ∧ prob D a v = clf_prob c (value_at D a <$> ps) (value_at D a v)).
Proof.
  intros Htr Hv Hac Ht Hn2p Hal Hnone. apply wf_views_agree in Hv as Hwf. set (m := default (found_parents o d) n2p).
  assert (parents_listed d m) as Hm. { unfold m. destruct n2p as [m'|]; [by apply Hn2p|by apply found_parents_listed]. }
  assert (∀ v x, x ∈ column data v ↔ ∃ r, r ∈ data ∧ r !! v = Some x) as Hcol by (intros v x; unfold column; by rewrite elem_of_list_omap).
  assert (∃ A, (match al with Some x => Ok x | None => found_alphabets o d w data end) = Ok A ∧ alphabets_fit d A data ∧ (∀ x, al = Some x → A = x) ∧
    (al = None → ∀ v, v ∈ d_nodes d → ∃ k, A !! v = Some ((λ j, qz (Z.of_nat j)) <$> seq 0 k) ∧ (∀ z, z ∈ column data v → (z < Z.of_nat k)%Z) ∧ ∃ z, z ∈ column data v ∧ k = S (Z.to_nat z))) as (A & HA & HAf & HA1 & HA2).
  { destruct al as [x|]; [exists x; split; [done|]; split; [by apply Hal|]; split; [by intros ? [= ->]|done]|]. specialize (Hnone eq_refl).
    destruct (found_alphabets_spec o d w data Hnone) as (A & -> & Hc & Hmax). exists A. split; [done|]. split; [|split; [done|]].
    - intros v Hin. destruct (Hc v Hin) as (k & Hk & Hlt). eexists. split; [exact Hk|]. split.
      + apply NoDup_fmap_2_strong; [|apply NoDup_seq]. intros x y _ _ E%qz_inj. lia.
      + split; [|right; left; by exists k]. intros z (r & Hr & Hz)%Hcol. apply elem_of_list_fmap. exists (Z.to_nat z). destruct Hnone as (_ & _ & H3). destruct (H3 r Hr) as [_ H4]. specialize (H4 v z Hin Hz). specialize (Hlt r z Hr Hz).
        split; [f_equal; lia|]. apply elem_of_seq. lia.
    - intros _ v Hin. destruct (Hc v Hin) as (k & Hk & Hlt). exists k. split; [done|]. split; [intros z (r & Hr & Hz)%Hcol; by apply (Hlt r)|].
      destruct (Hmax v Hin) as (r & z & Hr & Hz & Hlen). exists z. split; [apply Hcol; by exists r|]. rewrite Hk in Hlen. cbn in Hlen. by rewrite fmap_length, seq_length in Hlen. }
  assert (∀ v, v ∈ d_nodes d → ∃ ps l, m !! v = Some ps ∧ A !! v = Some l) as Hget.
  { intros v Hin. destruct Hm as [Hm1 _]. destruct (proj2 (Hm1 v) Hin) as [ps Hps]. destruct (HAf v Hin) as (l & Hl & _). by exists ps, l. }
  set (h := λ v, match clf_table train w data m A v with Ok c => c | Raise _ => Tensor [] (λ _, 0) end).
  assert (∀ v, v ∈ d_nodes d → clf_table train w data m A v = Ok (h v)) as Hh.
  { intros v Hin. destruct (Hget v Hin) as (ps & l & Hps & Hl). destruct (clf_table_spec train d w data m A Htr Hwf Ht Hm HAf v ps l Hin Hps Hl) as (c & Hc & _). unfold h. by rewrite Hc. }
  destruct (C05_topological_sort d o Hv) as [Htop _]. destruct (Htop Hac) as (t & Hts & Hto). assert (∀ v, v ∈ t ↔ v ∈ d_nodes d) as Htn by (intros v; apply Hto).
  destruct (loopR_inserts (λ v conds, res_bind (clf_table train w data m A v) (λ c, Ok (<[v := c]> conds))) h t) with (acc := ∅ : gmap node tensor) as (C & HC & HCl).
  { intros v acc Hin%Htn. by rewrite (Hh v Hin). }
  assert (∀ v, v ∈ d_nodes d → C !! v = Some (h v)) as HCv by (intros v Hin; rewrite HCl, decide_True; [done|by apply Htn]). clear HCl.
  destruct (make_ok o (on o [211]%nat (d_nodes d)) (d_nodes d) (d_arcs d) C m A) as (D & HD & HDwf & HN & HE & HDc & HDp & HDa & _).
  - intros v. apply elem_of_on.
  - apply Hwf.
  - done.
  - intros v Hin. by apply Hm.
  - intros v Hin. destruct (Hget v Hin) as (ps & l & Hps & Hl). exists l, ps, (h v). split; [done|]. split; [done|]. split; [by apply HCv|]. destruct Hm as [Hm1 Hm2]. destruct (Hm2 v ps Hps) as [H1 H2]. split; [done|]. split; [done|].
    destruct (clf_table_spec train d w data m A Htr Hwf Ht (conj Hm1 Hm2) HAf v ps l Hin Hps Hl) as (c & Hc & Hs & _). rewrite Hh in Hc by done. injection Hc as ->. done.
  - exists D. split. { unfold fit_clf. fold m. rewrite HA. cbn [res_bind]. rewrite Hts. cbn [res_bind]. rewrite HC. cbn [res_bind]. done. }
    assert (∀ v ps a, dd_par D !! v = Some ps → in_range D (ps ++ [v]) a → prob D a v = node_prob train data ps v (value_at D a <$> ps) (value_at D a v)) as Hpr.
    { intros v ps a Hps Ha. rewrite HDp in Hps. assert (v ∈ d_nodes d) as Hin by (apply Hm; by eexists). destruct (Hget v Hin) as (ps' & l & Hps' & Hl). assert (ps' = ps) as -> by congruence.
      destruct (clf_table_spec train d w data m A Htr Hwf Ht Hm HAf v ps l Hin Hps Hl) as (c & Hc & _ & Hat). rewrite Hh in Hc by done. injection Hc as <-.
      unfold prob. rewrite HDc, (HCv v Hin), HDp, Hps. rewrite Hat; [|intros p Hp; rewrite <-HDa; by apply Ha]. unfold value_at. rewrite HDa. done. }
    split; [done|]. split; [|split; [|split; [done|]; split; [done|]; split; [|split; [|split]]]].
    + intros v ps a Hin Hps Ha. rewrite HN in Hin. destruct (Hget v Hin) as (ps' & l & Hps' & Hl). assert (v ∉ ps) as Hvp.
      { intros Hp. rewrite HDp in Hps. destruct Hm as [_ Hm2]. apply (Hm2 v ps Hps) in Hp. apply (Hac v). by apply tc_once. }
      assert (card D v = length l) as Hcd by (unfold card; by rewrite HDa, Hl). rewrite Hcd.
      rewrite <-(node_mass train d w data A Htr Ht HAf ps v l (value_at D a <$> ps) Hin Hl). apply qsum_ext. intros k Hk. rewrite (Hpr v ps); [|done|].
      * f_equal; [|unfold value_at; by rewrite HDa, Hl, ins_same]. apply fmap_ext_in. intros p Hp. unfold value_at. rewrite ins_other; [done|]. by intros ->.
      * intros p [Hp| ->%elem_of_list_singleton]%elem_of_app; [rewrite ins_other by (by intros ->); by apply Ha|rewrite ins_same; by rewrite Hcd].
    + intros v ps a Hin Hps Ha. rewrite (Hpr v ps) by done. by eapply node_nonneg.
    + intros m' ->. done.
    + intros m' Hm'. rewrite HDa. by apply HA1.
    + intros Hn v Hin. destruct (HA2 Hn v Hin) as (k & Hk & H1 & H2). assert (card D v = k) as Hcd by (unfold card; rewrite HDa, Hk; cbn; by rewrite fmap_length, seq_length).
      unfold plain. rewrite Hcd, HDa. done.
    + intros v ps a Hps Ha. pose proof Hps as Hps0. rewrite HDp in Hps0. assert (v ∈ d_nodes d) as Hin by (apply Hm; by eexists). rewrite (column_labels d w data Ht v Hin). rewrite (Hpr v ps a Hps Ha). unfold node_prob. split; [|split].
      * intros ->. by rewrite decide_True.
      * intros z Hne Hz. rewrite decide_False by done. pose proof (Hz _ (labels_head d w data Ht v)) as Hhd. rewrite decide_True by (apply (one_label d w data Ht); intros y Hy; rewrite Hhd; by apply Hz). rewrite Hhd.
        do 2 case_decide; congruence.
      * intros s u Hne Hs Hu Hsu. rewrite decide_False by done.
        assert (length (remove_dups (labels data v)) ≠ 1%nat) as H1. { intros H1. rewrite (one_label d w data Ht) in H1. apply Hsu. by rewrite (H1 s Hs), (H1 u Hu). }
        rewrite decide_False by done. destruct (trained train d w data Htr Ht ps v H1) as (c & Hc & _). exists c. change (features data ps) with ((λ r : row, cell r <$> (ps : list node)) <$> data). rewrite Hc. done.
Qed.

(** A classifier that meets the contract: it looks at the first feature only and never predicts a label between the smallest and the largest. *)
Definition ex_train (X : list (list Z)) (y : list Z) : res clf :=
  let cs := merge_sort Z.le (remove_dups y) in
  if decide (length cs ≤ 1)%nat then Raise ValueError else
  Ok (Clf cs (λ x, let p := if decide (head x = Some (qz 0)) then qz 1 / qz 5 else qz 7 / qz 10 in p :: replicate (length cs - 2) 0 ++ [1 - p])).
Lemma strict_sorted (l : list Z) : StronglySorted Z.le l → NoDup l → StronglySorted Z.lt l.
Proof.
  induction 1 as [|z l _ IH H]; intros Hnd; [constructor|]. apply NoDup_cons in Hnd as [Hz Hnd]. constructor; [by apply IH|]. rewrite Forall_forall in *. intros y Hy. specialize (H y Hy).
  assert (y ≠ z) by (by intros ->). lia.
Qed.
Lemma ex_train_learns : learns ex_train.
Proof.
  intros X y _ (s & t & Hs & Ht & Hst). unfold ex_train. pose proof (merge_sort_Permutation Z.le (remove_dups y)) as Hp. set (cs := merge_sort Z.le (remove_dups y)) in *.
  assert (NoDup cs) as Hnd by (rewrite Hp; apply NoDup_remove_dups). assert (∀ z, z ∈ cs ↔ z ∈ y) as Hin by (intros z; by rewrite Hp, elem_of_remove_dups).
  apply Hin in Hs, Ht. assert (2 ≤ length cs)%nat as Hlen. { destruct cs as [|a [|b l]]; [by apply elem_of_nil in Hs| |cbn; lia]. apply elem_of_list_singleton in Hs, Ht. congruence. }
  rewrite decide_False by lia. eexists. split; [done|]. cbn [cl_classes cl_proba]. split; [|split; [done|]].
  - apply strict_sorted; [|done]. apply Sorted_StronglySorted; [intros ???; lia|]. apply (Sorted_merge_sort Z.le).
  - intros x. cbv zeta. set (p := if decide _ then _ else _). assert (0 <= p ∧ 0 <= 1 - p) as [P1 P2] by (unfold p; case_decide; split; by vm_compute). split; [|split].
    + cbn [length]. rewrite app_length, replicate_length. cbn. lia.
    + constructor; [done|]. apply Forall_app. split; [|by repeat constructor]. apply Forall_replicate. apply Qcle_refl.
    + cbn. assert (∀ n q, foldr Qcplus 0 (replicate n 0 ++ [q]) = q) as ->; [|ring]. intros n q. induction n as [|n IH]; cbn; [ring|]. rewrite IH. ring.
Qed.

(** Values of a node in another order than the classes: the probabilities are exchanged. *)
Definition ex_clf_data : list row := [[0; 1]; [0; 2]; [1; 2]]%Z.
Lemma ex_clf_table : table_for (dag_of {[0; 1]}%nat {[(0, 1)]}%nat) 2 ex_clf_data.
Proof.
  split; [done|]. split; [intros v [-> | ->]%ex_nodes2; lia|]. intros r Hr. assert (Forall (λ r : row, length r = 2%nat) ex_clf_data) as H by by_vm. rewrite Forall_forall in H. by apply H.
Qed.
Lemma ex_clf_column v z : v ∈ d_nodes (dag_of {[0; 1]}%nat {[(0, 1)]}%nat) → z ∈ column ex_clf_data v → v = 0%nat ∧ (z = 0 ∨ z = 1)%Z ∨ v = 1%nat ∧ (z = 1 ∨ z = 2)%Z.
Proof. intros [-> | ->]%ex_nodes2; cbn; rewrite !elem_of_cons, elem_of_nil; lia. Qed.
Definition ex_swapped : gmap node (list Qc) := {[0%nat := [qz 0; qz 1]; 1%nat := [qz 2; qz 1]]}.
Definition ex_wide : gmap node (list Qc) := {[0%nat := [qz 0; qz 1]; 1%nat := [qz 1; qz 2; qz 3]]}.
(** The alphabets contain the values that occur. *)
Definition alphabets_contain (d : dag) (m : gmap node (list Qc)) (data : list (list Z)) : Prop :=
  ∀ v, v ∈ d_nodes d → ∃ l, m !! v = Some l ∧ NoDup l ∧ ∀ z, z ∈ column data v → qz z ∈ l.
Lemma ex_contain (l : list Qc) : NoDup l → qz 1 ∈ l → qz 2 ∈ l → alphabets_contain (dag_of {[0; 1]}%nat {[(0, 1)]}%nat) {[0%nat := [qz 0; qz 1]; 1%nat := l]} ex_clf_data.
Proof.
  intros Hnd H1 H2 v Hv. destruct (ex_nodes2 v Hv) as [-> | ->].
  - exists [qz 0; qz 1]. split; [done|]. split; [by_vm|]. intros z Hz. destruct (ex_clf_column _ z Hv Hz) as [[_ [-> | ->]]|[? _]]; [by left|right; by left|done].
  - exists l. split; [done|]. split; [done|]. intros z Hz. destruct (ex_clf_column _ z Hv Hz) as [[? _]|[_ [-> | ->]]]; done.
Qed.
Theorem C123_alphabet_order_refuted : ∃ (train : list (list Z) → list Z → res clf) (d : dag) (data : list row) (al : gmap node (list Qc)) (D : ddag) (c : clf) (a : assignment),
  learns train ∧ views_agree d ∧ acyclic (d_arcs d) ∧ table_for d 2 data ∧ alphabets_contain d al data ∧ fit_clf oracle0 train d 2 data None (Some al) = Ok D ∧
  dd_par D !! 1%nat = Some [0%nat] ∧ in_range D [0; 1]%nat a ∧ train (features data [0%nat]) (column data 1) = Ok c ∧ prob D a 1%nat ≠ clf_prob c [value_at D a 0%nat] (value_at D a 1%nat).
Proof.
  set (d := dag_of {[0; 1]}%nat {[(0, 1)]}%nat). set (a := {[0 := 0; 1 := 1]}%nat : assignment).
  assert (match fit_clf oracle0 ex_train d 2 ex_clf_data None (Some ex_swapped), ex_train (features ex_clf_data [0%nat]) (column ex_clf_data 1) with
    | Ok D, Ok c => bool_decide (dd_par D !! 1%nat = Some [0%nat] ∧ Forall (λ v, (a !!! v < card D v)%nat) [0; 1]%nat ∧ prob D a 1%nat ≠ clf_prob c [value_at D a 0%nat] (value_at D a 1%nat))
    | _, _ => false end = true) as H by (vm_compute; reflexivity).
  remember (fit_clf oracle0 ex_train d 2 ex_clf_data None (Some ex_swapped)) as r eqn:E1. destruct r as [D|]; [|discriminate H].
  remember (ex_train (features ex_clf_data [0%nat]) (column ex_clf_data 1)) as r eqn:E2. destruct r as [c|]; [|discriminate H]. apply bool_decide_eq_true in H as (H1 & H2 & H3).
  exists ex_train, d, ex_clf_data, ex_swapped, D, c, a. split; [apply ex_train_learns|]. split; [apply wf_views_agree, dag_of_wf|]. split; [apply acyclicb_spec; vm_compute; reflexivity|]. split; [apply ex_clf_table|].
  split; [apply ex_contain; [by_vm|right; by left|by left]|]. split; [done|]. split; [done|]. rewrite Forall_forall in H2. split; [exact H2|]. done.
Qed.
(** With a value that does not occur, the labels are taken for places of the alphabet: the probabilities are shifted ... *)
Theorem C123_alphabet_shift_refuted : ∃ (train : list (list Z) → list Z → res clf) (d : dag) (data : list row) (al : gmap node (list Qc)) (D : ddag) (c : clf) (a : assignment),
  learns train ∧ views_agree d ∧ acyclic (d_arcs d) ∧ table_for d 2 data ∧ alphabets_contain d al data ∧ fit_clf oracle0 train d 2 data None (Some al) = Ok D ∧
  dd_par D !! 1%nat = Some [0%nat] ∧ in_range D [0; 1]%nat a ∧ train (features data [0%nat]) (column data 1) = Ok c ∧
  value_at D a 1%nat = qz 3 ∧ 3%Z ∉ column data 1 ∧ prob D a 1%nat ≠ 0 ∧ clf_prob c [value_at D a 0%nat] (qz 3) = 0.
Proof.
  set (d := dag_of {[0; 1]}%nat {[(0, 1)]}%nat). set (a := {[0 := 0; 1 := 2]}%nat : assignment).
  assert (match fit_clf oracle0 ex_train d 2 ex_clf_data None (Some ex_wide), ex_train (features ex_clf_data [0%nat]) (column ex_clf_data 1) with
    | Ok D, Ok c => bool_decide (dd_par D !! 1%nat = Some [0%nat] ∧ Forall (λ v, (a !!! v < card D v)%nat) [0; 1]%nat ∧ value_at D a 1%nat = qz 3 ∧ 3%Z ∉ column ex_clf_data 1 ∧ prob D a 1%nat ≠ 0 ∧ clf_prob c [value_at D a 0%nat] (qz 3) = 0)
    | _, _ => false end = true) as H by (vm_compute; reflexivity).
  remember (fit_clf oracle0 ex_train d 2 ex_clf_data None (Some ex_wide)) as r eqn:E1. destruct r as [D|]; [|discriminate H].
  remember (ex_train (features ex_clf_data [0%nat]) (column ex_clf_data 1)) as r eqn:E2. destruct r as [c|]; [|discriminate H]. apply bool_decide_eq_true in H as (H1 & H2 & H3).
  exists ex_train, d, ex_clf_data, ex_wide, D, c, a. split; [apply ex_train_learns|]. split; [apply wf_views_agree, dag_of_wf|]. split; [apply acyclicb_spec; vm_compute; reflexivity|]. split; [apply ex_clf_table|].
  split; [apply ex_contain; [by_vm|by left|right; by left]|]. split; [done|]. split; [done|]. rewrite Forall_forall in H2. split; [exact H2|]. done.
Qed.
(** ... or the call raises. *)
Theorem C123_alphabet_range_refuted : ∃ (train : list (list Z) → list Z → res clf) (d : dag) (data : list row) (al : gmap node (list Qc)),
  learns train ∧ views_agree d ∧ acyclic (d_arcs d) ∧ table_for d 2 data ∧ alphabets_contain d al data ∧ fit_clf oracle0 train d 2 data None (Some al) = Raise IndexError.
Proof.
  set (d := dag_of {[0; 1]}%nat {[(0, 1)]}%nat). set (data := [[0; 1]; [0; 7]; [1; 7]]%Z : list row). set (al := {[0%nat := [qz 0; qz 1]; 1%nat := [qz 1; qz 4; qz 7]]} : gmap node (list Qc)).
  exists ex_train, d, data, al. split; [apply ex_train_learns|]. split; [apply wf_views_agree, dag_of_wf|]. split; [apply acyclicb_spec; vm_compute; reflexivity|].
  split. { split; [done|]. split; [intros v [-> | ->]%ex_nodes2; lia|]. intros r Hr. assert (Forall (λ r : row, length r = 2%nat) data) as H by by_vm. rewrite Forall_forall in H. by apply H. }
  split; [|vm_compute; reflexivity].
  intros v [-> | ->]%ex_nodes2; eexists; (split; [done|]); (split; [by_vm|]).
  - assert (Forall (λ z, qz z ∈ [qz 0; qz 1]) (column data 0)) as H by by_vm. rewrite Forall_forall in H. exact H.
  - assert (Forall (λ z, qz z ∈ [qz 1; qz 4; qz 7]) (column data 1)) as H by by_vm. rewrite Forall_forall in H. exact H.
Qed.
(** Alphabets that are not given: value 0 of node 1 does not occur. *)
Example C123_example : learns ex_train ∧ usable (dag_of {[0; 1]}%nat {[(0, 1)]}%nat) 2 ex_clf_data ∧ table_for (dag_of {[0; 1]}%nat {[(0, 1)]}%nat) 2 ex_clf_data ∧
  match fit_clf oracle0 ex_train (dag_of {[0; 1]}%nat {[(0, 1)]}%nat) 2 ex_clf_data None None with
  | Ok D => bool_decide (card D 1%nat = 3%nat ∧ prob D {[0 := 0; 1 := 0]}%nat 1%nat = 0 ∧ prob D {[0 := 0; 1 := 1]}%nat 1%nat = qz 1 / qz 5 ∧ prob D {[0 := 1; 1 := 1]}%nat 1%nat = qz 7 / qz 10 ∧
      prob D {[0 := 0; 1 := 1]}%nat 0%nat = qz 2 / qz 3)
  | Raise _ => false end = true.
Proof.
  split; [apply ex_train_learns|]. split; [|split; [apply ex_clf_table|vm_compute; reflexivity]]. destruct ex_clf_table as (H1 & H2 & H3). split; [done|]. split; [done|].
  intros r Hr. split; [by apply H3|]. intros v z _ Hz. assert (Forall (λ r : row, Forall (λ z : Z, 0 <= z)%Z r) ex_clf_data) as H by (apply (bool_decide_eq_true _); vm_compute; reflexivity).
  rewrite Forall_forall in H. specialize (H r Hr). rewrite Forall_forall in H. apply H. by eapply elem_of_list_lookup_2.
Qed.

Print Assumptions C123_fit.
Print Assumptions C123_alphabet_order_refuted.
Print Assumptions C123_alphabet_shift_refuted.
Print Assumptions C123_alphabet_range_refuted.
