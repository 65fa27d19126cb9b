(** Marginals of discrete Bayesian networks with tables of torch. *)
From Coq Require Import QArith.Qcanon.
From Verif Require Import Py Spec DagModel QMatModel DiscreteModel TorchModel SpecDiscrete TopoProofs StateProofs ReachProofs QueryProofs CoreProofs MarkovProofs QMatProofs PropertiesDag DiscreteProofs DiscreteElim PropertiesDiscrete PropertiesDiscrete4.
#[local] Open Scope Qc_scope.

(** ** The names of the product *)
Lemma new_names_spec l : ∀ seen v, v ∈ new_names seen l ↔ v ∉ seen ∧ v ∈ concat (snd <$> l).
Proof.
  induction l as [|[t ns] l IH]; intros seen v; cbn.
  - rewrite elem_of_nil. tauto.
  - rewrite !elem_of_app, elem_of_list_filter, IH, elem_of_app. destruct (decide (v ∈ ns)); tauto.
Qed.
Lemma new_names_NoDup l : ∀ seen, Forall (λ p : tensor * list node, NoDup p.2) l → NoDup (new_names seen l).
Proof.
  induction l as [|[t ns] l IH]; intros seen Hl; cbn; [constructor|]. apply Forall_cons in Hl as [H1 H2]. cbn in H1.
  apply NoDup_app. split; [by apply NoDup_filter|]. split; [|by apply IH].
  intros v [_ Hv]%elem_of_list_filter [H _]%new_names_spec. apply H, elem_of_app. by right.
Qed.

Section torch.
  Context (D : ddag) (Hwf : ddag_wf D).
  Notation N := (d_nodes (dd_dag D)).
  Notation Ar := (d_arcs (dd_dag D)).

  Lemma factors_spec t : (∀ v, v ∈ t → v ∈ N) → ∃ l, factors D t = Some l ∧
    Forall (λ p : tensor * list node, t_shape p.1 = card D <$> p.2 ∧ NoDup p.2) l ∧
    (∀ w, w ∈ concat (snd <$> l) ↔ ∃ v, v ∈ t ∧ (w = v ∨ (w, v) ∈ Ar)) ∧
    (∀ a, foldr (λ p acc, t_at p.1 (vals a p.2) * acc) 1 l = plist D t a).
  Proof using Hwf.
    induction t as [|v t IH]; intros HN.
    - exists []. split; [done|]. split; [constructor|]. split; [|done]. intros w. cbn. rewrite elem_of_nil. split; [done|]. by intros (v & Hv%elem_of_nil & _).
    - destruct IH as (l & El & Hsh & Hnm & Hpr); [by intros w Hw; apply HN; right|].
      pose proof Hwf as (_ & Hac & Hw). destruct (Hw v) as (al & ps & c & _ & Ep & Ec & Hnd & Hps & Hs); [by apply HN; left|].
      exists ((c, ps ++ [v]) :: l). cbn [factors]. rewrite Ep, Ec, El. split; [done|]. split; [|split].
      + apply Forall_cons. split; [|done]. cbn. split; [done|]. apply NoDup_app. split; [done|]. split; [|apply NoDup_singleton].
        intros x Hx ->%elem_of_list_singleton. apply Hps in Hx. apply (Hac v). by apply tc_once.
      + intros w. cbn. rewrite !elem_of_app, Hnm, elem_of_list_singleton. setoid_rewrite elem_of_cons. rewrite Hps. naive_solver.
      + intros a. cbn. rewrite Hpr. f_equal. unfold prob. by rewrite Ec, Ep.
  Qed.
  Lemma name_size_card l v : Forall (λ p : tensor * list node, t_shape p.1 = card D <$> p.2 ∧ NoDup p.2) l → v ∈ concat (snd <$> l) → name_size l v = card D v.
  Proof.
    induction l as [|[t ns] l IH]; intros Hl Hv; cbn in Hv; [by apply elem_of_nil in Hv|]. apply Forall_cons in Hl as [[H1 _] H2]. cbn in H1. cbn.
    apply elem_of_app in Hv. case_decide as H; [|apply IH; [done|by destruct Hv]]. rewrite H1, list_lookup_fmap, pos_lookup by done. done.
  Qed.
  Lemma sum_names_over size l F a b (X : node → Prop) :
    (∀ v, v ∈ l → size v = card D v) → (∀ c c' : gmap node nat, (∀ v, X v → c !!! v = c' !!! v) → F c = F c') →
    (∀ v, X v → v ∉ l → a !!! v = b !!! v) → sum_names size l F a = sum_over D l F b.
  Proof.
    intros Hs HF. revert a b. induction l as [|v l IH]; intros a b Hab; cbn.
    - apply HF. intros v Hv. apply Hab; [done|]. apply not_elem_of_nil.
    - rewrite Hs by (by left). apply qsum_ext. intros k _. apply IH; [intros w Hw; apply Hs; by right|]. intros w Hw Hwl.
      destruct (decide (v = w)) as [->|Hne]; [by rewrite !ins_same|]. rewrite !ins_other by done. apply Hab; [done|]. by apply not_elem_of_cons.
  Qed.
  Lemma zip_vals (S : list node) (a : assignment) v : NoDup S → v ∈ S → (list_to_map (zip S (vals a S)) : gmap node nat) !!! v = a !!! v.
  Proof.
    intros Hnd Hv. unfold lookup_total at 1, map_lookup_total. assert ((list_to_map (zip S (vals a S)) : gmap node nat) !! v = Some (a !!! v)) as ->; [|done].
    apply elem_of_list_to_map; [rewrite fst_zip; [done|by rewrite vals_length]|]. apply elem_of_list_lookup. exists (pos S v).
    rewrite lookup_zip_with. unfold vals. rewrite list_lookup_fmap, pos_lookup by done. done.
  Qed.
End torch.

(** ** C115: [DiscreteDAGTorch] *)
(** The elimination of variables gives the exact marginals, however small the probabilities are. *)
Theorem C115_get_marginals (nan : Qc) (o : oracle) (D : ddag) (S : list node) :
  ddag_wf D → stochastic D → nonneg D → S ≠ [] → NoDup S → (∀ v, v ∈ S → v ∈ d_nodes (dd_dag D)) →
  ∃ t, torch_get_marginals nan o D S = Ok t ∧ t_shape t = card D <$> S ∧
    ∀ a, in_range D S a → t_at t (vals a S) = marginal D (list_to_set S) a.
Proof.
  intros Hwf Hst Hnn. apply get_marginals_by_spec; [done..|]. intros v ps a Hv Hps Ha. unfold exp_log. rewrite decide_False; [done|].
  apply Qcle_not_lt. by apply (Hnn v ps).
Qed.
(** The product of the tables of all ancestors, summed in one step, gives the exact marginals. *)
Theorem C115_get_marginals_torch (o : oracle) (D : ddag) (S : list node) :
  ddag_wf D → stochastic D → S ≠ [] → NoDup S → (∀ v, v ∈ S → v ∈ d_nodes (dd_dag D)) →
  ∃ t, get_marginals_torch o D S = Ok t ∧ t_shape t = card D <$> S ∧
    ∀ a, in_range D S a → t_at t (vals a S) = marginal D (list_to_set S) a.
Proof.
  intros Hwf Hst Hne Hnd HS. destruct (anc_setup D o Hwf S HS) as (g & t & Eg & Et & Hg & HgN & HgA & Ht & HgS & Hcl).
  unfold get_marginals_torch. rewrite Eg. cbn [res_bind]. rewrite Et. cbn [res_bind].
  pose proof Ht as (Hndt & HtN & _).
  destruct (factors_spec D Hwf t) as (l & El & Hsh & Hnm & Hpr); [by intros v Hv; apply HgN, HtN|]. rewrite El.
  assert (∀ v, v ∈ S → v ∈ t) as HSt by (intros v Hv; apply HtN, HgS; by exists v).
  assert (∀ v, v ∈ concat (snd <$> l) ↔ v ∈ t) as Hnames.
  { intros v. rewrite Hnm. split; [|intros Hv; by exists v; eauto]. intros (w & Hw & [->|He]); [done|]. apply HtN. apply HtN in Hw. by eapply Hcl. }
  rewrite decide_False. 2:{ intros ->. destruct S as [|s S]; [done|]. specialize (HSt s ltac:(by left)). by apply elem_of_nil in HSt. }
  unfold einsum. rewrite decide_True.
  2:{ split; [|split; [done|]].
      - apply Forall_forall. intros [c ns] Hp. rewrite Forall_forall in Hsh. destruct (Hsh _ Hp) as [H _]. cbn in *. rewrite H. apply fmap_ext_in. intros v Hv.
        symmetry. apply name_size_card; [by apply Forall_forall|]. apply elem_of_list_In, in_concat. exists ns. split; [|by apply elem_of_list_In].
        apply elem_of_list_In, elem_of_list_fmap. by exists (c, ns).
      - intros v Hv. by apply Hnames, HSt. }
  eexists. split; [done|]. cbn [t_shape t_at]. split.
  { apply fmap_ext_in. intros v Hv. apply name_size_card; [done|]. by apply Hnames, HSt. }
  intros a Ha. set (E := new_names S l).
  assert (NoDup E) as HndE. { apply new_names_NoDup. eapply Forall_impl; [exact Hsh|]. by intros p [_ ?]. }
  assert (∀ v, v ∈ E ↔ v ∉ S ∧ v ∈ t) as HE by (intros v; unfold E; rewrite new_names_spec, Hnames; done).
  rewrite (sum_names_over D (name_size l) E _ _ a (λ v, v ∈ t)).
  - rewrite <-(marginal_ancestral D Hwf Hst (d_nodes g) S t E a); [| done|done|done|done| |done].
    + apply sum_over_ext. intros b _. apply Hpr.
    + apply NoDup_Permutation; [|done|].
      * apply NoDup_app. split; [done|]. split; [|done]. intros v Hv [? _]%HE. done.
      * intros v. rewrite elem_of_app, HE. split; [|destruct (decide (v ∈ S)); tauto]. intros [?|[_ ?]]; [by apply HSt|done].
  - intros v [_ Hv]%HE. apply name_size_card; [done|]. by apply Hnames.
  - intros c c' Hc. clear -Hc Hnames. assert (∀ p v, p ∈ l → v ∈ p.2 → v ∈ t) as Hin.
    { intros p v Hp Hv. apply Hnames, elem_of_list_In, in_concat. exists p.2. split; [|by apply elem_of_list_In]. apply elem_of_list_In, elem_of_list_fmap. by exists p. }
    clear Hnames. induction l as [|p l IH]; cbn; [done|]. f_equal.
    + f_equal. apply fmap_ext_in. intros v Hv. apply Hc. apply (Hin p); [by left|done].
    + apply IH. intros q v Hq. apply Hin. by right.
  - intros v Hv Hn. apply zip_vals; [done|]. destruct (decide (v ∈ S)); [done|]. destruct Hn. by apply HE.
Qed.
(** Hence both give the same table. *)
Corollary C115_agree (nan : Qc) (o o' : oracle) (D : ddag) (S : list node) :
  ddag_wf D → stochastic D → nonneg D → S ≠ [] → NoDup S → (∀ v, v ∈ S → v ∈ d_nodes (dd_dag D)) →
  ∃ t t', torch_get_marginals nan o D S = Ok t ∧ get_marginals_torch o' D S = Ok t' ∧ t_shape t = t_shape t' ∧
    ∀ a, in_range D S a → t_at t (vals a S) = t_at t' (vals a S).
Proof.
  intros Hwf Hst Hnn Hne Hnd HS. destruct (C115_get_marginals nan o D S) as (t & E & Hs & Ha); [done..|].
  destruct (C115_get_marginals_torch o' D S) as (t' & E' & Hs' & Ha'); [done..|]. exists t, t'. split; [done|]. split; [done|].
  split; [congruence|]. intros a Hr. by rewrite Ha, Ha'.
Qed.
(** Neither of them accepts an empty list of nodes. *)
Theorem C115_empty (nan : Qc) (o : oracle) (D : ddag) :
  ddag_wf D → torch_get_marginals nan o D [] = Raise IndexError ∧ get_marginals_torch o D [] = Raise ValueError.
Proof.
  intros Hwf. destruct (anc_setup D o Hwf []) as (g & t & Eg & Et & Hg & HgN & HgA & Ht & HgS & Hcl); [by intros v Hv%elem_of_nil|].
  assert (t = []) as ->.
  { destruct t as [|v t]; [done|]. destruct Ht as (_ & H & _). assert (v ∈ d_nodes g) as Hv by (apply H; by left). apply HgS in Hv as (y & Hy & _). by apply elem_of_nil in Hy. }
  unfold torch_get_marginals, get_marginals_by, get_marginals_torch. rewrite Eg. cbn [res_bind]. rewrite Et. done.
Qed.

(** [to_torch] gives a network with the same distribution. *)
Theorem C115_to_torch (o : oracle) (D : ddag) :
  ddag_wf D → (∀ v, is_Some (dd_par D !! v) → v ∈ d_nodes (dd_dag D)) →
  ∃ D', to_torch o D = Ok D' ∧ ddag_wf D' ∧ d_nodes (dd_dag D') = d_nodes (dd_dag D) ∧ d_arcs (dd_dag D') = d_arcs (dd_dag D) ∧
    dd_list D' ≡ₚ elements (d_nodes (dd_dag D)) ∧ (∀ v, card D' v = card D v) ∧ (∀ a, joint D' a = joint D a) ∧
    (∀ S a, marginal D' S a = marginal D S a) ∧ (stochastic D → stochastic D') ∧ (nonneg D → nonneg D').
Proof.
  intros Hwf Hpar. pose proof Hwf as (Hv & Hac & Hw).
  destruct (make_ok o (on o [205%nat] (d_nodes (dd_dag D))) (d_nodes (dd_dag D)) (d_arcs (dd_dag D)) (dd_cond D) (dd_par D) (dd_alph D)) as (D' & E & Hwf' & HN & HA & Hc & Hp & Hal & Hl).
  { intros v. by rewrite elem_of_on. } { by apply D_over. } { done. } { done. }
  { intros v Hv'. destruct (Hw v Hv') as (al & ps & c & H1 & H2 & H3 & H4 & H5 & H6). by exists al, ps, c. }
  assert (∀ v, card D' v = card D v) as Hcard by (intros v; unfold card; by rewrite Hal).
  assert (∀ a v, prob D' a v = prob D a v) as Hprob by (intros a v; unfold prob; by rewrite Hc, Hp).
  assert (∀ l a, in_range D' l a ↔ in_range D l a) as Hr by (intros l a; unfold in_range; by setoid_rewrite Hcard).
  assert (∀ a, joint D' a = joint D a) as Hj.
  { intros a. unfold joint. rewrite HN. generalize (elements (d_nodes (dd_dag D))). intros l. induction l as [|v l IH]; cbn; [done|]. by rewrite Hprob, IH. }
  exists D'. do 4 (split; [done|]). split; [by rewrite Hl, on_perm|]. do 2 (split; [done|]). split; [|split].
  - intros S a. unfold marginal. rewrite HN. generalize (elements (d_nodes (dd_dag D) ∖ S)). intros l. revert a.
    induction l as [|v l IH]; intros a; cbn; [apply Hj|]. rewrite Hcard. apply qsum_ext. intros k _. apply IH.
  - intros Hst v ps a Hv1 Hps Ha. rewrite Hcard. rewrite HN in Hv1. rewrite Hp in Hps. rewrite <-(Hst v ps a Hv1 Hps) by (by apply Hr).
    apply qsum_ext. intros k _. apply Hprob.
  - intros Hnn v ps a Hv1 Hps Ha. rewrite Hprob. rewrite HN in Hv1. rewrite Hp in Hps. apply (Hnn v ps a Hv1 Hps). by apply Hr.
Qed.

(** The network of [C49_example], and the one of [C49_tiny_refuted], for which [DiscreteDAG] gives 0. *)
Definition tiny_ddag : ddag :=
  let eps := Q2Qc (QArith_base.Qmake 1 100000000000) in
  DDag (dag_of {[0; 1]}%nat {[(0, 1)]}%nat) [0; 1]%nat
    (list_to_map [(0%nat, Tensor [1%nat] (λ _, 1)); (1%nat, Tensor [1; 2]%nat (λ ix, if decide (last ix = Some 0%nat) then eps else 1 - eps))])
    (list_to_map [(0, []); (1, [0])]%nat) (list_to_map [(0%nat, [qz 0]); (1%nat, [qz 0; qz 1])]).
Example C115_example :
  (ddag_wf ex_ddag ∧ stochastic ex_ddag ∧ nonneg ex_ddag) ∧ (∀ v, is_Some (dd_par ex_ddag !! v) → v ∈ d_nodes (dd_dag ex_ddag)) ∧
  match torch_get_marginals 0 oracle0 ex_ddag [2; 0]%nat, get_marginals_torch oracle_rev ex_ddag [2; 0]%nat with
  | Ok t, Ok t' => bool_decide (t_shape t = [2; 2]%nat ∧ t_shape t' = [2; 2]%nat ∧ t_at t [1; 0]%nat = qz 27 / qz 200 ∧ t_at t' [1; 0]%nat = qz 27 / qz 200)
  | _, _ => false end = true ∧
  (ddag_wf tiny_ddag ∧ stochastic tiny_ddag) ∧
  match torch_get_marginals 0 oracle0 tiny_ddag [1]%nat, get_marginals_torch oracle_rev tiny_ddag [1]%nat, get_marginal oracle0 tiny_ddag 1%nat with
  | Ok t, Ok t', Ok t'' => bool_decide (t_at t [0]%nat = Q2Qc (QArith_base.Qmake 1 100000000000) ∧ t_at t' [0]%nat = t_at t [0]%nat ∧ t_at t'' [0]%nat = 0)
  | _, _, _ => false end = true.
Proof.
  split; [|split; [|split; [|split]]].
  - destruct ex_ddag_ok as (H1 & H2 & H3). split; [done|]. split; [done|]. intros v ps a Hv Hps Ha. destruct (H3 v ps a Hv Hps Ha) as [->|H]; [done|].
    eapply Qcle_trans; [|apply Qclt_le_weak, H]. by vm_compute.
  - intros v [ps Hps]. apply elem_of_list_to_map_2 in Hps. rewrite !elem_of_cons, elem_of_nil in Hps. destruct Hps as [[= -> ->]|[[= -> ->]|[[= -> ->]|[]]]]; cbn; set_solver.
  - by_vm.
  - destruct (check_rows_sound tiny_ddag) as [? ?]; [apply dag_of_wf|by_vm|by_vm|]. done.
  - by_vm.
Qed.

Print Assumptions C115_get_marginals.
Print Assumptions C115_get_marginals_torch.
Print Assumptions C115_agree.
Print Assumptions C115_empty.
Print Assumptions C115_to_torch.
