(** Moments, interventions and samples of discrete Bayesian networks. *)
From Coq Require Import QArith.Qcanon.
From Verif Require Import Py Spec DagModel QMatModel DiscreteModel DiscreteSampleModel SpecDiscrete TopoProofs StateProofs ReachProofs QueryProofs CoreProofs MarkovProofs QMatProofs PropertiesDag DiscreteProofs DiscreteElim PropertiesDiscrete DiscreteNew PropertiesDiscrete2 SampleProofs.
#[local] Open Scope Qc_scope.

(** ** C82: [get_mean_and_variance] *)
Lemma qfold_zip (f : Qc → Qc → Qc) (al : list Qc) (g : nat → Qc) :
  qfold (zip_with f al (g <$> seq 0 (length al))) = qsum (length al) (λ k, f (default 0 (al !! k)) (g k)).
Proof.
  rewrite <-qfold_seq. f_equal. apply list_eq. intros i. rewrite lookup_zip_with, !list_lookup_fmap.
  destruct (decide (i < length al)%nat) as [Hi|Hi].
  - rewrite lookup_seq_lt by done. cbn. destruct (al !! i) as [x|] eqn:E; [done|]. apply lookup_ge_None in E. lia.
  - rewrite (lookup_ge_None_2 al i) by lia. cbn. rewrite lookup_seq_ge by lia. done.
Qed.
Lemma sum_out_node D x (h : nat → Qc) : x ∈ d_nodes (dd_dag D) →
  sum_over D (elements (d_nodes (dd_dag D))) (λ a, joint D a * h (a !!! x)) ∅ = qsum (card D x) (λ k, marginal D {[x]} {[x := k]} * h k).
Proof.
  intros Hx. rewrite (sum_over_perm D _ (x :: elements (d_nodes (dd_dag D) ∖ {[x]}))); [|apply NoDup_elements|].
  - cbn. apply qsum_ext. intros k _. rewrite insert_empty. rewrite (sum_over_mul D _ (joint D) (λ a, h (a !!! x))).
    + unfold marginal. f_equal. unfold lookup_total, map_lookup_total. by rewrite lookup_singleton.
    + intros b [Hb _]. rewrite Hb; [done|]. set_solver.
  - rewrite <-elements_union_singleton by set_solver. by rewrite <-union_difference_L by set_solver.
Qed.
(** They are the expectation and the variance of the value of [x] under the joint distribution. *)
Theorem C82_moments (o : oracle) (D : ddag) (x : node) :
  ddag_wf D → stochastic D → no_tiny D → x ∈ d_nodes (dd_dag D) →
  let E (f : assignment → Qc) := sum_over D (elements (d_nodes (dd_dag D))) (λ a, joint D a * f a) ∅ in
  let mean := E (λ a, value D a x) in
  get_mean_and_variance o D x = Ok (mean, E (λ a, (value D a x - mean) * (value D a x - mean))).
Proof.
  intros Hwf Hst Hti Hx E mean. destruct (C49_get_marginal o D x Hwf Hst Hti Hx) as (t & Et & Hsh & Hat).
  pose proof Hwf as (_ & _ & Hw). destruct (Hw x Hx) as (al & _ & _ & Ea & _).
  assert (card D x = length al) as Hc by (unfold card; by rewrite Ea).
  unfold get_mean_and_variance. rewrite Ea, Et. cbn [res_bind]. rewrite Hsh. cbn [lookup list_lookup default from_option id].
  assert (∀ f : Qc → Qc, E (λ a, f (value D a x)) = qsum (card D x) (λ k, t_at t [k] * f (default 0 (al !! k)))) as HE.
  { intros f. unfold E. transitivity (sum_over D (elements (d_nodes (dd_dag D))) (λ a, joint D a * (λ k, f (default 0 (al !! k))) (a !!! x)) ∅).
    - apply sum_over_ext. intros a _. unfold value. by rewrite Ea.
    - etrans; [exact (sum_out_node D x (λ k, f (default 0 (al !! k))) Hx)|]. apply qsum_ext. intros k Hk. by rewrite Hat. }
  assert (qfold (zip_with Qcmult al ((λ k, t_at t [k]) <$> seq 0 (card D x))) = mean) as Hm.
  { unfold mean. rewrite (HE (λ y, y)). rewrite Hc, qfold_zip. apply qsum_ext. intros k _. ring. }
  rewrite Hm. f_equal. f_equal. rewrite (HE (λ y, (y - mean) * (y - mean))), Hc, qfold_zip. apply qsum_ext. intros k _. ring.
Qed.
Example C82_example : (ddag_wf ex_ddag ∧ stochastic ex_ddag ∧ no_tiny ex_ddag) ∧
  match get_mean_and_variance oracle0 ex_ddag 2%nat with Ok (m, s) => bool_decide (m = qz 66 / qz 100) | Raise _ => false end = true.
Proof. split; [apply ex_ddag_ok|]. vm_compute. reflexivity. Qed.

(** ** C83: [get_hard_interventional_dag] *)
Section hard.
  Context (D : ddag) (Hwf : ddag_wf D) (Hpar : ∀ v, is_Some (dd_par D !! v) → v ∈ d_nodes (dd_dag D)).
  Notation N := (d_nodes (dd_dag D)).
  Notation Ar := (d_arcs (dd_dag D)).
  Lemma hard_main (o : oracle) (x : node) (al : list Qc) (y : Qc) : x ∈ N → dd_alph D !! x = Some al →
    ∃ D', get_hard_interventional_dag o D x y = Ok D' ∧ ddag_wf D' ∧ d_nodes (dd_dag D') = N ∧
      d_arcs (dd_dag D') = filter (λ a : arc, a.2 ≠ x) Ar ∧ dd_alph D' = dd_alph D ∧
      (∀ v a, v ∈ N → v ≠ x → dd_par D' !! v = dd_par D !! v ∧ prob D' a v = prob D a v) ∧
      dd_par D' !! x = Some [] ∧ ∀ a, prob D' a x = if decide (al !! (a !!! x) = Some y) then 1 else 0.
  Proof using Hwf Hpar.
    intros Hx Ea. unfold get_hard_interventional_dag. rewrite Ea. set (point := Tensor _ _).
    pose proof Hwf as (Hv & Hac & Hw). apply wf_views_agree in Hv as Hwfd.
    rewrite decide_True by (intros v Hv' _; destruct (Hw v Hv') as (? & ? & ? & _ & _ & ? & _); by eexists).
    unfold ddag_make. set (Ar' := filter (λ a : arc, a.2 ≠ x) Ar).
    assert (Ar' ⊆ Ar) as Hsub by (intros e [_ ?]%elem_of_filter; done).
    destruct (dag_make_ok o (list_to_set (on o [139%nat] N)) Ar') as [d Ed]; [by eapply acyclic_mono|]. rewrite Ed. cbn [res_bind].
    destruct (dag_make_spec _ _ _ _ Ed) as (Hwd & Hacd & Hard & HNd).
    assert (d_nodes d = N) as HN.
    { rewrite HNd. apply set_eq. intros v. rewrite !elem_of_union, elem_of_list_to_set, !elem_of_map, elem_of_on. split; [|by left; left].
      intros [[?|((p & q) & -> & He)]|((p & q) & -> & He)]; [done|..]; apply Hsub, (D_over D Hwf) in He as [? ?]; done. }
    set (conds := <[x := point]> _). set (par := <[x := []]> (dd_par D)).
    assert (∀ v, v ∈ N → v ≠ x → conds !! v = dd_cond D !! v) as Hconds.
    { intros v Hv' Hne. unfold conds. rewrite lookup_insert_ne by done. destruct (Hw v Hv') as (_ & _ & c & _ & _ & Ec & _). rewrite Ec.
      apply map_filter_lookup_Some. done. }
    assert (∀ v, shape_of (dd_alph D) v = card D <$> v) as Hshape by done.
    rewrite decide_True.
    2:{ intros v ps Hps. destruct (decide (v = x)) as [->|Hne].
      - unfold par in Hps. rewrite lookup_insert in Hps. injection Hps as <-. split; [|by eexists; apply lookup_insert]. constructor; [by rewrite Ea; eexists|constructor].
      - unfold par in Hps. rewrite lookup_insert_ne in Hps by done. assert (v ∈ N) as HvN by (apply Hpar; by eexists).
        destruct (Hw v HvN) as (al' & ps' & c & E1 & E2 & E3 & _ & Hps' & _). assert (ps' = ps) as -> by congruence. split.
        + apply Forall_forall. intros p [Hp%Hps'| ->%elem_of_list_singleton]%elem_of_app; [|by eexists].
          apply (D_over D Hwf) in Hp as [Hp _]. destruct (Hw p Hp) as (? & _ & _ & ? & _). by eexists.
        + rewrite Hconds by done. by eexists. }
    rewrite decide_True.
    2:{ intros v ps Hps. rewrite Hshape. destruct (decide (v = x)) as [->|Hne].
      - unfold par in Hps. rewrite lookup_insert in Hps. injection Hps as <-. unfold conds. rewrite lookup_insert. cbn. unfold card. by rewrite Ea.
      - unfold par in Hps. rewrite lookup_insert_ne in Hps by done. assert (v ∈ N) as HvN by (apply Hpar; by eexists).
        destruct (Hw v HvN) as (al' & ps' & c & E1 & E2 & E3 & _ & _ & Hsh). assert (ps' = ps) as -> by congruence. rewrite Hconds, E3 by done. cbn. by f_equal. }
    eexists. split; [done|]. split; [|split; [done|split; [done|split; [done|split; [|split]]]]]; cbn [dd_dag dd_alph dd_par].
    - split; [by apply wf_views_agree|]. cbn [dd_dag]. split; [done|]. intros v Hv'. rewrite HN in Hv'.
      destruct (Hw v Hv') as (al' & ps & c & E1 & E2 & E3 & Hnd & Hps & Hsh). cbn [dd_alph dd_par dd_cond]. rewrite Hard. destruct (decide (v = x)) as [->|Hne].
      + exists al', [], point. unfold par, conds. rewrite !lookup_insert. split; [done|]. split; [done|]. split; [done|]. split; [constructor|]. split.
        * intros p. rewrite elem_of_nil. split; [done|]. by intros [? _]%elem_of_filter.
        * cbn. unfold card. cbn. rewrite E1. cbn. by assert (al' = al) as -> by congruence.
      + exists al', ps, c. rewrite Hconds by done. unfold par. rewrite lookup_insert_ne by done. do 4 (split; [done|]). split; [|done].
        intros p. rewrite Hps. unfold Ar'. rewrite elem_of_filter. cbn. tauto.
    - intros v a Hv' Hne. unfold par. rewrite lookup_insert_ne by done. split; [done|]. unfold prob. cbn [dd_cond dd_par]. rewrite Hconds by done.
      unfold par. by rewrite lookup_insert_ne.
    - unfold par. by rewrite lookup_insert.
    - intros a. unfold prob. cbn [dd_cond dd_par]. unfold par, conds. rewrite !lookup_insert. cbn. done.
  Qed.
End hard.
(** The result describes the network in which [x] is set to [y]: the factor of [x] is replaced by a point mass. *)
Theorem C83_hard_intervention (o : oracle) (D : ddag) (x : node) (al : list Qc) (y : Qc) :
  ddag_wf D → (∀ v, is_Some (dd_par D !! v) → v ∈ d_nodes (dd_dag D)) → x ∈ d_nodes (dd_dag D) → dd_alph D !! x = Some al →
  ∃ D', get_hard_interventional_dag o D x y = Ok D' ∧ ddag_wf D' ∧ d_nodes (dd_dag D') = d_nodes (dd_dag D) ∧
    (∀ u v, (u, v) ∈ d_arcs (dd_dag D') ↔ (u, v) ∈ d_arcs (dd_dag D) ∧ v ≠ x) ∧
    (∀ a, joint D' a = (if decide (al !! (a !!! x) = Some y) then 1 else 0) *
      foldr (λ v acc, prob D a v * acc) 1 (elements (d_nodes (dd_dag D) ∖ {[x]}))) ∧
    (stochastic D → (∃ k, ∀ j, al !! j = Some y ↔ j = k) → stochastic D').
Proof.
  intros Hwf Hpar Hx Ea. destruct (hard_main D Hwf Hpar o x al y Hx Ea) as (D' & E & Hwf' & HN & HA & Hal & Hoth & Hpx & Hpr).
  exists D'. split; [done|]. split; [done|]. split; [done|]. split; [|split].
  - intros u v. rewrite HA, elem_of_filter. cbn. tauto.
  - intros a. unfold joint. rewrite HN. etrans; [apply (plist_perm D' _ (x :: elements (d_nodes (dd_dag D) ∖ {[x]})) a)|].
    2: change (plist D' (x :: elements (d_nodes (dd_dag D) ∖ {[x]})) a) with (prob D' a x * plist D' (elements (d_nodes (dd_dag D) ∖ {[x]})) a).
    all: revgoals.
    + rewrite Hpr. f_equal. assert (∀ l, (∀ v, v ∈ l → v ∈ d_nodes (dd_dag D) ∧ v ≠ x) → plist D' l a = foldr (λ v acc, prob D a v * acc) 1 l) as H; [|apply H; set_solver].
      induction l as [|v l IH]; intros H; [done|]. cbn. destruct (H v) as [H1 H2]; [by left|]. destruct (Hoth v a H1 H2) as [_ ->]. f_equal.
      apply IH. intros w Hw. apply H. by right.
    + rewrite <-elements_union_singleton by set_solver. by rewrite <-union_difference_L by set_solver.
  - intros Hst [k Hk] v ps a Hv Hps Ha. rewrite HN in Hv. assert (∀ v, card D' v = card D v) as Hc by (intros w; unfold card; by rewrite Hal).
    destruct (decide (v = x)) as [->|Hne].
    + rewrite Hc. rewrite (qsum_one _ _ k).
      * rewrite Hpr, ins_same. rewrite decide_True; [done|]. by apply Hk.
      * unfold card. rewrite Ea. apply (lookup_lt_Some al k y). by apply Hk.
      * intros j _ Hj. rewrite Hpr, ins_same. rewrite decide_False; [done|]. by rewrite Hk.
    + destruct (Hoth v a Hv Hne) as [Hp _]. rewrite Hp in Hps. rewrite Hc. rewrite <-(Hst v ps a Hv Hps).
      * apply qsum_ext. intros j _. by destruct (Hoth v (<[v := j]> a) Hv Hne).
      * intros p Hp'. rewrite <-Hc. by apply Ha.
Qed.
(** A value that is not in the alphabet gives a network whose probabilities are all 0. *)
Theorem C83_unknown_value_refuted :
  ∃ D D', ddag_wf D ∧ stochastic D ∧ get_hard_interventional_dag oracle0 D 0%nat (qz 7) = Ok D' ∧ ∀ a, joint D' a = 0.
Proof.
  destruct ex_ddag_ok as (H1 & H2 & _). destruct (C83_hard_intervention oracle0 ex_ddag 0%nat [qz 0; qz 1] (qz 7) H1) as (D' & E & _ & _ & _ & Hj & _).
  - intros v Hv. assert (∀ v ps, dd_par ex_ddag !! v = Some ps → v ∈ d_nodes (dd_dag ex_ddag)) as H.
    { apply (bool_decide_eq_true (map_Forall (λ v _, v ∈ d_nodes (dd_dag ex_ddag)) (dd_par ex_ddag))). by_vm. }
    destruct Hv as [ps Hps]. by eapply H.
  - by_vm.
  - done.
  - exists ex_ddag, D'. split; [done|]. split; [done|]. split; [done|]. intros a. rewrite Hj, decide_False; [ring|].
    intros H. apply elem_of_list_lookup_2 in H. apply elem_of_cons in H as [H|H%elem_of_list_singleton]; by apply (f_equal this) in H.
Qed.
Example C83_example : (ddag_wf ex_ddag ∧ stochastic ex_ddag) ∧ dd_alph ex_ddag !! 1%nat = Some [qz 0; qz 1] ∧ (∀ j, [qz 0; qz 1] !! j = Some (qz 1) ↔ j = 1%nat) ∧
  match get_hard_interventional_dag oracle0 ex_ddag 1%nat (qz 1) with
  | Ok D' => bool_decide (joint D' (list_to_map [(0, 0); (1, 1); (2, 0)]%nat) = qz 4 / qz 10 ∧ joint D' (list_to_map [(0, 0); (1, 0); (2, 0)]%nat) = 0) | Raise _ => false end = true.
Proof.
  split; [split; apply ex_ddag_ok|]. split; [done|]. split; [|vm_compute; reflexivity].
  intros [|[|[]]]; split; done.
Qed.

(** ** C84: [sample], [weighted_samples] and [sample_interventional] *)
Section loops.
  Context (D : ddag) (Hwf : ddag_wf D) (Hst : stochastic D) (Hnn : nonneg D).
  Notation N := (d_nodes (dd_dag D)).
  Notation Ar := (d_arcs (dd_dag D)).
  Context (Hnd : NoDup (dd_list D)) (Hlist : ∀ v, v ∈ dd_list D ↔ v ∈ N).
  Context (u : node → Qc) (F : node → option nat).
  (** What [v] gets. *)
  Definition gets (a : assignment) (v : node) : Prop :=
    (a !!! v < card D v)%nat ∧ match F v with Some k => a !!! v = k | None => selects D (u v) a v end.
  Lemma row_loop (step : node → list Z → res (list Z)) t :
    (∀ v r a P, v ∈ N → holds D r a P → (∀ p, (p, v) ∈ Ar → P p ∧ (a !!! p < card D p)%nat) →
      ∃ k, step v r = Ok (<[pos (dd_list D) v := Z.of_nat k]> r) ∧ gets (<[v := k]> a) v) →
    topo_order N Ar t →
    ∃ a, loopR step t (zero_row D) = Ok ((λ v, Z.of_nat (a !!! v)) <$> dd_list D) ∧ ∀ v, v ∈ N → gets a v.
  Proof using Hwf Hnd Hlist.
    intros Hstep Ht.
    assert (∀ post pre r a, t = pre ++ post → holds D r a (λ v, v ∈ pre) → (∀ v, v ∈ pre → gets a v) →
      ∃ r' a', loopR step post r = Ok r' ∧ holds D r' a' (λ v, v ∈ t) ∧ ∀ v, v ∈ t → gets a' v) as H.
    { induction post as [|v post IH]; intros pre r a E Hr Ha.
      - rewrite app_nil_r in E. subst pre. by exists r, a.
      - assert (v ∈ N) as Hv by (apply Ht; rewrite E; apply elem_of_app; right; by left).
        assert (∀ p w, (p, w) ∈ Ar → w ∈ pre ++ [v] → p ∈ pre) as Hpre.
        { intros p w He Hw. assert (p ∈ N) as Hp by (by apply (D_over D Hwf) in He as [? _]). apply elem_of_app in Hw as [Hw| ->%elem_of_list_singleton].
          - apply elem_of_list_split in Hw as (l1 & l2 & ->). apply elem_of_app. left. eapply topo_pre; [exact Ht| |exact He|exact Hp]. rewrite E, <-app_assoc. done.
          - by eapply topo_pre. }
        assert (v ∉ pre) as Hvp. { destruct Ht as (Hndt & _). rewrite E in Hndt. apply NoDup_app in Hndt as (_ & H & _). intros H'. apply (H v H'). by left. }
        destruct (Hstep v r a (λ v, v ∈ pre) Hv Hr) as (k & Ek & Hk).
        { intros p He. assert (p ∈ pre) as Hp by (apply (Hpre p v He), elem_of_app; right; by left). split; [done|]. by apply Ha. }
        cbn [loopR]. rewrite Ek. apply (IH (pre ++ [v]) _ (<[v := k]> a)).
        + by rewrite <-app_assoc.
        + destruct (holds_put D Hnd Hlist v k r a (λ v, v ∈ pre) Hv Hr Hvp) as [Hl Hh]. split; [done|]. intros w Hw. apply Hh.
          apply elem_of_app in Hw as [?| ->%elem_of_list_singleton]; tauto.
        + intros w [Hw| ->%elem_of_list_singleton]%elem_of_app; [|done]. assert (w ≠ v) as Hne by (by intros ->). destruct (Ha w Hw) as [H1 H2].
          unfold gets. rewrite ins_other by done. split; [done|]. destruct (F w); [done|]. eapply (selects_agree D Hwf); [| | |exact H2].
          * apply Ht. rewrite E. apply elem_of_app. by left.
          * by rewrite ins_other.
          * intros p He. rewrite ins_other; [done|]. intros <-. apply Hvp. apply (Hpre v w He). apply elem_of_app. by left. }
    destruct (H t [] (zero_row D) ∅ eq_refl) as (r & a & E & [Hl Hh] & Ha).
    - split; [apply replicate_length|]. by intros v ?%elem_of_nil.
    - by intros v ?%elem_of_nil.
    - exists a. split; [|intros v Hv; by apply Ha, Ht]. rewrite E. f_equal. apply list_eq_same_length with (n := size N); [|done|].
      + rewrite fmap_length. assert (list_to_set (dd_list D) = N) as <- by (apply set_eq; intros w; by rewrite elem_of_list_to_set). by rewrite size_list_to_set.
      + intros i x y _ Hx Hy. rewrite list_lookup_fmap in Hy. destruct (dd_list D !! i) as [v|] eqn:Ev; [|done]. cbn in Hy. injection Hy as <-.
        assert (v ∈ N) as HvN by (apply Hlist; by eapply elem_of_list_lookup_2). specialize (Hh v ltac:(by apply Ht) HvN). rewrite (pos_unique _ _ i) in Hh by done. congruence.
  Qed.
End loops.

Theorem C84_sample (o : oracle) (D : ddag) (u : node → Qc) :
  ddag_wf D → stochastic D → nonneg D → NoDup (dd_list D) → (∀ v, v ∈ dd_list D ↔ v ∈ d_nodes (dd_dag D)) →
  (∀ v, v ∈ d_nodes (dd_dag D) → (∀ p, (p, v) ∉ d_arcs (dd_dag D)) → plain D v) →
  (∀ v, v ∈ d_nodes (dd_dag D) → 0 <= u v ∧ u v < 1) →
  ∃ a, in_range D (dd_list D) a ∧ sample o D u = Ok ((λ v, Z.of_nat (a !!! v)) <$> dd_list D) ∧
    (∀ v, v ∈ d_nodes (dd_dag D) → selects D (u v) a v) ∧
    ∀ b, in_range D (dd_list D) b → (∀ v, v ∈ d_nodes (dd_dag D) → selects D (u v) b v) → ∀ v, v ∈ d_nodes (dd_dag D) → b !!! v = a !!! v.
Proof.
  intros Hwf Hst Hnn Hnd Hl Hpl Hu. pose proof Hwf as (Hv & Hac & _). apply wf_views_agree in Hv as Hwd.
  pose proof (topological_sort_spec (dd_dag D) o Hwd) as Ht. unfold sample.
  destruct (topological_sort (dd_dag D) o) as [t|e].
  2:{ destruct Ht as (w & _ & Hc). by apply closes_cycle_not_acyclic in Hc. }
  cbn [res_bind]. destruct (row_loop D Hwf Hnd Hl u (λ _, None) (sample_node D u) t) as (a & E & Ha); [|done|].
  - intros v r a P HvN Hr Hp. destruct (sample_node_ok D Hwf Hst Hnn Hnd Hl u v r a P HvN Hr Hp (Hpl v HvN)) as (k & E & Hk & Hs); [by apply Hu..|].
    exists k. split; [done|]. unfold gets. by rewrite ins_same.
  - exists a. split; [intros v HvN%Hl; by apply Ha|]. split; [done|]. split; [intros v HvN; by apply Ha|].
    intros b Hb Hsb. eapply (selects_unique D Hwf Hnn u (λ _, False)); [exact Ht| | |done| |].
    + intros v HvN. apply Hb, Hl. by apply Ht.
    + intros v HvN. apply Ha. by apply Ht.
    + intros v HvN _. by apply Hsb.
    + intros v HvN _. by apply Ha.
Qed.
(** A node without parents gets its value instead of the index, which is then used as an index by its children. *)
Theorem C84_alphabet_refuted :
  ∃ D u, ddag_wf D ∧ stochastic D ∧ no_tiny D ∧ (∀ v, 0 <= u v ∧ u v < 1) ∧ sample oracle0 D u = Raise IndexError.
Proof.
  set (D := DDag (dag_of {[0; 1]}%nat {[(0, 1)]}%nat) [0; 1]%nat
    (list_to_map [(0%nat, ex_tab [5; 5]%Z [2]%nat); (1%nat, ex_tab [1; 9; 9; 1]%Z [2; 2]%nat)])
    (list_to_map [(0, []); (1, [0])]%nat) (list_to_map [(0%nat, [qz 5; qz 6]); (1%nat, [qz 0; qz 1])])).
  exists D, (λ _, 0). destruct (check_rows_sound D) as [? ?]; [apply dag_of_wf|by_vm|by_vm|]. split; [done|]. split; [done|].
  split; [apply check_small_sound; by_vm|]. split; [|vm_compute; reflexivity]. intros _. by split.
Qed.

Theorem C84_sample_interventional (o : oracle) (D : ddag) (u : node → Qc) (fixed : gmap nat Z) (f : gmap node nat) :
  ddag_wf D → stochastic D → nonneg D → NoDup (dd_list D) → (∀ v, v ∈ dd_list D ↔ v ∈ d_nodes (dd_dag D)) →
  fixed = Z.of_nat <$> f → f ≠ ∅ → (∀ v k, f !! v = Some k → (k < card D v)%nat ∧ dd_list D !! v = Some v) →
  (∀ v, v ∈ d_nodes (dd_dag D) → f !! v = None → plain D v ∧ 0 <= u v ∧ u v < 1) →
  ∃ a, in_range D (dd_list D) a ∧ sample_interventional o D u fixed = Ok ((λ v, Z.of_nat (a !!! v)) <$> dd_list D) ∧
    (∀ v, v ∈ d_nodes (dd_dag D) → match f !! v with Some k => a !!! v = k | None => selects D (u v) a v end) ∧
    ∀ b, in_range D (dd_list D) b → (∀ v, v ∈ d_nodes (dd_dag D) → match f !! v with Some k => b !!! v = k | None => selects D (u v) b v end) →
      ∀ v, v ∈ d_nodes (dd_dag D) → b !!! v = a !!! v.
Proof.
  intros Hwf Hst Hnn Hnd Hl -> Hne Hf Hpl. pose proof Hwf as (Hv & Hac & _). apply wf_views_agree in Hv as Hwd.
  pose proof (topological_sort_spec (dd_dag D) o Hwd) as Ht. unfold sample_interventional. rewrite decide_False by (by rewrite fmap_empty_iff).
  destruct (topological_sort (dd_dag D) o) as [t|e].
  2:{ destruct Ht as (w & _ & Hc). by apply closes_cycle_not_acyclic in Hc. }
  cbn [res_bind]. destruct (row_loop D Hwf Hnd Hl u (λ v, f !! v) (interventional_node D u (Z.of_nat <$> f)) t) as (a & E & Ha); [|done|].
  - intros v r a P HvN Hr Hp. destruct (f !! v) as [k|] eqn:Ef.
    + exists k. destruct (Hf v k Ef) as [Hk Hvv]. split.
      * unfold interventional_node. destruct (family D Hwf v HvN) as (al & ps & c & _ & -> & _). destruct (node_ix_pos D Hnd Hl v HvN) as [-> _].
        rewrite (pos_unique _ _ v) by done. rewrite lookup_fmap, Ef. cbn. rewrite (put_ok D Hnd Hl); [|done|by destruct Hr]. by rewrite (pos_unique _ _ v).
      * unfold gets. by rewrite ins_same, Ef.
    + destruct (Hpl v HvN Ef) as (H1 & H2 & H3). destruct (interv_node_ok D Hwf Hst Hnn Hnd Hl u (Z.of_nat <$> f) v r a P HvN Hr Hp H1) as (k & E & Hk & Hs); [by rewrite lookup_fmap, Ef|done|done|].
      exists k. split; [done|]. unfold gets. by rewrite ins_same, Ef.
  - exists a. split; [intros v HvN%Hl; by apply Ha|]. split; [done|]. split; [intros v HvN; by apply Ha|].
    intros b Hb Hsb. eapply (selects_unique D Hwf Hnn u (λ v, is_Some (f !! v))); [exact Ht| | | | |].
    + intros v HvN. apply Hb, Hl. by apply Ht.
    + intros v HvN. apply Ha. by apply Ht.
    + intros v HvN [k Hk]. specialize (Hsb v HvN). destruct (Ha v HvN) as [_ Hav]. rewrite Hk in Hsb, Hav. congruence.
    + intros v HvN Hn. specialize (Hsb v HvN). destruct (f !! v) eqn:Ef; [by destruct Hn|done].
    + intros v HvN Hn. destruct (Ha v HvN) as [_ Hav]. destruct (f !! v) eqn:Ef; [by destruct Hn|done].
Qed.
(** The value of an intervened node is looked up under its position in the list of nodes: two intervened nodes
    exchange their values, or the lookup fails. *)
Theorem C84_position_refuted :
  ∃ D u, ddag_wf D ∧ stochastic D ∧ no_tiny D ∧ (∀ v, 0 <= u v ∧ u v < 1) ∧ dd_list D = [1; 0]%nat ∧
    sample_interventional oracle0 D u {[1%nat := 1%Z]} = Raise KeyError ∧
    sample_interventional oracle0 D u (<[0%nat := 1%Z]> {[1%nat := 0%Z]}) = Ok [1; 0]%Z.
Proof.
  set (D := DDag (dag_of {[0; 1]}%nat {[(1, 0)]}%nat) [1; 0]%nat
    (list_to_map [(1%nat, ex_tab [5; 5]%Z [2]%nat); (0%nat, ex_tab [1; 9; 9; 1]%Z [2; 2]%nat)])
    (list_to_map [(1, []); (0, [1])]%nat) (list_to_map [(1%nat, [qz 0; qz 1]); (0%nat, [qz 0; qz 1])])).
  exists D, (λ _, 0). destruct (check_rows_sound D) as [? ?]; [apply dag_of_wf|by_vm|by_vm|]. split; [done|]. split; [done|].
  split; [apply check_small_sound; by_vm|]. split; [intros _; by split|]. split; [done|]. split; vm_compute; reflexivity.
Qed.

(** [weighted_samples]: the given nodes keep their values and the weights are their conditional probabilities. *)
Theorem C84_weighted_samples (o : oracle) (D : ddag) (u : node → Qc) (given : list (node * nat)) :
  ddag_wf D → stochastic D → nonneg D → NoDup (dd_list D) → (∀ v, v ∈ dd_list D ↔ v ∈ d_nodes (dd_dag D)) →
  NoDup (given.*1) → (∀ v k, (v, k) ∈ given → (k < card D v)%nat ∧ dd_list D !! v = Some v) →
  (∀ v, v ∈ d_nodes (dd_dag D) → v ∉ given.*1 → ((∀ p, (p, v) ∉ d_arcs (dd_dag D)) → plain D v) ∧ 0 <= u v ∧ u v < 1) →
  ∃ a w, in_range D (dd_list D) a ∧
    weighted_samples o D u ((λ p, (p.1, Z.of_nat p.2)) <$> given) = Ok ((λ v, Z.of_nat (a !!! v)) <$> dd_list D, w) ∧
    (∀ v k, (v, k) ∈ given → a !!! v = k ∧ w !! v = Some (prob D a v)) ∧ dom w = list_to_set (given.*1) ∧
    (∀ v, v ∈ d_nodes (dd_dag D) → v ∉ given.*1 → selects D (u v) a v).
Proof.
  intros Hwf Hst Hnn Hnd Hl Hg1 Hg2 Hpl. pose proof Hwf as (Hv & Hac & _). apply wf_views_agree in Hv as Hwd.
  pose proof (topological_sort_spec (dd_dag D) o Hwd) as Ht. unfold weighted_samples. set (fixed := _ <$> given).
  set (f := list_to_map given : gmap node nat).
  assert (∀ v k, f !! v = Some k ↔ (v, k) ∈ given) as Hf by (intros v k; unfold f; by rewrite elem_of_list_to_map).
  assert (∀ v, f !! v = None ↔ v ∉ given.*1) as Hf0.
  { intros v. split; [intros H H'; apply elem_of_list_fmap in H' as ([w k] & -> & H'); apply Hf in H'; cbn in H; congruence|apply not_elem_of_list_to_map_1]. }
  assert ((list_to_map fixed : gmap node Z) = Z.of_nat <$> f) as Hfix by (unfold fixed, f; by rewrite <-list_to_map_fmap).
  assert (∀ v k, (v, k) ∈ given → v ∈ d_nodes (dd_dag D)) as HgN. { intros v k H. apply Hl. eapply elem_of_list_lookup_2. by apply (Hg2 v k). }
  rewrite decide_True.
  2:{ apply Forall_fmap, Forall_forall. intros [v k] H. cbn. pose proof (HgN v k H) as HvN. destruct (node_ix_pos D Hnd Hl v HvN) as [_ Hlt].
    destruct (Hg2 v k H) as [_ Hvv]. by rewrite (pos_unique _ _ v) in Hlt. }
  destruct (topological_sort (dd_dag D) o) as [t|e].
  2:{ destruct Ht as (w & _ & Hc). by apply closes_cycle_not_acyclic in Hc. }
  cbn [res_bind]. set (r0 := foldl _ _ _).
  assert (holds D r0 f (λ v, v ∈ given.*1)) as Hr0.
  { assert (∀ (l : list (node * nat)) r (P : node → Prop), (∀ p, p ∈ l → p ∈ given) → NoDup (l.*1) → holds D r f P →
      holds D (foldl (λ r (p : node * Z), <[p.1 := p.2]> r) r ((λ p, (p.1, Z.of_nat p.2)) <$> l)) f (λ v, P v ∨ v ∈ l.*1)) as H.
    { induction l as [|[v k] l IH]; intros r P Hsub Hndl Hr; cbn.
      - destruct Hr as [H1 H2]. split; [done|]. intros v [Hp|Hp]; [by apply H2|by apply elem_of_nil in Hp].
      - apply NoDup_cons in Hndl as [Hvl Hndl]. assert ((v, k) ∈ given) as Hgv by (apply Hsub; by left).
        destruct (IH (<[v := Z.of_nat k]> r) (λ w, P w ∨ w = v)) as [H1 H2].
        + intros p Hp. apply Hsub. by right.
        + done.
        + destruct Hr as [H1 H2]. split; [by rewrite insert_length|]. intros w Hw HwN. destruct (Hg2 v k Hgv) as [_ Hvv].
          assert (pos (dd_list D) v = v) as Hpv by (by apply pos_unique). destruct (decide (w = v)) as [->|Hne].
          * rewrite Hpv. rewrite list_lookup_insert; [|rewrite H1, <-Hpv; by apply (node_ix_pos D Hnd Hl)]. do 2 f_equal.
            apply Hf in Hgv. unfold lookup_total, map_lookup_total. by rewrite Hgv.
          * rewrite list_lookup_insert_ne; [apply H2; [tauto|done]|]. rewrite <-Hpv at 1. intros E. apply Hne. symmetry. apply (pos_inj D Hl); [by eapply HgN|done|done].
        + split; [done|]. intros w Hw HwN. apply H2; [|done]. rewrite elem_of_cons in Hw. tauto. }
    destruct (H given (zero_row D) (λ _, False)) as [H1 H2]; [done|done|split; [apply replicate_length|done]|]. split; [done|]. intros v Hv'. apply H2. by right. }
  clearbody r0.
  assert (∀ post pre r a (w : gmap node Qc), t = pre ++ post → holds D r a (λ v, v ∈ pre ∨ v ∈ given.*1) →
    (∀ v k, (v, k) ∈ given → a !!! v = k) →
    (∀ v, v ∈ pre → (a !!! v < card D v)%nat ∧ match f !! v with Some k => w !! v = Some (prob D a v) | None => selects D (u v) a v end) →
    dom w = filter (λ v, v ∈ given.*1) (list_to_set pre : nset) →
    ∃ r' a' w', loopR (weighted_node D u fixed) post (r, w) = Ok (r', w') ∧ holds D r' a' (λ v, v ∈ t) ∧
      (∀ v k, (v, k) ∈ given → a' !!! v = k) ∧ dom w' = filter (λ v, v ∈ given.*1) (list_to_set t : nset) ∧
      ∀ v, v ∈ t → (a' !!! v < card D v)%nat ∧ match f !! v with Some k => w' !! v = Some (prob D a' v) | None => selects D (u v) a' v end) as H.
  { induction post as [|v post IH]; intros pre r a w E Hr Hag Ha Hdom.
    - rewrite app_nil_r in E. subst pre. exists r, a, w. split; [done|]. split; [|done]. destruct Hr as [H1 H2]. split; [done|]. intros v Hv'. apply H2. by left.
    - assert (v ∈ d_nodes (dd_dag D)) as HvN by (apply Ht; rewrite E; apply elem_of_app; right; by left).
      assert (∀ p x, (p, x) ∈ d_arcs (dd_dag D) → x ∈ pre ++ [v] → p ∈ pre) as Hpre.
      { intros p x He Hx. assert (p ∈ d_nodes (dd_dag D)) as Hp by (by apply (D_over D Hwf) in He as [? _]). apply elem_of_app in Hx as [Hx| ->%elem_of_list_singleton].
        - apply elem_of_list_split in Hx as (l1 & l2 & ->). apply elem_of_app. left. eapply topo_pre; [exact Ht| |exact He|exact Hp]. rewrite E, <-app_assoc. done.
        - by eapply topo_pre. }
      assert (v ∉ pre) as Hvp. { destruct Ht as (Hndt & _). rewrite E in Hndt. apply NoDup_app in Hndt as (_ & H & _). intros H'. apply (H v H'). by left. }
      assert (∀ p, (p, v) ∈ d_arcs (dd_dag D) → p ∈ pre) as Hpv by (intros p He; apply (Hpre p v He), elem_of_app; right; by left).
      cbn [loopR]. unfold weighted_node at 1. rewrite Hfix, lookup_fmap. destruct (f !! v) as [k|] eqn:Ef; cbn [fmap option_fmap option_map].
      + destruct (family D Hwf v HvN) as (al & ps & c & E1 & E2 & E3 & Hnps & Hps & Hsh & Hvps & HpsN & Hdist). rewrite E2, E3. cbn [fst snd].
        assert (parent_ixs D ps (t_shape c) r = Ok (vals a ps)) as ->.
        { rewrite Hsh, fmap_app. eapply (parent_ixs_ok D Hnd Hl); [exact Hr| |].
          - intros p Hp. split; [by apply HpsN|]. left. by apply Hpv, Hps.
          - intros p Hp. apply Ha. by apply Hpv, Hps. }
        cbn [res_bind]. rewrite vals_length, Hsh, list_lookup_fmap, list_lookup_middle by done. cbn [fmap option_fmap option_map mbind option_bind].
        apply Hf in Ef as Hgv. destruct (Hg2 v k Hgv) as [Hk _]. rewrite np_index_ok by done.
        assert (t_at c (vals a ps ++ [k]) = prob D a v) as ->. { unfold prob. rewrite E2, E3, vals_app. cbn. by rewrite (Hag v k Hgv). }
        apply (IH (pre ++ [v]) r a); [by rewrite <-app_assoc| |done| |].
        * destruct Hr as [H1 H2]. split; [done|]. intros x Hx. apply H2. rewrite elem_of_app, elem_of_list_singleton in Hx.
          destruct Hx as [[?| ->]|?]; [by left| |by right]. right. apply elem_of_list_fmap. by exists (v, k).
        * intros x [Hx| ->%elem_of_list_singleton]%elem_of_app.
          -- destruct (Ha x Hx) as [H1 H2]. split; [done|]. destruct (f !! x); [|done]. rewrite lookup_insert_ne; [done|]. by intros ->.
          -- rewrite Ef. split; [by rewrite (Hag v k Hgv)|]. by rewrite lookup_insert.
        * rewrite dom_insert_L, Hdom, list_to_set_app_L. assert (v ∈ given.*1) as Hvg by (apply elem_of_list_fmap; by exists (v, k)). apply set_eq. intros x.
          rewrite elem_of_union, !elem_of_filter, elem_of_union, !elem_of_list_to_set, elem_of_list_singleton, elem_of_singleton. destruct (decide (x = v)) as [->|]; tauto.
      + apply Hf0 in Ef as Hvg. destruct (Hpl v HvN Hvg) as (Hp1 & Hu0 & Hu1).
        destruct (sample_node_ok D Hwf Hst Hnn Hnd Hl u v r a (λ v, v ∈ pre ∨ v ∈ given.*1) HvN Hr) as (k & Ek & Hk & Hs); [|done|done|done|].
        { intros p He. split; [left; by apply Hpv|]. by apply Ha, Hpv. }
        cbn [fst snd]. rewrite Ek. cbn [res_bind].
        apply (IH (pre ++ [v]) _ (<[v := k]> a)); [by rewrite <-app_assoc| | | |].
        * destruct (holds_put D Hnd Hl v k r a (λ v, v ∈ pre ∨ v ∈ given.*1) HvN Hr) as [H1 H2]; [tauto|]. split; [done|]. intros x Hx. apply H2.
          rewrite elem_of_app, elem_of_list_singleton in Hx. tauto.
        * intros x j Hx. rewrite ins_other; [by apply Hag|]. intros ->. apply Hvg, elem_of_list_fmap. by exists (x, j).
        * intros x [Hx| ->%elem_of_list_singleton]%elem_of_app; [|by rewrite Ef, ins_same]. assert (v ≠ x) as Hne by (by intros ->).
          assert (x ∈ d_nodes (dd_dag D)) as HxN by (apply Ht; rewrite E; apply elem_of_app; by left).
          assert (∀ p, (p, x) ∈ d_arcs (dd_dag D) → a !!! p = <[v := k]> a !!! p) as Hag'.
          { intros p He. rewrite ins_other; [done|]. intros <-. apply Hvp. apply (Hpre v x He). apply elem_of_app. by left. }
          destruct (Ha x Hx) as [H1 H2]. rewrite ins_other by done. split; [done|]. destruct (f !! x).
          -- rewrite H2. f_equal. apply (prob_agree D Hwf); [done|by rewrite ins_other|done].
          -- eapply (selects_agree D Hwf); [done| |exact Hag'|exact H2]. by rewrite ins_other.
        * rewrite Hdom, list_to_set_app_L. apply set_eq. intros x.
          rewrite !elem_of_filter, elem_of_union, !elem_of_list_to_set, elem_of_list_singleton. destruct (decide (x = v)) as [->|]; tauto. }
  destruct (H t [] r0 f ∅ eq_refl) as (r & a & w & E & [Hrl Hr] & Hag & Hdom & Ha).
  - destruct Hr0 as [H1 H2]. split; [done|]. intros v [?%elem_of_nil|?]; [done|by apply H2].
  - intros v k Hgv. apply Hf in Hgv. unfold lookup_total, map_lookup_total. by rewrite Hgv.
  - by intros v ?%elem_of_nil.
  - rewrite dom_empty_L. apply set_eq. intros x. rewrite elem_of_filter, elem_of_list_to_set, elem_of_nil. set_solver.
  - exists a, w. split; [intros v HvN%Hl; by apply Ha, Ht|]. split; [|split; [|split]].
    + rewrite E. do 2 f_equal. apply list_eq_same_length with (n := size (d_nodes (dd_dag D))); [|done|].
      * rewrite fmap_length. assert (list_to_set (dd_list D) = d_nodes (dd_dag D)) as <- by (apply set_eq; intros x; by rewrite elem_of_list_to_set). by rewrite size_list_to_set.
      * intros i x y _ Hx Hy. rewrite list_lookup_fmap in Hy. destruct (dd_list D !! i) as [v|] eqn:Ev; [|done]. cbn in Hy. injection Hy as <-.
        assert (v ∈ d_nodes (dd_dag D)) as HvN by (apply Hl; by eapply elem_of_list_lookup_2). specialize (Hr v ltac:(by apply Ht) HvN). rewrite (pos_unique _ _ i) in Hr by done. congruence.
    + intros v k Hgv. split; [by apply Hag|]. destruct (Ha v) as [_ Hav]; [by apply Ht, (HgN v k)|]. apply Hf in Hgv. by rewrite Hgv in Hav.
    + rewrite Hdom. apply set_eq. intros v. rewrite elem_of_filter, !elem_of_list_to_set. split; [tauto|]. intros Hvg. split; [done|].
      apply elem_of_list_fmap in Hvg as ([x k] & -> & Hvg). by apply Ht, (HgN x k).
    + intros v HvN Hvg. destruct (Ha v) as [_ Hav]; [by apply Ht|]. apply Hf0 in Hvg. by rewrite Hvg in Hav.
Qed.
(** The nodes are taken as columns: the value given to the node 1 goes to the column of the node 0. *)
Theorem C84_weighted_position_refuted :
  ∃ D u, ddag_wf D ∧ stochastic D ∧ no_tiny D ∧ (∀ v, 0 <= u v ∧ u v < 1) ∧ dd_list D = [1; 0]%nat ∧
    match weighted_samples oracle0 D u [(1%nat, 1%Z)] with Ok (r, _) => bool_decide (r = [0; 0]%Z) | Raise _ => false end = true.
Proof.
  set (D := DDag (dag_of {[0; 1]}%nat {[(1, 0)]}%nat) [1; 0]%nat
    (list_to_map [(1%nat, ex_tab [5; 5]%Z [2]%nat); (0%nat, ex_tab [1; 9; 9; 1]%Z [2; 2]%nat)])
    (list_to_map [(1, []); (0, [1])]%nat) (list_to_map [(1%nat, [qz 0; qz 1]); (0%nat, [qz 0; qz 1])])).
  exists D, (λ _, 0). destruct (check_rows_sound D) as [? ?]; [apply dag_of_wf|by_vm|by_vm|]. split; [done|]. split; [done|].
  split; [apply check_small_sound; by_vm|]. split; [intros _; by split|]. split; [done|]. vm_compute; reflexivity.
Qed.
(** Values below 0 are not rejected: they are stored as they are and count from the end of the axis. *)
Theorem C84_weighted_negative_refuted :
  ∃ D u, ddag_wf D ∧ stochastic D ∧ card D 1%nat = 2%nat ∧
    match weighted_samples oracle0 D u [(1%nat, (-1)%Z)], weighted_samples oracle0 D u [(1%nat, 1%Z)] with
    | Ok (r, w), Ok (r', w') => bool_decide (r !! 1%nat = Some (-1)%Z ∧ r' !! 1%nat = Some 1%Z ∧ w !! 1%nat = w' !! 1%nat ∧ w !! 1%nat = Some (q10 9))
    | _, _ => false end = true.
Proof.
  exists ex_ddag, (λ v, q10 (Z.of_nat (v + 4))). split; [apply ex_ddag_ok|]. split; [apply ex_ddag_ok|]. split; [by_vm|]. vm_compute; reflexivity.
Qed.
Example C84_example :
  (ddag_wf ex_ddag ∧ stochastic ex_ddag) ∧ NoDup (dd_list ex_ddag) ∧ (∀ v, v ∈ dd_list ex_ddag ↔ v ∈ d_nodes (dd_dag ex_ddag)) ∧
  plain ex_ddag 0%nat ∧ plain ex_ddag 1%nat ∧
  bool_decide (sample oracle0 ex_ddag (λ v, q10 (Z.of_nat (v + 4))) = Ok [0; 1; 0]%Z) = true ∧
  match weighted_samples oracle0 ex_ddag (λ v, q10 (Z.of_nat (v + 4))) [(1%nat, 0%Z)] with
  | Ok (r, w) => bool_decide (r = [0; 0; 1]%Z ∧ w !! 1%nat = Some (q10 1)) | Raise _ => false end = true ∧
  bool_decide (sample_interventional oracle0 ex_coll (λ v, q10 5) {[2%nat := 1%Z]} = Ok [1; 1; 1]%Z) = true.
Proof.
  split; [split; apply ex_ddag_ok|]. split; [by_vm|]. split.
  { assert (list_to_set (dd_list ex_ddag) = d_nodes (dd_dag ex_ddag)) as <- by by_vm. intros v. by rewrite elem_of_list_to_set. }
  split; [unfold plain; by_vm|]. split; [unfold plain; by_vm|]. split; [vm_compute; reflexivity|]. split; vm_compute; reflexivity.
Qed.

Print Assumptions C82_moments.
Print Assumptions C83_hard_intervention.
Print Assumptions C83_unknown_value_refuted.
Print Assumptions C84_sample.
Print Assumptions C84_alphabet_refuted.
Print Assumptions C84_sample_interventional.
Print Assumptions C84_position_refuted.
Print Assumptions C84_weighted_samples.
Print Assumptions C84_weighted_position_refuted.
Print Assumptions C84_weighted_negative_refuted.
