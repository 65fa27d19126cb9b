(** Efficient influence functions of discrete Bayesian networks. *)
From Coq Require Import QArith.Qcanon Field.
From Verif Require Import Py Spec SpecEnum DagModel QMatModel DiscreteModel DiscreteSampleModel EnumModel SpecDiscrete SpecFit TopoProofs StateProofs ReachProofs QueryProofs CoreProofs MarkovProofs QMatProofs SemProofs PropertiesDag DiscreteProofs DiscreteElim PropertiesDiscrete PropertiesDiscrete2 ImsetProofs FitProofs QcTac SpecEif EifProofs.
From Verif Require Import DiscreteFitModel EifModel EifRun.
#[local] Open Scope Qc_scope.

Lemma tiny_nonneg D : no_tiny D → nonneg D.
Proof.
  intros Hti v ps a Hv Hps Ha. destruct (Hti v ps a Hv Hps Ha) as [->|H]; [apply Qcle_refl|]. apply Qclt_le_weak. eapply Qclt_trans; [|exact H]. by apply (bool_decide_unpack _).
Qed.
(** ** C111: [get_efficient_influence_function] *)
(** The function it returns maps each of the given rows to the influence, and it raises a [KeyError] for a row that agrees
    with none of them on the family of some node. *)
Theorem C111_eif (o : oracle) (ord : list (list Z) → list (list Z)) (query : pgm_query) (D : ddag) (t c : node) (z : Z) (p : Qc) (I : nset)
    (w : nat) (rows : list (list Z)) :
  ddag_wf D → stochastic D → no_tiny D → exact_query D query → (∀ l, ord l ≡ₚ l) → p ≠ 0 →
  c ≠ t → c ∈ d_nodes (dd_dag D) → t ∈ d_nodes (dd_dag D) → possible_rows D w rows →
  (∀ v, v ∈ d_nodes (dd_dag D) → v ∉ I → ¬ (c ∈ fam D v ∧ t ∈ fam D v)) →
  ∃ f, get_eif o ord query D t c z (Some p) I w (Some rows) true = Ok f ∧
    (∀ samples, (∀ r, r ∈ samples → r ∈ rows) →
      f w samples = Ok ((λ r, influence D I (target_if D t c z) p (row_asg r)) <$> samples)) ∧
    (∀ samples r v, r ∈ samples → length r = w → v ∈ d_nodes (dd_dag D) → v ∉ I → (∀ s, s ∈ rows → ¬ agree_on (fam D v) r s) →
      f w samples = Raise KeyError).
Proof.
  intros Hwf Hst Hti Hq Hord Hp Hct Hc Ht Hrows HI. pose proof (tiny_nonneg D Hti) as Hnn.
  destruct (eif_conditionals_ok D Hwf Hst Hnn Hti t c Hct Ht Hc z o ord Hord query Hq w rows Hrows I HI) as (ts & Hts & Hall).
  exists (eif_eval p ts). unfold get_eif. cbn [res_bind]. rewrite Hts. split; [done|]. split.
  - intros samples Hs. by apply (eif_eval_ok D Hwf Hst Hnn Hti t c Hct Ht Hc z o ord Hord query Hq w rows Hrows I HI).
  - intros samples r v Hr Hl Hv HvI Hno.
    destruct (eif_eval_unseen D Hwf Hst Hnn Hti t c Hct Ht Hc z o ord Hord query Hq w rows Hrows I HI p ts samples r v Hall Hr Hv HvI Hl Hno) as (e & He & ->). done.
Qed.
(** The propensity defaults to the probability that [c] has the value [z]. *)
Theorem C111_propensity (o : oracle) (ord : list (list Z) → list (list Z)) (query : pgm_query) (D : ddag) (t c : node) (z : Z) (I : nset)
    (w : nat) (rows : option (list (list Z))) (partial : bool) :
  ddag_wf D → stochastic D → no_tiny D → plain D c → c ∈ d_nodes (dd_dag D) → (0 <= z < Z.of_nat (card D c))%Z →
  get_eif o ord query D t c z None I w rows partial =
    get_eif o ord query D t c z (Some (expect D (λ a, if decide (value D a c = qz z) then 1 else 0))) I w rows partial.
Proof.
  intros Hwf Hst Hti Hpl Hc Hz. unfold get_eif. destruct (C49_get_marginal o D c Hwf Hst Hti Hc) as (m & -> & Hsh & Hat). cbn [res_bind].
  rewrite Hsh. cbn [lookup list_lookup default from_option id]. unfold np_index. rewrite decide_True by done.
  rewrite Hat by lia. cbn [res_bind].
  assert (marginal D {[c]} {[c := Z.to_nat z]} = expect D (λ a, if decide (value D a c = qz z) then 1 else 0)) as ->; [|done].
  assert ({[c]} ⊆ d_nodes (dd_dag D)) as HS by set_solver.
  unfold expect. rewrite (sum_over_perm D _ ([c] ++ elements (d_nodes (dd_dag D) ∖ {[c]})) (λ a, joint D a * (if decide (value D a c = qz z) then 1 else 0)) ∅).
  2:{ apply NoDup_elements. } 2:{ rewrite <-(elements_singleton (C := nset) c), <-elements_disj_union by set_solver. by rewrite <-union_difference_L. }
  rewrite sum_over_app. cbn [sum_over].
  assert (∀ k a, (k < card D c)%nat → a !!! c = k → value D a c = qz (Z.of_nat k)) as Hval.
  { intros k a Hk Ha. unfold value. rewrite Hpl. cbn [default from_option id]. rewrite Ha, list_lookup_fmap, lookup_seq_lt by done. done. }
  rewrite (qsum_one _ _ (Z.to_nat z)).
  - unfold marginal. rewrite <-insert_empty. apply sum_over_ext. intros b [Hb _]. rewrite (Hval (Z.to_nat z)); [|lia|].
    + rewrite Z2Nat.id by lia. rewrite decide_True by done. ring.
    + rewrite Hb by (rewrite elem_of_elements; set_solver). by rewrite ins_same.
  - lia.
  - intros k Hk Hne. apply (sum_over_0 D). intros b [Hb _]. rewrite (Hval k); [|lia|].
    + rewrite decide_False; [ring|]. intros Heq%qz_inj. lia.
    + rewrite Hb by (rewrite elem_of_elements; set_solver). by rewrite ins_same.
Qed.

(** *** What the influence is *)
(** Its expectation is 0. *)
Theorem C111_mean_zero (D : ddag) (I : nset) (h : assignment → Qc) (p : Qc) :
  ddag_wf D → stochastic D → nonneg D → depends (d_nodes (dd_dag D)) h → expect D (influence D I h p) = 0.
Proof.
  intros Hwf Hst Hnn Hh. unfold influence. rewrite (expect_ext D _ (λ a, / p * projection D (elements (d_nodes (dd_dag D) ∖ I)) h a)) by (intros; unfold Qcdiv; ring).
  rewrite expect_scale, (projection_mean D Hwf Hst Hnn); [ring| |done]. intros u Hu%elem_of_elements. set_solver.
Qed.
(** Its correlation with every score of a node outside [I] is that of [h], divided by [p] ... *)
Theorem C111_gradient (D : ddag) (I : nset) (h : assignment → Qc) (p : Qc) (v : node) (s : assignment → Qc) :
  ddag_wf D → stochastic D → nonneg D → depends (d_nodes (dd_dag D)) h → v ∈ d_nodes (dd_dag D) → v ∉ I → score D v s →
  expect D (λ a, influence D I h p a * s a) = expect D (λ a, h a * s a) / p.
Proof.
  intros Hwf Hst Hnn Hh Hv HvI Hs. unfold influence. set (l := elements _).
  rewrite (expect_ext D _ (λ a, / p * (projection D l h a * s a))) by (intros; unfold Qcdiv; ring).
  rewrite (expect_scale D (λ a, projection D l h a * s a)). rewrite (projection_inner D Hwf Hst Hnn l v); [unfold Qcdiv; ring|apply NoDup_elements| |apply elem_of_elements; set_solver|done|done].
  intros u Hu%elem_of_elements. set_solver.
Qed.
(** ... and it has the smallest second moment of all functions with this property. *)
Theorem C111_efficient (D : ddag) (I : nset) (h : assignment → Qc) (p : Qc) (g : assignment → Qc) :
  ddag_wf D → stochastic D → nonneg D → depends (d_nodes (dd_dag D)) h → p ≠ 0 →
  (∀ v s, v ∈ d_nodes (dd_dag D) → v ∉ I → score D v s → expect D (λ a, g a * s a) = expect D (λ a, h a * s a) / p) →
  expect D (λ a, influence D I h p a * influence D I h p a) <= expect D (λ a, g a * g a).
Proof.
  intros Hwf Hst Hnn Hh Hp Hg. set (l := elements (d_nodes (dd_dag D) ∖ I)).
  pose proof (projection_least D Hwf Hst Hnn l h (λ a, p * g a) (NoDup_elements _)) as H.
  assert (expect D (λ a, projection D l h a * projection D l h a) <= expect D (λ a, (p * g a) * (p * g a))) as Hle.
  { apply H; [intros u Hu%elem_of_elements; set_solver|done|]. intros v s Hv%elem_of_elements Hs. apply elem_of_difference in Hv as [Hv HvI].
    rewrite (expect_ext D _ (λ a, p * (g a * s a))) by (intros; ring). rewrite (expect_scale D (λ a, g a * s a)), (Hg v s Hv HvI Hs). by apply div_mul. }
  rewrite (expect_ext D (λ a, (p * g a) * (p * g a)) (λ a, (p * p) * (g a * g a))) in Hle by (intros; ring). rewrite (expect_scale D (λ a, g a * g a)) in Hle.
  rewrite (expect_ext D _ (λ a, (/ p * / p) * (projection D l h a * projection D l h a))) by (intros; unfold influence, Qcdiv; fold l; ring).
  rewrite (expect_scale D (λ a, projection D l h a * projection D l h a)).
  assert (0 <= / p * / p) as Hpp by apply Qc_square_nonneg.
  pose proof (Qcmult_le_compat_r _ _ _ Hle Hpp) as Hle2.
  replace (p * p * expect D (λ a, g a * g a) * (/ p * / p)) with (expect D (λ a, g a * g a)) in Hle2 by (field; done).
  by rewrite Qcmult_comm.
Qed.
(** When the table of a node outside [I] is changed along a score, the expectation of [h] changes at the rate given by the influence. *)
Theorem C111_derivative (D D' : ddag) (I : nset) (h : assignment → Qc) (p : Qc) (v : node) (e : Qc) (s : assignment → Qc) :
  ddag_wf D → stochastic D → nonneg D → depends (d_nodes (dd_dag D)) h → p ≠ 0 →
  v ∈ d_nodes (dd_dag D) → v ∉ I → score D v s → tilted D D' v e s →
  expect D' h = expect D h + e * (p * expect D (λ a, influence D I h p a * s a)).
Proof.
  intros Hwf Hst Hnn Hh Hp Hv HvI Hs (HN & Hcard & Hprob). rewrite (C111_gradient D I h p v s) by done.
  rewrite div_mul by done. rewrite <-(expect_scale D (λ a, h a * s a)), <-expect_add. unfold expect. rewrite HN.
  assert (∀ l f a, (∀ u, u ∈ l → u ∈ d_nodes (dd_dag D)) → sum_over D' l f a = sum_over D l f a) as Hso.
  { induction l as [|u l IH]; intros f a Hl; [done|]. cbn. rewrite Hcard by (apply Hl; by left). apply qsum_ext. intros k _. apply IH. intros x Hx. apply Hl. by right. }
  rewrite Hso by (intros u; by rewrite elem_of_elements). apply sum_over_ext. intros a [_ Ha].
  assert (joint D' a = joint D a * (1 + e * s a)) as ->; [|ring]. unfold joint. rewrite HN.
  pose proof (NoDup_elements (d_nodes (dd_dag D))) as Hnd.
  assert (∀ u, u ∈ elements (d_nodes (dd_dag D)) → prob D' a u = if decide (u = v) then prob D a u * (1 + e * s a) else prob D a u) as Hpr.
  { intros u Hu%elem_of_elements. by apply Hprob. }
  assert (v ∈ elements (d_nodes (dd_dag D))) as Hvl by (by apply elem_of_elements).
  revert Hnd Hpr Hvl. generalize (elements (d_nodes (dd_dag D))). intros l.
  assert (∀ l, (∀ u, u ∈ l → prob D' a u = if decide (u = v) then prob D a u * (1 + e * s a) else prob D a u) → v ∉ l →
    foldr (λ u acc, prob D' a u * acc) 1 l = foldr (λ u acc, prob D a u * acc) 1 l) as Hout.
  { clear. induction l as [|u l IH]; intros Hpr Hn; [done|]. cbn. apply not_elem_of_cons in Hn as [Hne Hn]. rewrite Hpr by (by left). rewrite decide_False by congruence.
    f_equal. apply IH; [|done]. intros x Hx. apply Hpr. by right. }
  induction l as [|u l IH]; intros Hnd Hpr Hvl; [by apply elem_of_nil in Hvl|]. cbn. apply NoDup_cons in Hnd as [Hn Hnd]. rewrite (Hpr u) by (by left).
  apply elem_of_cons in Hvl as [<-|Hvl].
  - rewrite decide_True by done. rewrite Hout by (try done; intros x Hx; apply Hpr; by right). ring.
  - rewrite decide_False by (by intros ->). rewrite IH; [ring|done| |done]. intros x Hx. apply Hpr. by right.
Qed.

(** *** When there is no function *)
(** There is none if some family contains both nodes, for example if one is a parent of the other. *)
Theorem C111_adjacent (o : oracle) (ord : list (list Z) → list (list Z)) (query : pgm_query) (D : ddag) (t c v : node) (z : Z)
    (propensity : option Qc) (I : nset) (w : nat) (rows : list (list Z)) :
  ddag_wf D → (∀ l, ord l ≡ₚ l) → c ≠ t → rows ≠ [] → v ∈ d_nodes (dd_dag D) → v ∉ I → c ∈ fam D v → t ∈ fam D v →
  ∃ e, get_eif o ord query D t c z propensity I w (Some rows) true = Raise e.
Proof.
  intros Hwf Hord Hct Hrows Hv HvI Hc Ht. unfold get_eif. destruct (match propensity with Some p => _ | None => _ end) as [p|e]; cbn [res_bind]; [|by exists e].
  assert (∃ e, eif_conditionals o ord query D t c z I w (Some rows) = Raise e) as [e ->]; [|by exists e].
  unfold eif_conditionals. destruct (dd_alph D !! t) as [alt|]; [|by eexists]. destruct (dd_alph D !! c) as [alc|]; [|by eexists].
  destruct (key_exists (dd_dag D) o I v) as (key & k & Hkey & Hfam); [apply wf_views_agree, Hwf|apply Hwf|done|done|].
  apply (loopR_raise _ _ (key, k) Hkey). intros s. cbn [fst snd].
  assert (∃ e, eif_mean o ord query D t c alc alt z w (Some rows) key = Raise e) as [e ->]; [|by exists e].
  assert (c ∈ key) as Hck by (by apply Hfam). assert (t ∈ key) as Htk by (by apply Hfam).
  unfold eif_mean. rewrite decide_False by (intros ->; by apply elem_of_nil in Hck). case_decide; [|by eexists].
  assert (∃ e, conditionals_pgmpy query D [c; t] key (ord (remove_dups ((λ r, cell r <$> key) <$> rows))) = Raise e) as [e ->]; [|by exists e].
  unfold conditionals_pgmpy. destruct rows as [|r rows]; [done|].
  apply (loopR_raise _ _ (cell r <$> key)); [rewrite (Hord _), elem_of_remove_dups; by left|]. intros m.
  assert (∃ e, conditional_pgmpy query D [c; t] key (cell r <$> key) = Raise e) as [e ->]; [|by exists e].
  unfold conditional_pgmpy. assert (filter (λ v, v ∉ key) [c; t] = []) as Ho by (rewrite filter_cons_False by tauto; rewrite filter_cons_False by tauto; done).
  rewrite Ho. destruct (query _ _) as [T|e]; cbn [res_bind]; [|by exists e]. rewrite decide_False by (cbn; lia).
  unfold add_repeated_marginal. rewrite Ho.
  assert (filter (λ v, v ∈ key) [c; t] = [c; t]) as Hd by (rewrite filter_cons_True by tauto; rewrite filter_cons_True by tauto; done). rewrite Hd.
  case_decide; [|by eexists]. destruct (einops_repeat _ _ _ _); cbn [res_bind]; by eexists.
Qed.
(** There is none without [sampled_values], although this is the default ... *)
Theorem C111_no_samples (o : oracle) (ord : list (list Z) → list (list Z)) (query : pgm_query) (D : ddag) (t c v : node) (z : Z)
    (propensity : option Qc) (I : nset) (w : nat) (partial : bool) :
  ddag_wf D → v ∈ d_nodes (dd_dag D) → v ∉ I → ∃ e, get_eif o ord query D t c z propensity I w None partial = Raise e.
Proof.
  intros Hwf Hv HvI. unfold get_eif. destruct (match propensity with Some p => _ | None => _ end) as [p|e]; cbn [res_bind]; [|by exists e].
  destruct partial; [|by eexists]. assert (∃ e, eif_conditionals o ord query D t c z I w None = Raise e) as [e ->]; [|by exists e].
  unfold eif_conditionals. destruct (dd_alph D !! t) as [alt|]; [|by eexists]. destruct (dd_alph D !! c) as [alc|]; [|by eexists].
  destruct (key_exists (dd_dag D) o I v) as (key & k & Hkey & Hfam); [apply wf_views_agree, Hwf|apply Hwf|done|done|].
  apply (loopR_raise _ _ (key, k) Hkey). intros s. cbn [fst snd]. unfold eif_mean. rewrite decide_False; [by eexists|].
  intros ->. assert (v ∈ []) as Habs by (apply Hfam; set_solver). by apply elem_of_nil in Habs.
Qed.
(** ... nor with [partial=False]. *)
Theorem C111_full (o : oracle) (ord : list (list Z) → list (list Z)) (query : pgm_query) (D : ddag) (t c : node) (z : Z)
    (propensity : option Qc) (I : nset) (w : nat) (rows : option (list (list Z))) :
  ∃ e, get_eif o ord query D t c z propensity I w rows false = Raise e.
Proof. unfold get_eif. destruct (match propensity with Some p => _ | None => _ end) as [p|e]; cbn [res_bind]; by eexists. Qed.

(** *** The contract of the inference can be met *)
Definition table_query (o : oracle) (D : ddag) (vars : list node) (ev : list (node * Z)) : res tensor :=
  res_bind (get_conditional o D false vars ev.*1) (λ T,
    Ok (Tensor (take (length vars) (t_shape T)) (λ ix, t_at T (ix ++ (Z.to_nat <$> ev.*2))))).
Theorem C111_query (o : oracle) (D : ddag) : ddag_wf D → stochastic D → no_tiny D → exact_query D (table_query o D).
Proof.
  intros Hwf Hst Hti vars evs a Hne Hnd HN Ha Hm. unfold table_query.
  assert (((λ v, (v, Z.of_nat (a !!! v))) <$> evs).*1 = evs) as Hfst by (rewrite <-list_fmap_compose; apply list_fmap_id).
  assert (Z.to_nat <$> ((λ v, (v, Z.of_nat (a !!! v))) <$> evs).*2 = vals a evs) as Hsnd.
  { rewrite <-!list_fmap_compose. unfold vals. apply fmap_ext_in. intros v _. cbn. apply Nat2Z.id. }
  rewrite Hfst, Hsnd. apply NoDup_app in Hnd as (Hnv & Hdis & Hne').
  destruct (C81_get_conditional o D vars evs Hwf Hst Hti Hnv Hne') as (T & HT & Hsh & Hat).
  { destruct vars; done. } { done. } { intros v v' Hv _ Hve. by destruct (Hdis v Hv). }
  rewrite HT. cbn [res_bind]. eexists. split; [done|]. cbn [t_shape t_at]. split.
  { rewrite Hsh, fmap_app. rewrite take_app_alt by (by rewrite fmap_length). done. }
  intros b Hb Hag. assert (vals a evs = vals b evs) as -> by (apply vals_ext; intros v Hv; symmetry; by apply Hag).
  destruct (Hat b b) as (_ & H & _).
  { intros v Hv. apply elem_of_app in Hv as [Hv|Hv]; [apply elem_of_list_filter in Hv as [_ Hv]; by apply Hb|]. rewrite Hag by done. by apply Ha. }
  { done. }
  assert (marginal D (list_to_set evs) b = marginal D (list_to_set evs) a) as Heq.
  { unfold marginal. apply (sum_over_agree D (d_nodes (dd_dag D))).
    - intros x y Hxy. change (plist D (elements (d_nodes (dd_dag D))) x = plist D (elements (d_nodes (dd_dag D))) y). apply (plist_agree D Hwf).
      + intros v. by rewrite elem_of_elements.
      + intros v Hv%elem_of_elements. by apply Hxy.
      + intros u v He _. apply Hxy. by apply (D_over D Hwf u v).
    - intros v Hv Hn. apply Hag. rewrite elem_of_elements in Hn. destruct (decide (v ∈ evs)); [done|]. destruct Hn. apply elem_of_difference. by rewrite elem_of_list_to_set. }
  rewrite H; [by rewrite Heq|done|by rewrite Heq].
Qed.

(** *** Examples *)
(** The network [0 -> 1 -> 2] with the values 0 and 3 at the node 2: the influence for its mean given that node 0 is 1. *)
Definition ex_chain : ddag := DDag (dag_of {[0; 1; 2]}%nat {[(0, 1); (1, 2)]}%nat) [0; 1; 2]%nat
  (list_to_map [(0%nat, ex_tab [4; 6]%Z [2]%nat); (1%nat, ex_tab [1; 9; 9; 1]%Z [2; 2]%nat); (2%nat, ex_tab [1; 9; 8; 2]%Z [2; 2]%nat)])
  (list_to_map [(0, []); (1, [0]); (2, [1])]%nat) ex_alph.
Definition ex_eif_rows : list (list Z) := [[0; 0; 0]; [0; 0; 1]; [0; 1; 0]; [0; 1; 1]; [1; 0; 0]; [1; 0; 1]; [1; 1; 0]; [1; 1; 1]]%Z.
Example C111_example :
  (ddag_wf ex_chain ∧ stochastic ex_chain ∧ no_tiny ex_chain) ∧ exact_query ex_chain (table_query oracle0 ex_chain) ∧
  possible_rows ex_chain 3 ex_eif_rows ∧ (∀ v, v ∈ d_nodes (dd_dag ex_chain) → v ∉ (∅ : nset) → ¬ (0%nat ∈ fam ex_chain v ∧ 2%nat ∈ fam ex_chain v)) ∧
  match get_eif oracle0 id (table_query oracle0 ex_chain) ex_chain 2 0 1 None ∅ 3 (Some ex_eif_rows) true with
  | Ok f => bool_decide (f 3%nat [[1; 0; 1]; [0; 1; 0]]%Z = Ok [qz 201 / qz 100 + qz 27 / qz 58; - (qz 249 / qz 100 + qz 1 / qz 7)]) | Raise _ => false end = true.
Proof.
  assert (ddag_wf ex_chain ∧ stochastic ex_chain ∧ no_tiny ex_chain) as (H1 & H2 & H3).
  { destruct (check_rows_sound ex_chain) as [? ?]; [apply dag_of_wf|by_vm|by_vm|]. split; [done|]. split; [done|]. apply check_small_sound. by_vm. }
  split; [done|]. split; [by apply C111_query|]. split; [|split].
  - split.
    + assert (set_Forall (λ v, v < 3)%nat (d_nodes (dd_dag ex_chain))) as H by by_vm. exact H.
    + assert (Forall (λ r, length r = 3%nat ∧ joint ex_chain (row_asg r) ≠ 0 ∧ set_Forall (λ v, (row_asg r !!! v < card ex_chain v)%nat ∧
        r !! v = Some (Z.of_nat (row_asg r !!! v))) (d_nodes (dd_dag ex_chain))) ex_eif_rows) as H by by_vm.
      rewrite Forall_forall in H. intros r Hr. destruct (H r Hr) as (Hl & Hj & Hall). split; [done|]. exists (row_asg r). split; [|split; [done|]].
      * intros v Hv%elem_of_elements. by apply Hall.
      * intros v Hv. by apply Hall.
  - assert (set_Forall (λ v, ¬ (0%nat ∈ fam ex_chain v ∧ 2%nat ∈ fam ex_chain v)) (d_nodes (dd_dag ex_chain))) as H by by_vm. intros v Hv _. by apply H.
  - vm_compute. reflexivity.
Qed.
(** A score of the node 1 of that network and the network changed along it. *)
Definition ex_score_at (ix : list nat) : Qc := if decide (ix = [0; 0]%nat) then qz 9 else if decide (ix = [0; 1]%nat) then qz (-1) else if decide (ix = [1; 0]%nat) then qz 1 else qz (-9).
Definition ex_score (a : assignment) : Qc := ex_score_at (vals a [0; 1]%nat).
Definition ex_tilted : ddag := DDag (dd_dag ex_chain) (dd_list ex_chain)
  (<[1%nat := Tensor [2; 2]%nat (λ ix, t_at (ex_tab [1; 9; 9; 1]%Z [2; 2]%nat) ix * (1 + q10 1 * ex_score_at ix))]> (dd_cond ex_chain)) (dd_par ex_chain) ex_alph.
Example C111_example_score : score ex_chain 1 ex_score ∧ tilted ex_chain ex_tilted 1 (q10 1) ex_score ∧ depends (d_nodes (dd_dag ex_chain)) (target_if ex_chain 2 0 1) ∧
  expect ex_tilted (target_if ex_chain 2 0 1) ≠ expect ex_chain (target_if ex_chain 2 0 1).
Proof.
  assert (fam ex_chain 1%nat = {[0; 1]}%nat) as Hfam by by_vm. assert (elements (pa ex_chain 1%nat) = [0%nat]) as Hpa by by_vm.
  split; [|split; [|split]].
  - split.
    + intros a b Hab. rewrite Hfam in Hab. unfold ex_score, vals. cbn [fmap list_fmap]. rewrite (Hab 0%nat), (Hab 1%nat) by set_solver. done.
    + intros a Ha. rewrite Hpa in Ha. assert (a !!! 0%nat < 2)%nat as H0 by (apply (Ha 0%nat); by left).
      assert (card ex_chain 1%nat = 2%nat) as -> by done.
      assert (∀ k, prob ex_chain (<[1%nat := k]> a) 1%nat = t_at (ex_tab [1; 9; 9; 1]%Z [2; 2]%nat) [a !!! 0%nat; k]) as Hp.
      { intros k. change (t_at (ex_tab [1; 9; 9; 1]%Z [2; 2]%nat) (vals (<[1%nat := k]> a) [0; 1]%nat) = t_at (ex_tab [1; 9; 9; 1]%Z [2; 2]%nat) [a !!! 0%nat; k]).
        cbn [vals fmap list_fmap]. by rewrite ins_same, ins_other. }
      rewrite (qsum_ext _ _ (λ k, t_at (ex_tab [1; 9; 9; 1]%Z [2; 2]%nat) [a !!! 0%nat; k] * ex_score_at [a !!! 0%nat; k])).
      2:{ intros k _. rewrite Hp. unfold ex_score. cbn [vals fmap list_fmap]. by rewrite ins_same, ins_other. }
      destruct (a !!! 0%nat) as [|[|?]]; [by apply (bool_decide_unpack _)..|lia].
  - split; [done|]. split; [done|]. intros a u _ Hu. assert (u = 0 ∨ u = 1 ∨ u = 2)%nat as [->|[->| ->]].
    { change (u ∈ ({[0; 1; 2]}%nat : nset)) in Hu. rewrite !elem_of_union, !elem_of_singleton in Hu. tauto. } all: reflexivity.
  - intros a b Hab. unfold target_if, value. rewrite (Hab 0%nat), (Hab 2%nat); [done|by_vm..].
  - by_vm.
Qed.
(** Node 0 is a parent of node 1 there, so there is no influence function for the mean of node 1 given the value of node 0. *)
Theorem C111_adjacent_refuted : ∃ D rows, ddag_wf D ∧ stochastic D ∧ no_tiny D ∧ exact_query D (table_query oracle0 D) ∧ possible_rows D 3 rows ∧
  get_eif oracle0 id (table_query oracle0 D) D 1 0 1 None ∅ 3 (Some rows) true = Raise RuntimeError.
Proof.
  exists ex_chain, ex_eif_rows. destruct C111_example as ((H1 & H2 & H3) & H4 & H5 & _). do 5 (split; [done|]).
  assert (match get_eif oracle0 id (table_query oracle0 ex_chain) ex_chain 1 0 1 None ∅ 3 (Some ex_eif_rows) true with Raise RuntimeError => true | _ => false end = true) as H by (vm_compute; reflexivity).
  by destruct (get_eif _ _ _ _ _ _ _ _ _ _ _ _) as [|[]].
Qed.

Print Assumptions C111_eif.
Print Assumptions C111_propensity.
Print Assumptions C111_mean_zero.
Print Assumptions C111_gradient.
Print Assumptions C111_efficient.
Print Assumptions C111_derivative.
Print Assumptions C111_adjacent.
Print Assumptions C111_no_samples.
Print Assumptions C111_full.
Print Assumptions C111_query.
Print Assumptions C111_adjacent_refuted.
