(** Proofs about the random functions. *)
From Coq Require Import QArith.Qcanon Field.
From Verif Require Import Py Spec DagModel QMatModel GaussModel ScmModel CamModel RandFunModel PropertiesDag SpecScm SpecCam SpecRandFun TopoProofs StateProofs ReachProofs QueryProofs CoreProofs DiscreteModel DiscreteProofs QMatProofs GaussProofs ScmProofs CamProofs PropertiesScm PropertiesCam.
#[local] Open Scope Qc_scope.

(** ** Variances *)
Lemma total_map_add {A} (f g : A → Qc) l : total ((λ x, f x + g x) <$> l) = total (f <$> l) + total (g <$> l).
Proof. unfold total. induction l as [|x l IH]; cbn; [ring|]. rewrite IH. ring. Qed.
Lemma total_map_scale {A} c (f : A → Qc) l : total ((λ x, c * f x) <$> l) = c * total (f <$> l).
Proof. unfold total. induction l as [|x l IH]; cbn; [ring|]. rewrite IH. ring. Qed.
Lemma total_map_const {A} c (l : list A) : total ((λ _, c) <$> l) = qn (length l) * c.
Proof. induction l as [|x l IH]; [cbn; replace (qn 0) with 0 by by_vm; ring|]. cbn [length]. rewrite qn_S. unfold total in *. cbn. rewrite IH. ring. Qed.
Lemma qn_nonneg n : 0 <= qn n.
Proof.
  induction n as [|n IH]; [by_vm|]. rewrite qn_S. replace 0 with (0 + 0) by ring. apply Qcplus_le_compat; [done|]. by_vm.
Qed.
Lemma qn_nonzero n : n ≠ 0%nat → qn n ≠ 0.
Proof.
  destruct n as [|n]; [done|]. intros _ H. rewrite qn_S in H. pose proof (qn_nonneg n) as Hn.
  assert (0 + 1 <= qn n + 1) as Hle by (apply Qcplus_le_compat; [done|apply Qcle_refl]). rewrite H in Hle. by apply Hle.
Qed.
Lemma np_mean_average l : np_mean l = average l.
Proof. done. Qed.
Lemma np_var_variance l : np_var l = variance l.
Proof.
  change (np_var l) with (average ((λ x, (x - average l) * (x - average l)) <$> l)). unfold variance. set (mu := average l).
  unfold average. rewrite !fmap_length.
  assert ((λ x, (x - mu) * (x - mu)) <$> l = (λ x, x * x + ((- (1 + 1) * mu) * x + mu * mu)) <$> l) as ->.
  { apply list_fmap_ext. intros i x _. ring. }
  rewrite (total_map_add (λ x, x * x)), (total_map_add (λ x, (- (1 + 1) * mu) * x)), (total_map_scale _ (λ x, x)), total_map_const.
  rewrite list_fmap_id. destruct (decide (length l = 0%nat)) as [Hl|Hl].
  - assert (l = []) as -> by (by apply nil_length_inv). subst mu. unfold average. cbn. replace (total []) with 0 by done. unfold Qcdiv. ring.
  - pose proof (qn_nonzero _ Hl) as Hn. assert (total l = mu * qn (length l)) as ->. { subst mu. unfold average. field. done. }
    field. done.
Qed.
Lemma variance_scale c l : variance ((λ x, c * x) <$> l) = c * c * variance l.
Proof.
  unfold variance, average. rewrite !fmap_length. rewrite <-list_fmap_compose.
  replace ((λ x, x * x) ∘ (λ x, c * x) <$> l) with ((λ x, (c * c) * (x * x)) <$> l) by (apply list_fmap_ext; intros i x _; cbn; ring).
  rewrite (total_map_scale (c * c) (λ x, x * x)), (total_map_scale c (λ x, x)), list_fmap_id. unfold Qcdiv. ring.
Qed.
Lemma scale_exact sq q vp : vp ≠ 0 → exact sq (q / vp) → sq (q / vp) * sq (q / vp) * vp = q.
Proof. unfold exact. intros Hv ->. field. done. Qed.

(** ** Mean functions *)
Lemma qsum_first n f : qsum (S n) f = f 0%nat + qsum n (λ k, f (S k)).
Proof. induction n as [|n IH]; [cbn; ring|]. change (qsum (S (S n)) f) with (qsum (S n) f + f (S n)). rewrite IH. cbn. ring. Qed.
Lemma zip_signal (base : node → Qc → Qc) ws ps cs i : length ws = length ps → length cs = length ps →
  foldr Qcplus 0 (zip_with (λ w (pc : node * list Qc), base pc.1 (default 0 (pc.2 !! i)) * w) ws (zip ps cs)) = signal base ws ps cs i.
Proof.
  unfold signal. revert ws cs. induction ps as [|p ps IH]; intros [|w ws] [|c cs] Hw Hc; try done.
  cbn [length]. rewrite qsum_first. cbn in Hw, Hc. cbn [zip zip_with foldr fst snd]. rewrite (IH ws cs) by lia.
  cbn [lookup list_lookup default from_option id]. rewrite Qcmult_comm. done.
Qed.
Lemma mean_function_ok c ws p2b cs n ps : length cs = length ps → length ws = length ps → (∀ p, p ∈ ps → p ∈ dom p2b) →
  cam_mean_function c ws p2b cs n ps = Ok ((λ i, c * signal (λ p, default id (p2b !! p)) ws ps cs i) <$> seq 0 n).
Proof.
  intros H1 H2 H3. unfold cam_mean_function. rewrite decide_True by (split; [done|]; split; [done|]; by apply Forall_forall).
  destruct (decide (ps = [])) as [->|Hne].
  - f_equal. unfold signal. cbn. replace ((λ _ : nat, c * 0) <$> seq 0 n) with ((λ _ : nat, 0) <$> seq 0 n) by (apply list_fmap_ext; intros i x _; ring).
    induction n as [|n IH]; [done|]. rewrite seq_S, fmap_app, <-IH. cbn. by rewrite replicate_cons_app.
  - f_equal. apply list_fmap_ext. intros i x _. f_equal. by apply (zip_signal (λ p, default id (p2b !! p))).
Qed.
Lemma mean_function_inv c ws p2b cs n ps r : cam_mean_function c ws p2b cs n ps = Ok r →
  length cs = length ps ∧ length ws = length ps ∧ ∀ p, p ∈ ps → p ∈ dom p2b.
Proof. unfold cam_mean_function. case_decide as H; [|done]. intros _. destruct H as (? & ? & H). split; [done|]. split; [done|]. by apply Forall_forall. Qed.

Lemma gather_ok (dict : gmap node (list Qc)) ps acc r :
  loopR (λ p acc, match dict !! p with Some c => Ok (acc ++ [c]) | None => Raise KeyError end) ps acc = Ok r ↔
  ∃ cs, r = acc ++ cs ∧ Forall2 (λ p c, dict !! p = Some c) ps cs.
Proof.
  revert acc. induction ps as [|p ps IH]; intros acc; cbn.
  - split; [intros [= <-]; exists []; by rewrite app_nil_r|]. intros (cs & -> & Hcs). inversion Hcs. by rewrite app_nil_r.
  - destruct (dict !! p) as [c|] eqn:Ec; cbn.
    + rewrite IH. split.
      * intros (cs & -> & Hcs). exists (c :: cs). rewrite <-app_assoc. split; [done|]. by constructor.
      * intros (cs & -> & Hcs). apply Forall2_cons_inv_l in Hcs as (c' & cs' & Hc & Hcs & ->). rewrite Ec in Hc. injection Hc as <-.
        exists cs'. by rewrite <-app_assoc.
    + split; [done|]. intros (cs & _ & Hcs). apply Forall2_cons_inv_l in Hcs as (c' & cs' & Hc & _). congruence.
Qed.

Section additive.
  Context (o : oracle) (d : dag) (bases : node → list (Qc → Qc)) (weights mc : node → list Qc) (noise : node → nat → res (list Qc))
    (r2 : gmap nat Qc) (by_node : bool) (sq : Qc → Qc) (nmc : nat).
  Hypothesis Hva : views_agree d.
  Hypothesis Hac : acyclic (d_arcs d).
  Hypothesis Hmc : ∀ v, length (mc v) = nmc.

  (** What the loop establishes for the node [v]. *)
  Definition made (C : cam) (dict : gmap node (list Qc)) (v : node) : Prop :=
    ∃ ps cs base c b,
      NoDup ps ∧ (∀ p, p ∈ ps ↔ (p, v) ∈ d_arcs d) ∧ (∀ j p g, ps !! j = Some p → bases v !! j = Some g → base p = g) ∧
      Forall2 (λ p x, dict !! p = Some x) ps cs ∧ (ps ≠ [] → length (weights v) = length ps) ∧
      dict !! v = Some (zip_with Qcplus ((λ i, c * signal base (weights v) ps cs i) <$> seq 0 nmc) ((λ e, b * e) <$> mc v)) ∧
      variance (mc v) ≠ 0 ∧
      (ps = [] → b = sq (1 / variance (mc v))) ∧
      (ps ≠ [] → ∃ q, r2 !! (if by_node then v else length ps) = Some q ∧ 0 <= q ∧ q <= 1 ∧
        variance (signal base (weights v) ps cs <$> seq 0 nmc) ≠ 0 ∧
        c = sq (q / variance (signal base (weights v) ps cs <$> seq 0 nmc)) ∧ b = sq ((1 - q) / variance (mc v))) ∧
      (∃ f, cm_mean C !! v = Some f ∧ ∀ cs' n ps', ps' ≡ₚ ps → length cs' = length ps' →
        f cs' n ps' = Ok ((λ i, c * signal base (weights v) ps' cs' i) <$> seq 0 n)) ∧
      ∃ e, cm_noise C !! v = Some e ∧ ∀ n, e n = res_bind (noise v n) (λ x, Ok ((λ y, b * y) <$> x)).

  Lemma pars_spec v : NoDup (on o [189%nat; v] (parents d v)) ∧ ∀ p, p ∈ on o [189%nat; v] (parents d v) ↔ (p, v) ∈ d_arcs d.
  Proof using Hva.
    split; [apply NoDup_on|]. intros p. rewrite elem_of_on. apply (proj1 Hva).
  Qed.
  Lemma zip_base (ps : list node) (bs : list (Qc → Qc)) j p g : NoDup ps → ps !! j = Some p → bs !! j = Some g →
    default id ((list_to_map (zip ps bs) : gmap node (Qc → Qc)) !! p) = g.
  Proof using.
    intros Hnd Hp Hg. rewrite (elem_of_list_to_map_1 (zip ps bs) p g); [done| |].
    - clear -Hnd. revert bs. induction ps as [|q ps IH]; intros [|b bs]; cbn; try by constructor.
      apply NoDup_cons in Hnd as [Hq Hnd]. constructor; [|by apply IH]. intros (x & Hx & Hin)%elem_of_list_fmap.
      destruct x as [x1 x2]. cbn in Hx. subst x1. by apply elem_of_zip_l in Hin.
    - apply elem_of_list_lookup. exists j. rewrite lookup_zip_with, Hp, Hg. done.
  Qed.
  Lemma step_made C dict v C' dict' :
    additive_node o d bases weights mc noise r2 by_node sq nmc v (C, dict) = Ok (C', dict') →
    (v, v) ∉ d_arcs d →
    made C' dict' v ∧ (∃ x, dict' = <[v := x]> dict) ∧ cm_dag C' = cm_dag C ∧ cm_list C' = cm_list C ∧
    (∀ w, w ≠ v → cm_mean C' !! w = cm_mean C !! w ∧ cm_noise C' !! w = cm_noise C !! w).
  Proof using Hva Hmc.
    intros Hrun Hvv. unfold additive_node in Hrun. destruct (pars_spec v) as [Hnd Hps].
    set (ps := on o [189%nat; v] (parents d v)) in *.
    set (p2b := list_to_map (zip ps (bases v)) : gmap node (Qc → Qc)) in *.
    destruct (loopR _ ps []) as [cs|] eqn:Ecs; [|done]. cbn [res_bind] in Hrun. apply gather_ok in Ecs as (cs' & -> & Hcs). cbn [app] in Hrun. rename cs' into cs.
    pose proof (Forall2_length _ _ _ Hcs) as Hlen.
    destruct (decide (np_var (mc v) = 0)) as [|Hvar]; [done|]. rewrite np_var_variance in Hvar, Hrun.
    set (base := λ p, default id (p2b !! p)).
    assert (∀ j p g, ps !! j = Some p → bases v !! j = Some g → base p = g) as Hbase. { intros j p g Hp Hg. by apply (zip_base ps (bases v) j). }
    assert (∀ x, Forall2 (λ p c, <[v := x]> dict !! p = Some c) ps cs) as Hcs'.
    { intros x. eapply Forall2_impl; [|]. 2:{ intros p c Hpc. exact Hpc. } apply Forall2_same_length_lookup in Hcs as [_ Hlk].
      apply Forall2_same_length_lookup. split; [done|]. intros j p c Hp Hc. rewrite lookup_insert_ne; [by eapply Hlk|].
      intros <-. apply Hvv. apply Hps. by eapply elem_of_list_lookup_2. }
    destruct (decide (ps = [])) as [He|Hne].
    - cbn [res_bind] in Hrun. rewrite He in Hcs, Hlen, Hrun. destruct cs; [|done].
      rewrite mean_function_ok in Hrun; [|done|done|intros p Hp; by apply elem_of_nil in Hp]. cbn [res_bind] in Hrun.
      unfold vadd in Hrun. rewrite decide_True in Hrun by (by rewrite !fmap_length, seq_length, Hmc). cbn [res_bind] in Hrun. injection Hrun as <- <-.
      split; [|split; [by eexists|]; split; [done|]; split; [done|]; intros w Hw; cbn; by rewrite !lookup_insert_ne].
      exists [], [], base, 0, (sq (1 / variance (mc v))). split; [constructor|]. split; [by rewrite <-He|]. split; [done|]. split; [constructor|].
      split; [done|]. split; [by rewrite lookup_insert|]. split; [done|]. split; [done|]. split; [done|]. split.
      + eexists. cbn. split; [by rewrite lookup_insert|]. intros cs' n ps' Hp Hl. apply Permutation_nil_r in Hp as ->.
        rewrite mean_function_ok; [done|done|done|intros p Hp; by apply elem_of_nil in Hp].
      + eexists. cbn. split; [by rewrite lookup_insert|]. done.
    - destruct (cam_mean_function 1 (weights v) p2b cs nmc ps) as [vals|] eqn:Ev; [|done]. cbn [res_bind] in Hrun.
      pose proof Ev as (_ & Hw & Hdom)%mean_function_inv. rewrite mean_function_ok in Ev by done. injection Ev as <-.
      assert ((λ i, 1 * signal base (weights v) ps cs i) <$> seq 0 nmc = signal base (weights v) ps cs <$> seq 0 nmc) as Hone.
      { apply list_fmap_ext. intros i x _. ring. }
      fold base in Hrun. rewrite Hone, np_var_variance in Hrun.
      destruct (r2 !! (if by_node then v else length ps)) as [q|] eqn:Eq; [|done].
      destruct (decide (q < 0)) as [|Hq0]; [done|].
      match type of Hrun with context [decide (?P ∨ ?Q)] => destruct (decide (P ∨ Q)) as [|Hq1]; [done|] end. cbn [res_bind] in Hrun.
      rewrite mean_function_ok in Hrun by done. cbn [res_bind] in Hrun. fold base in Hrun.
      unfold vadd in Hrun. rewrite decide_True in Hrun by (by rewrite !fmap_length, seq_length, Hmc). cbn [res_bind] in Hrun. injection Hrun as <- <-.
      split; [|split; [by eexists|]; split; [done|]; split; [done|]; intros w Hw'; cbn; by rewrite !lookup_insert_ne].
      eexists ps, cs, base, _, _. split; [done|]. split; [done|]. split; [done|]. split; [apply Hcs'|]. split; [done|].
      split; [by rewrite lookup_insert|]. split; [done|]. split; [done|]. split.
      { intros _. exists q. split; [done|]. split; [by apply Qcnot_lt_le|]. split; [apply Qcnot_lt_le; tauto|]. split; [tauto|]. done. }
      split.
      + eexists. cbn. split; [by rewrite lookup_insert|]. intros cs' n ps' Hp Hl. apply mean_function_ok; [done| |].
        * by rewrite (Permutation_length Hp).
        * intros p. rewrite Hp. apply Hdom.
      + eexists. cbn. split; [by rewrite lookup_insert|]. done.
  Qed.
  Lemma made_keep C dict v C' dict' w x : made C dict v → w ≠ v → (w, v) ∉ d_arcs d → dict' = <[w := x]> dict →
    cm_mean C' !! v = cm_mean C !! v → cm_noise C' !! v = cm_noise C !! v → made C' dict' v.
  Proof using.
    intros (ps & cs & base & c & b & H1 & H2 & H3 & H4 & H5 & H6 & H7 & H8 & H9 & H10 & H11) Hne Hw -> Hm Hn.
    exists ps, cs, base, c, b. split; [done|]. split; [done|]. split; [done|]. split.
    { apply Forall2_same_length_lookup in H4 as [Hl Hlk]. apply Forall2_same_length_lookup. split; [done|]. intros j p y Hp Hy.
      rewrite lookup_insert_ne; [by eapply Hlk|]. intros <-. apply Hw, H2. by eapply elem_of_list_lookup_2. }
    split; [done|]. split; [by rewrite lookup_insert_ne|]. split; [done|]. split; [done|]. split; [done|]. rewrite Hm, Hn. done.
  Qed.
  Lemma loop_made t1 t2 C dict C' dict' : topo_order (d_nodes d) (d_arcs d) (t1 ++ t2) →
    (∀ v, v ∈ t1 → made C dict v) →
    loopR (additive_node o d bases weights mc noise r2 by_node sq nmc) t2 (C, dict) = Ok (C', dict') →
    (∀ v, v ∈ t1 ++ t2 → made C' dict' v) ∧ cm_dag C' = cm_dag C ∧ cm_list C' = cm_list C.
  Proof using Hva Hmc.
    revert t1 C dict. induction t2 as [|v t2 IH]; intros t1 C dict Ht H1 Hrun.
    { cbn in Hrun. injection Hrun as <- <-. rewrite app_nil_r. done. }
    cbn [loopR] in Hrun. destruct (additive_node o d bases weights mc noise r2 by_node sq nmc v (C, dict)) as [[C1 dict1]|] eqn:E1; [|done]. cbn [res_bind] in Hrun.
    pose proof Ht as (Hnd & Hin & Hord).
    assert ((t1 ++ v :: t2) !! length t1 = Some v) as Hv by (rewrite lookup_app_r by done; by rewrite Nat.sub_diag).
    apply step_made in E1 as (Hmade & (x & Hx) & Hd & Hl & Hk).
    2:{ intros Hvv. pose proof (Hord _ _ _ _ Hvv Hv Hv). lia. }
    rewrite (assoc_L app t1 [v] t2 : t1 ++ v :: t2 = (t1 ++ [v]) ++ t2) in Ht |- *.
    destruct (IH (t1 ++ [v]) C1 dict1 Ht) as (G1 & G2 & G3); [|done|].
    - intros w [Hw| ->%elem_of_list_singleton]%elem_of_app; [|done].
      assert (v ≠ w) as Hne. { intros <-. apply NoDup_app in Hnd as (_ & Hdis & _). apply (Hdis v Hw). by left. }
      eapply made_keep; [by apply H1|exact Hne| |exact Hx|by apply Hk|by apply Hk].
      intros Harc. apply elem_of_list_lookup in Hw as [i Hi]. pose proof (lookup_lt_Some _ _ _ Hi).
      pose proof (Hord (length t1) i v w Harc Hv) as Hlt. rewrite lookup_app_l in Hlt by done. specialize (Hlt Hi). lia.
    - split; [done|]. by rewrite G2, G3.
  Qed.

  Hypothesis Hw : ∀ v, v ∈ d_nodes d → length (weights v) = size (parents d v).
  Hypothesis Hb : ∀ v, v ∈ d_nodes d → length (bases v) = size (parents d v).
  Hypothesis Hr2 : ∀ p v, (p, v) ∈ d_arcs d → ∃ q, r2 !! (if by_node then v else size (parents d v)) = Some q ∧ 0 <= q ∧ q <= 1.
  Lemma step_total v C dict : v ∈ d_nodes d → (∀ p, (p, v) ∈ d_arcs d → is_Some (dict !! p)) →
    additive_node o d bases weights mc noise r2 by_node sq nmc v (C, dict) = Raise RuntimeError ∨
    ∃ C' x, additive_node o d bases weights mc noise r2 by_node sq nmc v (C, dict) = Ok (C', <[v := x]> dict).
  Proof using Hva Hmc Hw Hb Hr2.
    intros Hv Hdict. unfold additive_node. destruct (pars_spec v) as [Hnd Hps].
    assert (length (on o [189%nat; v] (parents d v)) = size (parents d v)) as Hsz by (apply Permutation_length; by rewrite on_perm).
    set (ps := on o [189%nat; v] (parents d v)) in *.
    set (p2b := list_to_map (zip ps (bases v)) : gmap node (Qc → Qc)) in *.
    assert (∃ cs, loopR (λ p acc, match dict !! p with Some c => Ok (acc ++ [c]) | None => Raise KeyError end) ps [] = Ok cs ∧ length cs = length ps) as (cs & -> & Hcs).
    { exists ((λ p, default [] (dict !! p)) <$> ps). split; [|by rewrite fmap_length]. apply gather_ok. exists ((λ p, default [] (dict !! p)) <$> ps). split; [done|].
      apply Forall2_same_length_lookup. split; [by rewrite fmap_length|]. intros j p c Hp Hc. rewrite list_lookup_fmap, Hp in Hc. injection Hc as <-.
      destruct (Hdict p) as [x ->]; [|done]. apply Hps. by eapply elem_of_list_lookup_2. }
    cbn [res_bind]. destruct (decide (np_var (mc v) = 0)) as [|_]; [by left|].
    assert (∀ p, p ∈ ps → p ∈ dom p2b) as Hdom.
    { intros p Hp. apply elem_of_list_lookup in Hp as [j Hj]. pose proof (lookup_lt_Some _ _ _ Hj) as Hlt.
      destruct (lookup_lt_is_Some_2 (bases v) j) as [g Hg]; [by rewrite (Hb v Hv), <-Hsz|]. apply elem_of_dom. exists g.
      apply elem_of_list_to_map_1; [|apply elem_of_list_lookup; exists j; by rewrite lookup_zip_with, Hj, Hg].
      rewrite fst_zip; [done|]. by rewrite Hsz, (Hb v Hv). }
    destruct (decide (ps = [])) as [He|Hne].
    - cbn [res_bind]. rewrite He in Hcs |- *. rewrite mean_function_ok; [|done|done|intros p Hp; by apply elem_of_nil in Hp]. cbn [res_bind].
      unfold vadd. rewrite decide_True by (by rewrite !fmap_length, seq_length, Hmc). cbn [res_bind]. right. by eexists _, _.
    - rewrite mean_function_ok; [|done|by rewrite (Hw v Hv)|done]. cbn [res_bind].
      assert (∃ p, p ∈ ps) as [p Hp]. { destruct ps as [|p]; [done|]. exists p. by left. }
      destruct (Hr2 p v) as (q & Hq & Hq0 & Hq1); [by apply Hps|]. rewrite Hsz, Hq.
      destruct (decide (q < 0)) as [Hlt|_]; [by apply Qclt_not_le in Hlt|].
      match goal with |- context [decide (?P ∨ ?Q)] => destruct (decide (P ∨ Q)) as [|_]; [by left|] end. cbn [res_bind].
      rewrite mean_function_ok; [|done|by rewrite (Hw v Hv)|done]. cbn [res_bind].
      unfold vadd. rewrite decide_True by (by rewrite !fmap_length, seq_length, Hmc). cbn [res_bind]. right. by eexists _, _.
  Qed.
  Lemma loop_total t1 t2 C dict : topo_order (d_nodes d) (d_arcs d) (t1 ++ t2) → (∀ v, v ∈ t1 → is_Some (dict !! v)) →
    loopR (additive_node o d bases weights mc noise r2 by_node sq nmc) t2 (C, dict) = Raise RuntimeError ∨
    ∃ r, loopR (additive_node o d bases weights mc noise r2 by_node sq nmc) t2 (C, dict) = Ok r.
  Proof using Hva Hmc Hw Hb Hr2.
    revert t1 C dict. induction t2 as [|v t2 IH]; intros t1 C dict Ht H1; [right; by eexists|]. pose proof Ht as (Hnd & Hin & Hord).
    assert ((t1 ++ v :: t2) !! length t1 = Some v) as Hv by (rewrite lookup_app_r by done; by rewrite Nat.sub_diag).
    cbn [loopR]. destruct (step_total v C dict) as [->|(C' & x & ->)]; [| |by left|].
    - apply Hin. by eapply elem_of_list_lookup_2.
    - intros p Hp. apply H1. assert (p ∈ t1 ++ v :: t2) as Hpt by (apply Hin; by apply Hva in Hp as [? _]).
      apply elem_of_list_lookup in Hpt as [i Hi]. pose proof (Hord i (length t1) p v Hp Hi Hv). rewrite lookup_app_l in Hi by done. by eapply elem_of_list_lookup_2.
    - cbn [res_bind]. apply (IH (t1 ++ [v])); [by rewrite <-app_assoc|]. intros w [Hw'| ->%elem_of_list_singleton]%elem_of_app.
      + destruct (decide (v = w)) as [->|]; [by rewrite lookup_insert|]. rewrite lookup_insert_ne by done. by apply H1.
      + by rewrite lookup_insert.
  Qed.
End additive.

(** ** Networks *)
Lemma matvec_length k a l : length (matvec k a l) = k.
Proof. unfold matvec. by rewrite fmap_length, seq_length. Qed.
Lemma layers_vec k nonlin layers x : length x = k →
  ∃ y, network k nonlin layers x y ∧ length y = k ∧
    loopR (λ a vals, res_bind (matmul k a vals) (λ y, Ok (nd_map nonlin y))) layers (Vec x) = Ok (Vec y).
Proof.
  revert x. induction layers as [|a layers IH]; intros x Hx; [by exists x|]. cbn [loopR matmul]. rewrite decide_True by done. cbn [res_bind nd_map].
  destruct (IH (nonlin <$> matvec k a x)) as (y & Hy & Hl & Hrun); [by rewrite fmap_length, matvec_length|]. exists y. split; [|done].
  exists (nonlin <$> matvec k a x). split; [|done]. split; [by rewrite fmap_length, matvec_length|]. intros i Hi. unfold matvec.
  rewrite !list_lookup_fmap, lookup_seq_lt by done. done.
Qed.
Lemma layers_mat k nonlin layers n cs : layers ≠ [] → n ≠ k →
  loopR (λ a vals, res_bind (matmul k a vals) (λ y, Ok (nd_map nonlin y))) layers (Mat n cs) = Raise ValueError.
Proof. destruct layers as [|a layers]; [done|]. intros _ Hn. cbn. by rewrite decide_False. Qed.
Lemma layers_mat_shape k nonlin layers n cs :
  loopR (λ a vals, res_bind (matmul k a vals) (λ y, Ok (nd_map nonlin y))) layers (Mat n cs) = Raise ValueError ∨
  ∃ cs', length cs' = length cs ∧ loopR (λ a vals, res_bind (matmul k a vals) (λ y, Ok (nd_map nonlin y))) layers (Mat n cs) = Ok (Mat n cs').
Proof.
  revert cs. induction layers as [|a layers IH]; intros cs; [right; by exists cs|]. cbn [loopR matmul].
  destruct (decide (n = k)) as [->|]; cbn [res_bind nd_map]; [|by left].
  destruct (IH ((λ c : list Qc, nonlin <$> c) <$> (matvec k a <$> cs))) as [->|(cs' & Hl & ->)]; [by left|]. right. exists cs'.
  by rewrite !fmap_length in Hl.
Qed.
Lemma cond_mat k layers nonlin noise n cs :
  nn_conditional k layers nonlin noise (Mat n cs) = Raise ValueError ∨
  ∃ cs', length cs' = length cs ∧ nn_conditional k layers nonlin noise (Mat n cs) = Ok (Mat n cs').
Proof.
  unfold nn_conditional. destruct (layers_mat_shape k nonlin layers n cs) as [->|(cs' & Hl & ->)]; [by left|]. right.
  exists ((λ c : list Qc, (λ q, q + noise) <$> c) <$> cs'). split; [by rewrite fmap_length|]. done.
Qed.
Lemma set_all (f : node → nd → res nd) ns S :
  s_dag (foldl (λ S v, set_conditional v (f v) S) S ns) = s_dag S ∧ s_list (foldl (λ S v, set_conditional v (f v) S) S ns) = s_list S ∧
  ∀ v, s_cond (foldl (λ S v, set_conditional v (f v) S) S ns) !! v = if decide (v ∈ ns) then Some (f v) else s_cond S !! v.
Proof.
  revert S. induction ns as [|w ns IH]; intros S.
  - split; [done|]. split; [done|]. intros v. rewrite decide_False; [done|]. apply not_elem_of_nil.
  - cbn [foldl]. destruct (IH (set_conditional w (f w) S)) as (H1 & H2 & H3). rewrite H1, H2. split; [done|]. split; [done|].
    intros v. rewrite H3. cbn. destruct (decide (v ∈ ns)) as [Hv|Hv].
    + rewrite decide_True; [done|by right].
    + destruct (decide (v = w)) as [->|Hne]; [rewrite lookup_insert, decide_True by left; done|].
      rewrite lookup_insert_ne by done. rewrite decide_False; [done|]. rewrite elem_of_cons. tauto.
Qed.
Lemma nn_made o d layers nonlin noise : views_agree d → acyclic (d_arcs d) → d_nodes d ≠ ∅ →
  ∃ S l, rand_nn_functions o d layers nonlin noise = Ok S ∧ scm_wf S ∧ d_nodes (s_dag S) = d_nodes d ∧ d_arcs (s_dag S) = d_arcs d ∧ l ∈ d_nodes d ∧
    ∀ v, v ∈ d_nodes d → s_cond S !! v = Some (nn_conditional (size (parents d l)) (layers l) nonlin (noise v)).
Proof.
  intros Hva Hac Hne. unfold rand_nn_functions. set (ns := on o [188%nat] (d_nodes d)).
  assert (∀ v, v ∈ ns ↔ v ∈ d_nodes d) as Hns by (intros v; apply elem_of_on).
  destruct (C106_constructor o ns (d_arcs d)) as (S & -> & Hwf & Hl & Ha & Hc & _); [apply NoDup_on|done| |].
  { intros a b Hab. rewrite !Hns. by apply Hva in Hab. }
  cbn [res_bind]. destruct (last ns) as [l|] eqn:El.
  2:{ exfalso. apply Hne. apply last_None in El. apply set_eq. intros v. rewrite <-Hns, El. split; [by intros ?%elem_of_nil|set_solver]. }
  cbn [default from_option id].
  destruct (set_all (λ v, nn_conditional (size (parents d l)) (layers l) nonlin (noise v)) ns S) as (H1 & H2 & H3).
  set (S' := foldl _ S ns) in *. assert (∀ v, v ∈ d_nodes (s_dag S) ↔ v ∈ d_nodes d) as Hnodes.
  { intros v. destruct Hwf as (_ & _ & _ & HL). by rewrite <-HL, Hl, Hns. }
  exists S', l. split; [done|]. split; [by unfold scm_wf; rewrite H1, H2|]. rewrite H1. split; [by apply set_eq|]. split; [done|].
  split. { apply Hns. rewrite last_lookup in El. by eapply elem_of_list_lookup_2. }
  intros v Hv. rewrite H3. by rewrite decide_True by (by apply Hns).
Qed.
