(** Final theorems about [get_conditional_importance_sampling]: C120. *)
From Coq Require Import QArith.Qcanon Field.
From Verif Require Import Py Spec DagModel QMatModel DiscreteModel DiscreteSampleModel ImportanceModel SpecDiscrete SpecImportance TopoProofs StateProofs ReachProofs QueryProofs CoreProofs MarkovProofs QMatProofs SemProofs PropertiesDag DiscreteProofs DiscreteElim PropertiesDiscrete DiscreteNew PropertiesDiscrete2 SampleProofs PropertiesDiscrete3 SpecEif EifProofs PropertiesEif ImportanceProofs.
#[local] Open Scope Qc_scope.

(** A network in which the nodes of [cond] and [marg] are their own places, with alphabets 0, 1, ... for the nodes of
    [marg] and for the nodes without parents that are drawn. *)
Definition sampled (D : ddag) (marg cond : list node) : Prop :=
  ddag_wf D ∧ stochastic D ∧ nonneg D ∧ NoDup (dd_list D) ∧ (∀ v, v ∈ dd_list D ↔ v ∈ d_nodes (dd_dag D)) ∧ NoDup cond ∧
  (∀ v, v ∈ cond ∨ v ∈ marg → dd_list D !! v = Some v) ∧ (∀ v, v ∈ marg → plain D v) ∧
  ∀ v, v ∈ d_nodes (dd_dag D) → v ∉ cond → (∀ p, (p, v) ∉ d_arcs (dd_dag D)) → plain D v.
(** Numbers of [0, 1) for the nodes. *)
Definition unit_numbers (D : ddag) (u : nat → nat → node → Qc) : Prop := ∀ k i v, v ∈ d_nodes (dd_dag D) → 0 <= u k i v ∧ u k i v < 1.

(** The numbers determine the values of all nodes. *)
Theorem C120_outcome (D : ddag) (marg cond : list node) (c : list nat) (u : node → Qc) :
  sampled D marg cond → Forall2 lt c (card D <$> cond) → (∀ v, v ∈ d_nodes (dd_dag D) → 0 <= u v ∧ u v < 1) →
  ∃ a, outcome D cond c u a ∧ ∀ b, outcome D cond c u b → ∀ v, v ∈ d_nodes (dd_dag D) → b !!! v = a !!! v.
Proof.
  intros (Hwf & Hst & Hnn & Hnd & Hl & Hcond & Hpos & Hm & Hpl) Hc Hu.
  destruct (row_ok D Hwf Hst Hnn Hnd Hl cond Hcond (λ v H, Hpos v (or_introl H)) Hpl oracle0 u c Hc) as (a & w & Ha & _); [auto|].
  exists a. split; [done|]. intros b Hb. by apply (outcome_unique D Hwf Hnn Hl cond (λ v H, Hpos v (or_introl H)) c u).
Qed.

Definition row_assignment (D : ddag) (r : row) : assignment := list_to_map (zip (dd_list D) (Z.to_nat <$> r)).
Lemma row_assignment_ok D (a : assignment) v : NoDup (dd_list D) → v ∈ dd_list D →
  row_assignment D ((λ v, Z.of_nat (a !!! v)) <$> dd_list D) !!! v = a !!! v.
Proof.
  intros Hnd [i Hi]%elem_of_list_lookup. unfold row_assignment, lookup_total, map_lookup_total.
  rewrite (elem_of_list_to_map_1 _ v (a !!! v)); [done| |].
  - rewrite fst_zip; [done|]. by rewrite !fmap_length.
  - apply elem_of_list_lookup. exists i. apply lookup_zip_with_Some. exists v, (a !!! v). split_and!; [done..|].
    rewrite !list_lookup_fmap, Hi. cbn. f_equal. apply Nat2Z.id.
Qed.

(** For each value of the given nodes the table has the shares of the weight, and the number is the share of the weight of this value
    among the listed ones.  The weight of a particle is the product of the conditional probabilities of the given nodes; without
    any weight there is no table. *)
Theorem C120_estimate (o : oracle) (D : ddag) (u : nat → nat → node → Qc) (marg cond : list node) (cs : list (list nat)) (np : nat) :
  sampled D marg cond → cs ≠ [] → Forall (λ c, Forall2 lt c (card D <$> cond)) cs → unit_numbers D u →
  ∃ (a : nat → nat → assignment) r, (∀ k c i, cs !! k = Some c → outcome D cond c (u k i) (a k i)) ∧
    importance_sampling o D u marg cond ((λ c : list nat, Z.of_nat <$> c) <$> cs) np = Ok r ∧ length r = length cs ∧
    let W k := qsum np (λ i, weight_of D cond (a k i)) in
    ∀ k c, cs !! k = Some c → ∃ t m, r !! k = Some (Z.of_nat <$> c, (t, m)) ∧
      m = (if decide (qsum (length cs) W = 0) then None else Some (W k / qsum (length cs) W)) ∧
      (W k = 0 → t = None) ∧
      (W k ≠ 0 → ∃ T, t = Some T ∧ t_shape T = card D <$> marg ∧
        ∀ ks, Forall2 lt ks (card D <$> marg) → t_at T ks = qsum np (λ i, weight_of D cond (a k i) * indicates marg ks (a k i)) / W k).
Proof.
  intros (Hwf & Hst & Hnn & Hnd & Hl & Hcond & Hpos & Hm & Hpl) Hne Hcs Hu.
  pose proof (λ v H, Hpos v (or_introl H)) as Hpc. pose proof (λ v H, Hpos v (or_intror H)) as Hpm.
  assert (∀ v, v ∈ marg → v ∈ dd_list D) as Hml by (intros v Hv; eapply elem_of_list_lookup_2; by apply Hpm).
  set (a := λ k i, match cs !! k with
    | Some c => match weighted_samples o D (u k i) (zip cond (Z.of_nat <$> c)) with Ok rw => row_assignment D rw.1 | Raise _ => ∅ end
    | None => ∅ end).
  assert (∀ k c i, cs !! k = Some c → outcome D cond c (u k i) (a k i) ∧
    ∃ w, weighted_samples o D (u k i) (zip cond (Z.of_nat <$> c)) = Ok ((λ v, Z.of_nat (a k i !!! v)) <$> dd_list D, w) ∧
      row_weight cond w = weight_of D cond (a k i)) as Hrow.
  { intros k c i Hk. rewrite Forall_lookup in Hcs. pose proof (Hcs k c Hk) as Hc.
    destruct (row_ok D Hwf Hst Hnn Hnd Hl cond Hcond Hpc Hpl o (u k i) c Hc) as (b & w & Hb & E & Hw); [intros; by apply Hu|].
    assert (∀ v, v ∈ dd_list D → a k i !!! v = b !!! v) as Hab. { intros v Hv. unfold a. rewrite Hk, E. by apply row_assignment_ok. }
    split.
    - apply (outcome_agree D Hwf Hl cond Hpc c (u k i) b); [|done]. intros v Hv. symmetry. by apply Hab, Hl.
    - exists w. split.
      + rewrite E. f_equal. f_equal. apply fmap_ext_in. intros v Hv. by rewrite Hab.
      + rewrite Hw. change (plist D cond b = plist D cond (a k i)). apply (plist_agree D Hwf).
        * intros v Hv. by apply (cond_N D Hl cond Hpc).
        * intros v Hv. symmetry. by apply Hab, Hl, (cond_N D Hl cond Hpc).
        * intros p v Hp _. symmetry. apply Hab, Hl. by apply (D_over D Hwf p v Hp). }
  set (rows := λ k, (λ i, ((λ v, Z.of_nat (a k i !!! v)) <$> dd_list D, weight_of D cond (a k i))) <$> seq 0 np : list (row * Qc)).
  set (W := λ k, qsum np (λ i, weight_of D cond (a k i))).
  assert (∀ k, qfold (snd <$> rows k) = W k) as HW.
  { intros k. unfold rows. rewrite qfold_lsum, !lsum_fmap. cbn. apply lsum_seq. }
  assert (∀ k c, cs !! k = Some c → ∃ t, weight_table marg ((λ n, (λ k, qz (Z.of_nat k)) <$> seq 0 n) <$> (card D <$> marg)) (rows k) = Ok t ∧
    t_shape t = card D <$> marg ∧ (∀ ks, Forall2 lt ks (card D <$> marg) → t_at t ks = qsum np (λ i, weight_of D cond (a k i) * indicates marg ks (a k i))) ∧
    t_total t = W k) as Htab.
  { intros k c Hk. destruct (weight_table_ok marg (card D <$> marg) (rows k) (λ r, (λ v, Z.to_nat (default 0%Z (r.1 !! v))) <$> marg)) as (t & E & H1 & H2 & H3).
    - by rewrite fmap_length.
    - intros r Hr. unfold rows in Hr. apply elem_of_list_fmap in Hr as (i & -> & _). cbn [fst].
      assert (∀ v, v ∈ marg → default 0%Z (((λ v, Z.of_nat (a k i !!! v)) <$> dd_list D) !! v) = Z.of_nat (a k i !!! v)) as Hv.
      { intros v Hv. by rewrite list_lookup_fmap, Hpm. }
      split.
      + apply Forall2_fmap. apply Forall_Forall2_diag. apply Forall_forall. intros v Hvm. rewrite Hv, Nat2Z.id by done.
        destruct (Hrow k c i Hk) as [(Hr & _) _]. apply Hr, elem_of_elements, Hl. by apply Hml.
      + rewrite <-list_fmap_compose. apply fmap_ext_in. intros v Hvm. cbn. by rewrite Hv, Nat2Z.id.
    - exists t. split; [exact E|]. split; [done|]. split; [|by rewrite H3, <-HW, qfold_lsum, lsum_fmap].
      intros ks Hks. rewrite H2 by done. unfold rows. rewrite lsum_fmap. rewrite lsum_seq. apply qsum_ext. intros i _. cbn [fst snd]. unfold indicates.
      assert ((λ v, Z.to_nat (default 0%Z (((λ v, Z.of_nat (a k i !!! v)) <$> dd_list D) !! v))) <$> marg = vals (a k i) marg) as ->.
      { apply fmap_ext_in. intros v Hv. rewrite list_lookup_fmap, Hpm by done. cbn. apply Nat2Z.id. }
      case_decide; ring. }
  set (cvals := (λ c : list nat, Z.of_nat <$> c) <$> cs).
  set (alphs := (λ n, (λ k, qz (Z.of_nat k)) <$> seq 0 n) <$> (card D <$> marg)) in *.
  assert (length cvals = length cs) as Hlen by (unfold cvals; by rewrite fmap_length).
  set (g := λ cr : list Z * list (row * Qc), (cr.1, match weight_table marg alphs cr.2 with
    | Ok t => (t_over (t_total t) t, q_over (qsum (length cs) W) (qfold (snd <$> cr.2))) | Raise _ => (None, None) end)).
  exists a, (g <$> zip cvals (rows <$> seq 0 (length cs))). split; [intros k c i Hk; by apply (Hrow k c i Hk)|]. split_and!.
  - unfold importance_sampling. rewrite decide_True; cycle 1.
    { split; [unfold cvals; intros H%fmap_nil_inv; done|]. apply Forall_fmap, Forall_forall. intros c Hc. cbn. rewrite fmap_length.
      rewrite Forall_forall in Hcs. specialize (Hcs c Hc). apply Forall2_length in Hcs. by rewrite fmap_length in Hcs. }
    rewrite (rmap_ok _ (λ kc : nat * list Z, rows kc.1)); cycle 1.
    { intros [k c'] H. apply elem_of_list_lookup in H as [j H]. apply lookup_zip_with_Some in H as (k' & c'' & [= <- <-] & Hk & Hc').
      apply lookup_seq in Hk as [-> _]. cbn [Nat.add fst snd]. unfold cvals in Hc'. rewrite list_lookup_fmap in Hc'. destruct (cs !! j) as [c|] eqn:Ec; [|done]. injection Hc' as <-.
      unfold rows. apply rmap_ok. intros i _. destruct (Hrow j c i Ec) as (_ & w & E & Hw). rewrite E. cbn [res_bind fst snd]. by rewrite Hw. }
    cbn [res_bind]. assert ((λ kc : nat * list Z, rows kc.1) <$> zip (seq 0 (length cvals)) cvals = rows <$> seq 0 (length cs)) as ->.
    { rewrite <-Hlen. rewrite <-(fst_zip (seq 0 (length cvals)) cvals) at 2 by (by rewrite seq_length). by rewrite <-list_fmap_compose. }
    rewrite (rmap_ok _ (λ v, (λ k, qz (Z.of_nat k)) <$> seq 0 (card D v))); cycle 1.
    { intros v Hv. specialize (Hm v Hv). unfold plain in Hm. by rewrite Hm at 1. }
    cbn [res_bind]. replace ((λ v, (λ k, qz (Z.of_nat k)) <$> seq 0 (card D v)) <$> marg) with alphs by (unfold alphs; by rewrite <-list_fmap_compose).
    rewrite decide_True; cycle 1.
    { apply Forall_forall. intros v Hv. assert (list_to_set (dd_list D) = d_nodes (dd_dag D)) as <- by (apply set_eq; intros w; by rewrite elem_of_list_to_set).
      rewrite size_list_to_set by done. eapply lookup_lt_Some. by apply Hpm. }
    cbn zeta. assert (qfold ((λ r : list (row * Qc), qfold (snd <$> r)) <$> (rows <$> seq 0 (length cs))) = qsum (length cs) W) as ->.
    { rewrite qfold_lsum, !lsum_fmap, <-lsum_seq. apply lsum_of_ext. intros k _. unfold id. apply HW. }
    rewrite (rmap_ok _ g); [done|]. intros [c' rs] H. apply elem_of_list_lookup in H as [j H]. apply lookup_zip_with_Some in H as (c'' & rs' & [= <- <-] & Hc & Hrs).
    apply list_lookup_fmap_Some in Hrs as (k & Hk & ->). apply lookup_seq in Hk as [-> Hj]. cbn [Nat.add fst snd] in *.
    destruct (lookup_lt_is_Some_2 cs j Hj) as [c0 Hc0]. destruct (Htab j c0 Hc0) as (t & E & _). unfold g. cbn [fst snd]. rewrite E. done.
  - rewrite fmap_length, zip_with_length, Hlen, fmap_length, seq_length. lia.
  - cbn zeta. fold W. intros k c Hk. destruct (Htab k c Hk) as (t & E & Hsh & Hat & Htot).
    exists (t_over (t_total t) t), (q_over (qsum (length cs) W) (W k)). split_and!.
    + assert (zip cvals (rows <$> seq 0 (length cs)) !! k = Some (Z.of_nat <$> c, rows k)) as Hz.
      { apply lookup_zip_with_Some. exists (Z.of_nat <$> c), (rows k). split_and!; [done| |].
        - apply list_lookup_fmap_Some. by exists c.
        - apply list_lookup_fmap_Some. exists k. split; [|done]. apply lookup_seq. split; [done|by eapply lookup_lt_Some]. }
      rewrite list_lookup_fmap, Hz. cbn [fmap option_fmap option_map]. unfold g. cbn [fst snd]. rewrite E, HW. done.
    + unfold q_over. done.
    + intros H0. rewrite Htot. unfold t_over. by rewrite decide_True.
    + intros H0. rewrite Htot. unfold t_over. rewrite decide_False by done. eexists. split; [done|]. cbn. split; [done|]. intros ks Hks. by rewrite Hat.
Qed.

(** If the random numbers are spread exactly as their distribution says, the table is the exact conditional distribution and the
    number is the probability of the value among the listed ones. *)
Theorem C120_exact (o : oracle) (D : ddag) (u : nat → nat → node → Qc) (marg cond : list node) (cs : list (list nat)) (np : nat) :
  sampled D marg cond → cs ≠ [] → Forall (λ c, Forall2 lt c (card D <$> cond)) cs → unit_numbers D u → (0 < np)%nat →
  (∀ k c b, cs !! k = Some c → in_range D (elements (d_nodes (dd_dag D))) b → vals b cond = c → exact_share D cond (u k) np b) →
  ∃ r, importance_sampling o D u marg cond ((λ c : list nat, Z.of_nat <$> c) <$> cs) np = Ok r ∧
    ∀ k c x, cs !! k = Some c → vals x cond = c → marginal D (list_to_set cond) x ≠ 0 →
    ∃ T m, r !! k = Some (Z.of_nat <$> c, (Some T, Some m)) ∧ t_shape T = card D <$> marg ∧
      (∀ ks, Forall2 lt ks (card D <$> marg) → t_at T ks = cexp D (list_to_set cond) (indicates marg ks) x) ∧
      m * lsum_of (λ c' : list nat, marginal D (list_to_set cond) (list_to_map (zip cond c'))) cs = marginal D (list_to_set cond) x.
Proof.
  intros Hs Hne Hcs Hu Hnp Hsh. destruct (C120_estimate o D u marg cond cs np Hs Hne Hcs Hu) as (a & r & Ha & Er & Hlen & Hr).
  destruct Hs as (Hwf & Hst & Hnn & Hnd & Hl & Hcond & Hpos & Hm & Hpl). pose proof (λ v H, Hpos v (or_introl H)) as Hpc.
  exists r. split; [done|]. cbn zeta in Hr. set (W := λ k, qsum np (λ i, weight_of D cond (a k i))) in *. set (M := marginal D (list_to_set cond)) in *.
  assert (∀ v, v ∈ marg → v ∈ d_nodes (dd_dag D)) as HmN. { intros v Hv. apply Hl. eapply elem_of_list_lookup_2. apply Hpos. by right. }
  assert (∀ ks, depends (d_nodes (dd_dag D)) (indicates marg ks)) as Hind.
  { intros ks b b' Hb. unfold indicates, vals. rewrite (fmap_ext_in (λ v, b !!! v) (λ v, b' !!! v)); [done|]. intros v Hv. by apply Hb, HmN. }
  assert (∀ k c x h, cs !! k = Some c → vals x cond = c → depends (d_nodes (dd_dag D)) h →
    qsum np (λ i, weight_of D cond (a k i) * h (a k i)) = qz (Z.of_nat np) * sum_over D (elements (d_nodes (dd_dag D) ∖ list_to_set cond)) (λ b, joint D b * h b) x) as Hsum.
  { intros k c x h Hk Hx Hh. apply (share_sum D Hwf Hst Hnn Hnd Hl cond Hcond Hpc Hpl (u k) np (a k) c x h Hh).
    - intros i _. by apply Ha.
    - done.
    - rewrite Forall_lookup in Hcs. specialize (Hcs k c Hk). rewrite <-Hx in Hcs. intros v [i Hi]%elem_of_list_lookup.
      eapply Forall2_lookup_lr; [exact Hcs| |]; unfold vals; by rewrite list_lookup_fmap, Hi.
    - intros b Hb1 Hb2. by apply (Hsh k c b). }
  assert (∀ k c x, cs !! k = Some c → vals x cond = c → W k = qz (Z.of_nat np) * M x) as HWk.
  { intros k c x Hk Hx. unfold W. transitivity (qsum np (λ i, weight_of D cond (a k i) * (λ _, 1) (a k i))); [apply qsum_ext; intros; ring|].
    rewrite (Hsum k c x (λ _, 1) Hk Hx) by done. f_equal. unfold M, marginal. apply sum_over_ext. intros b _. ring. }
  assert (qz (Z.of_nat np) ≠ 0) as Hnp0. { intros H. change 0 with (qz (Z.of_nat 0)) in H. apply qn_inj in H. lia. }
  assert (∀ c, c ∈ cs → vals (list_to_map (zip cond c)) cond = c) as Hvals.
  { intros c Hc. rewrite Forall_forall in Hcs. specialize (Hcs c Hc). apply Forall2_length in Hcs. rewrite fmap_length in Hcs.
    unfold vals. apply list_eq. intros i. rewrite list_lookup_fmap. destruct (cond !! i) as [v|] eqn:Ev; cbn.
    - destruct (lookup_lt_is_Some_2 c i) as [k Hk]; [rewrite Hcs; by eapply lookup_lt_Some|]. rewrite Hk. f_equal.
      unfold lookup_total, map_lookup_total. rewrite (elem_of_list_to_map_1 _ v k); [done|rewrite fst_zip; [done|lia]|].
      apply elem_of_list_lookup. exists i. apply lookup_zip_with_Some. eauto.
    - apply lookup_ge_None in Ev. symmetry. apply lookup_ge_None. lia. }
  set (tot := lsum_of (λ c' : list nat, M (list_to_map (zip cond c'))) cs).
  assert (qsum (length cs) W = qz (Z.of_nat np) * tot) as Htot.
  { unfold tot. assert (lsum_of (λ c' : list nat, M (list_to_map (zip cond c'))) cs = lsum_of (λ k, M (list_to_map (zip cond (default [] (cs !! k))))) (seq 0 (length cs))) as ->.
    - clear. set (f := λ c' : list nat, M (list_to_map (zip cond c'))). change (lsum_of f cs = lsum_of (λ k, f (default [] (cs !! k))) (seq 0 (length cs))).
      generalize f. clear. intros f. induction cs as [|c l IH]; [done|]. cbn [length seq]. unfold lsum_of. cbn [foldr lookup list_lookup default from_option id].
      f_equal. fold (lsum_of f l). rewrite IH. rewrite <-fmap_S_seq. change (foldr (λ x acc, f (default [] ((c :: l) !! x)) + acc) 0 (S <$> seq 0 (length l))) with (lsum_of (λ k, f (default [] ((c :: l) !! k))) (S <$> seq 0 (length l))).
      by rewrite lsum_fmap.
    - rewrite lsum_seq, <-qsum_mul_l. apply qsum_ext. intros k Hk. destruct (lookup_lt_is_Some_2 cs k Hk) as [c Hc]. rewrite Hc. cbn.
      apply (HWk k c); [done|]. apply Hvals. by eapply elem_of_list_lookup_2. }
  intros k c x Hk Hx Hx0. destruct (Hr k c Hk) as (t & m & E & Em & _ & Ht).
  assert (W k ≠ 0) as HW0. { rewrite (HWk k c x Hk Hx). intros [H|H]%Qcmult_integral; done. }
  destruct (Ht HW0) as (T & -> & Hshape & Hat).
  assert (qsum (length cs) W ≠ 0) as Hq0.
  { assert (∀ j, (j < length cs)%nat → 0 <= W j) as Hge.
    { intros j Hj. destruct (lookup_lt_is_Some_2 cs j Hj) as [c' Hc']. unfold W. apply qsum_nonneg. intros i _. destruct (Ha j c' i Hc') as (Hr1 & _).
      assert (∀ v, v ∈ cond → 0 <= prob D (a j i) v) as Hp.
      { intros v Hv. pose proof (cond_N D Hl cond Hpc v Hv) as HvN. pose proof Hwf as (_ & _ & Hw). destruct (Hw v HvN) as (al & ps & cc & _ & Ep & _ & _ & Hps & _).
        apply (Hnn v ps); [done|done|]. intros w [Hw'| ->%elem_of_list_singleton]%elem_of_app; apply Hr1, elem_of_elements; [|done].
        apply Hps in Hw'. by apply (D_over D Hwf w v Hw'). }
      revert Hp. clear. unfold weight_of. intros Hp. induction cond as [|v l IH]; cbn; [done|]. apply mul_nonneg; [apply Hp; by left|]. apply IH. intros w Hw. apply Hp. by right. }
    assert (k < length cs)%nat as Hkl by (by eapply lookup_lt_Some).
    assert (0 < qsum (length cs) W) as Hpos'.
    { apply (qsum_pos _ _ k); [done|done|]. specialize (Hge k Hkl). apply Qcle_lt_or_eq in Hge as [?|?]; [done|congruence]. }
    intros H0. rewrite H0 in Hpos'. by apply Qclt_not_eq in Hpos'. }
  rewrite decide_False in Em by done. subst m. exists T, (W k / qsum (length cs) W). split_and!; [done|done| |].
  - intros ks Hks. rewrite Hat by done. rewrite (Hsum k c x (indicates marg ks) Hk Hx (Hind ks)), (HWk k c x Hk Hx). unfold cexp. fold M. field. done.
  - fold M. fold tot. rewrite Htot, (HWk k c x Hk Hx). rewrite Htot in Hq0. assert (tot ≠ 0) by (intros H0; apply Hq0; rewrite H0; ring). field. done.
Qed.

(** ** Examples and refutations *)
(** The network [0 -> 1] with two values each; the table of 1 is given in tenths. *)
Definition two_ddag (tab : list Z) (al1 : list Qc) : ddag := DDag (dag_of {[0; 1]}%nat {[(0, 1)]}%nat) [0; 1]%nat
  (list_to_map [(0%nat, ex_tab [5; 5]%Z [2]%nat); (1%nat, ex_tab tab [2; 2]%nat)])
  (list_to_map [(0, []); (1, [0])]%nat) (list_to_map [(0%nat, [qz 0; qz 1]); (1%nat, al1)]).
(** Two particles, one for each half of [0, 1). *)
Definition halves (k i : nat) (v : node) : Qc := q10 (5 * Z.of_nat (i mod 2)).
Lemma two_nodes tab al1 v : v ∈ d_nodes (dd_dag (two_ddag tab al1)) ↔ v = 0%nat ∨ v = 1%nat.
Proof. assert (d_nodes (dd_dag (two_ddag tab al1)) = {[0; 1]}%nat) as -> by by_vm. by rewrite elem_of_union, !elem_of_singleton. Qed.
Lemma two_arc tab al1 : (0, 1)%nat ∈ d_arcs (dd_dag (two_ddag tab al1)).
Proof. assert (d_arcs (dd_dag (two_ddag tab al1)) = {[(0, 1)]}%nat) as -> by by_vm. by apply elem_of_singleton. Qed.
Lemma two_sampled tab al1 marg cond :
  check_rows (two_ddag tab al1) = true → check_small (two_ddag tab al1) = true → NoDup cond → (∀ v, v ∈ cond ∨ v ∈ marg → v = 0%nat ∨ v = 1%nat) →
  (∀ v, v ∈ marg → plain (two_ddag tab al1) v) → sampled (two_ddag tab al1) marg cond.
Proof.
  intros H1 H2 Hc Hin Hpl. destruct (check_rows_sound (two_ddag tab al1)) as [Hwf Hst]; [apply dag_of_wf|by_vm|done|].
  split; [done|]. split; [done|]. split; [apply tiny_nonneg; by apply check_small_sound|].
  split; [by apply (bool_decide_unpack _)|].
  split; [intros v; rewrite two_nodes; change (dd_list (two_ddag tab al1)) with [0; 1]%nat; by rewrite elem_of_cons, elem_of_list_singleton|]. split; [done|]. split.
  { intros v Hv. by destruct (Hin v Hv) as [->| ->]. }
  split; [done|]. intros v [->| ->]%two_nodes Hn Hr; [by vm_compute|]. destruct (Hr 0%nat). apply two_arc.
Qed.
Lemma two_share tab al1 k b : in_range (two_ddag tab al1) (elements (d_nodes (dd_dag (two_ddag tab al1)))) b →
  exact_share (two_ddag tab al1) [1]%nat (halves k) 2 b.
Proof.
  intros Hb. unfold exact_share. assert (drawn (two_ddag tab al1) [1]%nat = [0]%nat) as -> by by_vm.
  assert (b !!! 0%nat < 2)%nat as H0. { apply (Hb 0%nat). apply elem_of_elements, two_nodes. by left. }
  assert (∀ c : assignment, (c !!! 0%nat < 2)%nat → prob (two_ddag tab al1) c 0%nat = q10 5) as Hp.
  { intros c Hc. change (prob (two_ddag tab al1) c 0%nat) with (t_at (ex_tab [5; 5]%Z [2]%nat) [c !!! 0%nat]). destruct (c !!! 0%nat) as [|[|]]; [done..|lia]. }
  assert (∀ u : node → Qc, Forall (λ v, selects (two_ddag tab al1) (u v) b v) [0]%nat ↔ q10 (5 * Z.of_nat (b !!! 0%nat)) <= u 0%nat ∧ u 0%nat < q10 (5 * Z.of_nat (b !!! 0%nat)) + q10 5) as Hsel.
  { intros u. rewrite Forall_singleton. unfold selects, cdf_before. rewrite Hp by done.
    assert (qsum (b !!! 0%nat) (λ k, prob (two_ddag tab al1) (<[0%nat := k]> b) 0%nat) = q10 (5 * Z.of_nat (b !!! 0%nat))) as ->; [|done].
    transitivity (qsum (b !!! 0%nat) (λ _, q10 5)); [apply qsum_ext; intros j Hj; apply Hp; rewrite ins_same; lia|].
    destruct (b !!! 0%nat) as [|[|]]; [by apply (bool_decide_unpack _)..|lia]. }
  transitivity (qsum 2 (λ i, if decide (q10 (5 * Z.of_nat (b !!! 0%nat)) <= halves k i 0%nat ∧ halves k i 0%nat < q10 (5 * Z.of_nat (b !!! 0%nat)) + q10 5) then 1 else 0)).
  { apply qsum_ext. intros i _. apply decide_ext, Hsel. }
  unfold weight_of. cbn [foldr]. rewrite Hp by done. destruct (b !!! 0%nat) as [|[|]]; [by apply (bool_decide_unpack _)..|lia].
Qed.

(** Exact numbers give the exact conditional distribution: 0 given 1. *)
Definition noisy : ddag := two_ddag [1; 9; 9; 1]%Z [qz 0; qz 1].
Example C120_example : sampled noisy [0]%nat [1]%nat ∧ Forall (λ c, Forall2 lt c (card noisy <$> [1]%nat)) [[0]; [1]]%nat ∧ unit_numbers noisy halves ∧
  (∀ k c b, [[0]; [1]]%nat !! k = Some c → in_range noisy (elements (d_nodes (dd_dag noisy))) b → vals b [1]%nat = c → exact_share noisy [1]%nat (halves k) 2 b) ∧
  marginal noisy (list_to_set [1]%nat) {[1%nat := 1%nat]} ≠ 0 ∧
  match importance_sampling oracle0 noisy halves [0]%nat [1]%nat [[0%Z]; [1%Z]] 2 with
  | Ok [_; (_, (Some t, Some m))] => bool_decide (t_at t [0]%nat = q10 9 ∧ t_at t [1]%nat = q10 1 ∧ m = q10 5)
  | _ => false end = true.
Proof.
  split_and!.
  - apply two_sampled; [by_vm|by_vm|by apply (bool_decide_unpack _)| |].
    + intros v [->%elem_of_list_singleton| ->%elem_of_list_singleton]; auto.
    + intros v ->%elem_of_list_singleton. by vm_compute.
  - by apply (bool_decide_unpack _).
  - intros k i v _. unfold halves. assert (i mod 2 = 0 ∨ i mod 2 = 1)%nat as [->| ->] by (pose proof (Nat.mod_upper_bound i 2); lia); by apply (bool_decide_unpack _).
  - intros k c b _ Hb _. by apply two_share.
  - apply (bool_decide_eq_true_1 _). vm_compute. reflexivity.
  - by_vm.
Qed.

(** The number is not the probability of the value: when a single value is listed, it is 1. *)
Theorem C120_number_refuted :
  ∃ (o : oracle) D u marg cond c np t m, sampled D marg cond ∧ unit_numbers D u ∧
    (∀ k b, in_range D (elements (d_nodes (dd_dag D))) b → exact_share D cond (u k) np b) ∧
    importance_sampling o D u marg cond [Z.of_nat <$> c] np = Ok [(Z.of_nat <$> c, (Some t, Some m))] ∧
    m = 1 ∧ marginal D (list_to_set cond) (list_to_map (zip cond c)) = q10 5.
Proof.
  destruct C120_example as (Hs & _ & Hu & _).
  assert (match importance_sampling oracle0 noisy halves [0]%nat [1]%nat [[1%Z]] 2 with Ok [(c, (Some t, Some m))] => bool_decide (c = [1%Z] ∧ m = 1) | _ => false end = true) as H by by_vm.
  destruct (importance_sampling oracle0 noisy halves [0]%nat [1]%nat [[1%Z]] 2) as [[|[c [[t|] [m|]]] [|]]|] eqn:E; try discriminate H.
  apply bool_decide_eq_true in H as [-> Hm].
  exists oracle0, noisy, halves, [0]%nat, [1]%nat, [1]%nat, 2%nat, t, m. split_and!; [exact Hs|exact Hu| |exact E|exact Hm|by_vm].
  intros k b Hb. by apply two_share.
Qed.
(** A value of positive probability gets no table when no particle fits it. *)
Theorem C120_no_table_refuted :
  ∃ (o : oracle) D u marg cond c np m, sampled D marg cond ∧ unit_numbers D u ∧ (0 < np)%nat ∧
    importance_sampling o D u marg cond [Z.of_nat <$> c] np = Ok [(Z.of_nat <$> c, (None, m))] ∧
    marginal D (list_to_set cond) (list_to_map (zip cond c)) = q10 5.
Proof.
  set (D := two_ddag [10; 0; 0; 10]%Z [qz 0; qz 1]). exists oracle0, D, (λ _ _ _, 0), [0]%nat, [1]%nat, [1]%nat, 1%nat, None. split_and!.
  - apply two_sampled; [by_vm|by_vm|by apply (bool_decide_unpack _)| |].
    + intros v [->%elem_of_list_singleton| ->%elem_of_list_singleton]; auto.
    + intros v ->%elem_of_list_singleton. by vm_compute.
  - intros k i v _. by apply (bool_decide_unpack _).
  - lia.
  - vm_compute. reflexivity.
  - by_vm.
Qed.
(** The values are used as indices: an alphabet 1, 2 raises. *)
Theorem C120_alphabet_refuted :
  ∃ (o : oracle) D u, ddag_wf D ∧ stochastic D ∧ unit_numbers D u ∧ dd_alph D !! 1%nat = Some [qz 1; qz 2] ∧
    importance_sampling o D u [1]%nat [0]%nat [[0%Z]] 1 = Raise IndexError.
Proof.
  set (D := two_ddag [1; 9; 9; 1]%Z [qz 1; qz 2]). exists oracle0, D, (λ _ _ _, 0).
  destruct (check_rows_sound D) as [Hwf Hst]; [apply dag_of_wf|by_vm|by_vm|]. split_and!; [done|done| |done|].
  - intros k i v _. by apply (bool_decide_unpack _).
  - vm_compute. reflexivity.
Qed.

Print Assumptions C120_outcome.
Print Assumptions C120_estimate.
Print Assumptions C120_exact.
Print Assumptions C120_number_refuted.
Print Assumptions C120_no_table_refuted.
Print Assumptions C120_alphabet_refuted.
