(** Sampling from causal additive models. *)
From Coq Require Import QArith.Qcanon.
From Verif Require Import Py Spec DagModel QMatModel GaussModel ScmModel CamModel PropertiesDag SpecScm SpecCam TopoProofs StateProofs ReachProofs QueryProofs CoreProofs DiscreteModel DiscreteProofs QMatProofs GaussProofs ScmProofs.
#[local] Open Scope Qc_scope.

Lemma fills_vec n l c : fills n (Vec l) c ↔ bcast n l = Ok c.
Proof. rewrite <-fill_fills. done. Qed.
Lemma zip_replicate n (a b : Qc) : zip_with Qcplus (replicate n a) (replicate n b) = replicate n (a + b).
Proof. induction n as [|n IH]; cbn; [done|]. by rewrite IH. Qed.
Lemma zip_replicate_l (a : Qc) l : zip_with Qcplus (replicate (length l) a) l = Qcplus a <$> l.
Proof. induction l as [|x l IH]; cbn; [done|]. by rewrite IH. Qed.
Lemma zip_replicate_r (a : Qc) l : zip_with Qcplus l (replicate (length l) a) = (λ x, x + a) <$> l.
Proof. induction l as [|x l IH]; cbn; [done|]. by rewrite IH. Qed.
Lemma bcast_self l : bcast (length l) l = Ok l.
Proof. unfold bcast. by rewrite decide_True. Qed.
Lemma bcast_one n q : bcast n [q] = Ok (replicate n q).
Proof. unfold bcast. destruct (decide (length [q] = n)) as [<-|]; done. Qed.
Lemma bcast_none n l : length l ≠ n → length l ≠ 1%nat → bcast n l = Raise ValueError.
Proof. intros H1 H2. unfold bcast. rewrite decide_False by done. destruct l as [|? [|]]; done. Qed.
Lemma vadd_noisy n x y c : res_bind (vadd x y) (λ s, bcast n s) = Ok c ↔ noisy n x y c.
Proof.
  unfold noisy. setoid_rewrite fills_vec. unfold vadd.
  destruct (decide (length x = length y)) as [Hl|Hl].
  - cbn. destruct (decide (length x = n)) as [<-|Hx].
    + assert (bcast (length x) (zip_with Qcplus x y) = Ok (zip_with Qcplus x y)) as -> by (unfold bcast; rewrite decide_True; [done|rewrite zip_with_length; lia]).
      rewrite bcast_self. rewrite Hl, bcast_self. split; [intros [= <-]; by exists x, y|]. by intros (mm & nn & [= <-] & [= <-] & ->).
    + destruct (decide (length x = 1%nat)) as [Hx1|Hx1].
      * destruct x as [|a [|]]; try done. destruct y as [|b [|]]; try done. cbn. rewrite !bcast_one.
        split; [intros [= <-]; eexists _, _; by rewrite zip_replicate|]. intros (mm & nn & [= <-] & [= <-] & ->). by rewrite zip_replicate.
      * rewrite (bcast_none n x) by done. rewrite bcast_none by (rewrite zip_with_length; lia). split; [done|]. by intros (? & ? & ? & _).
  - destruct (decide (length x = 1%nat)) as [Hx|Hx].
    + destruct x as [|a [|]]; try done. cbn. rewrite bcast_one. destruct (decide (length y = n)) as [<-|Hy].
      * replace (length y) with (length (Qcplus a <$> y)) at 1 by (by rewrite fmap_length). rewrite !bcast_self.
        split; [intros [= <-]; eexists _, _; by rewrite zip_replicate_l|]. intros (mm & nn & [= <-] & [= <-] & ->). by rewrite zip_replicate_l.
      * rewrite (bcast_none n y) by (done || by intros ->). rewrite bcast_none by (rewrite fmap_length; done || by intros ->). split; [done|]. by intros (? & ? & _ & ? & _).
    + destruct (decide (length y = 1%nat)) as [Hy|Hy].
      * destruct y as [|b [|]]; try done.
        assert (match x with [q] => Ok (Qcplus q <$> [b]) | _ => Ok ((λ a, a + b) <$> x) end = Ok ((λ a, a + b) <$> x)) as -> by (destruct x as [|? [|]]; done).
        cbn [res_bind]. rewrite bcast_one. destruct (decide (length x = n)) as [<-|Hxn].
        -- replace (length x) with (length ((λ a, a + b) <$> x)) at 1 by (by rewrite fmap_length). rewrite !bcast_self.
           split; [intros [= <-]; eexists _, _; by rewrite zip_replicate_r|]. intros (mm & nn & [= <-] & [= <-] & ->). by rewrite zip_replicate_r.
        -- rewrite (bcast_none n x) by done. rewrite bcast_none by (by rewrite fmap_length). split; [done|]. by intros (? & ? & ? & _).
      * assert (bcast n x = Raise ValueError ∨ bcast n y = Raise ValueError) as Hor.
        { destruct (decide (length x = n)) as [<-|Hxn]; [right; apply bcast_none; congruence|left; by apply bcast_none]. }
        split; [destruct x as [|? [|]], y as [|? [|]]; done|]. intros (mm & nn & H1 & H2 & _). destruct Hor; congruence.
Qed.

Section cam.
  Context (C : cam) (Hwf : cam_wf C) (o : oracle) (n : nat).
  Notation L := (cm_list C).
  Notation N := (d_nodes (cm_dag C)).
  Notation z := (replicate n 0).
  Definition cord (v : node) : list node := on o [187%nat; v] (parents (cm_dag C) v).
  Definition cmeans (v : node) (cs : columns) : res (list Qc) :=
    if decide (cord v = []) then Ok z else match cm_mean C !! v with None => Raise KeyError | Some f => f cs n (cord v) end.
  Definition cnoise (v : node) (means : list Qc) : res (list Qc) :=
    match cm_noise C !! v with None => Raise KeyError | Some e => res_bind (e n) (λ noise, res_bind (vadd means noise) (bcast n)) end.
  Definition ceqn (v : node) (cs : columns) : res (list Qc) := res_bind (cmeans v cs) (cnoise v).
  Lemma cord_spec v p : p ∈ cord v ↔ (p, v) ∈ d_arcs (cm_dag C).
  Proof using Hwf. unfold cord. rewrite elem_of_on. apply Hwf. Qed.
  Lemma cord_in v p : p ∈ cord v → p ∈ L.
  Proof using Hwf. intros Hp%cord_spec. apply Hwf. by apply Hwf in Hp as [? _]. Qed.
  Lemma cord_orders : orders (cm_dag C) cord.
  Proof using Hwf. intros v Hv. split; [apply NoDup_on|]. apply cord_spec. Qed.
  Lemma csize_list : size N = length L.
  Proof using Hwf.
    destruct Hwf as (_ & _ & Hnd & HL). rewrite <-(size_list_to_set (C:=nset) L Hnd). f_equal. apply set_eq. intros v. by rewrite elem_of_list_to_set.
  Qed.
  Lemma put_vec v x m : v ∈ N → length m = length L →
    put_col n (pos L v) (Vec x) m = res_bind (bcast n x) (λ c, Ok (<[pos L v := c]> m)).
  Proof using Hwf. intros Hv Hm. unfold put_col. rewrite decide_True; [done|]. apply (cpos_lt L N); [apply Hwf|done|done]. Qed.
  Lemma cam_node_eq v m : v ∈ N → length m = length L →
    cam_node o C n v m = res_bind (ceqn v (colof L m <$> cord v)) (λ c, Ok (<[pos L v := c]> m)).
  Proof using Hwf.
    intros Hv Hm. pose proof Hwf as (_ & _ & Hnd & HL). unfold cam_node, ceqn. cbn zeta. fold (cord v).
    match goal with |- res_bind ?a _ = _ => assert (a = cmeans v (colof L m <$> cord v)) as -> end.
    { unfold cmeans. destruct (decide (cord v = [])); [done|].
      rewrite ixs_in_ok by (done || intros; by eapply cord_in). cbn [res_bind]. destruct (cm_mean C !! v) as [f|]; [|done].
      rewrite cols_at_ok by (done || intros; by eapply cord_in). done. }
    destruct (cmeans v _) as [means|e]; [|done]. cbn [res_bind]. unfold cnoise. destruct (cm_noise C !! v) as [e|]; [|done].
    destruct (e n) as [noise|]; [|done]. cbn [res_bind]. destruct (vadd means noise) as [x|]; [|done]. cbn [res_bind].
    rewrite ix_map_pos by (done || by apply HL). by apply put_vec.
  Qed.
  Lemma cam_sample_run m : cam_sample o C n = Ok m ↔ length m = length L ∧ ∀ v, v ∈ N → ceqn v (colof L m <$> cord v) = Ok (colof L m v).
  Proof using Hwf.
    pose proof Hwf as (Hva & Hac & Hnd & HL). unfold cam_sample.
    destruct (proj1 (C05_topological_sort (cm_dag C) o Hva) Hac) as (t & -> & Ht). cbn. unfold zero_cols. rewrite csize_list.
    eapply (run_iff L N) with (z := λ _, z); [done|done| | |exact Ht|by rewrite replicate_length|].
    - intros v p Hv Hp%cord_spec. split; [done|]. by apply Hva in Hp as [? _].
    - intros v m' Hv Hm' _. by apply cam_node_eq.
    - intros v Hv. by apply (colof_zero L N).
  Qed.
  Lemma ceqn_spec v cs c : ceqn v cs = Ok c ↔
    ∃ means e noise, (cord v = [] → means = z) ∧ (cord v ≠ [] → ∃ f, cm_mean C !! v = Some f ∧ f cs n (cord v) = Ok means) ∧
      cm_noise C !! v = Some e ∧ e n = Ok noise ∧ noisy n means noise c.
  Proof using.
    clear Hwf. unfold ceqn, cnoise.
    assert (∀ means, cmeans v cs = Ok means ↔ (cord v = [] → means = z) ∧ (cord v ≠ [] → ∃ f, cm_mean C !! v = Some f ∧ f cs n (cord v) = Ok means)) as Hm.
    { intros means. unfold cmeans. destruct (decide (cord v = [])) as [H|H].
      - split; [intros [= <-]; by split|]. intros [-> _]; done.
      - destruct (cm_mean C !! v) as [f|]; split.
        + intros Hf. split; [done|]. by exists f.
        + intros [_ H']. by destruct (H' H) as (? & [= <-] & ?).
        + done.
        + intros [_ H']. by destruct (H' H) as (? & ? & ?). }
    split.
    - destruct (cmeans v cs) as [means|] eqn:Em; [|done]. cbn. destruct (cm_noise C !! v) as [e|]; [|done]. destruct (e n) as [noise|] eqn:En; [|done]. cbn.
      intros Hc. exists means, e, noise. destruct (proj1 (Hm means) eq_refl) as [H1 H2]. split; [done|]. split; [done|]. split; [done|]. split; [done|]. by apply vadd_noisy.
    - intros (means & e & noise & H1 & H2 & He & Hn & Hc). rewrite (proj2 (Hm means)) by done. cbn. rewrite He, Hn. cbn. by apply vadd_noisy.
  Qed.
  Lemma cam_sample_iff m : cam_sample o C n = Ok m ↔ cam_solves C cord n m.
  Proof using Hwf.
    pose proof Hwf as (_ & _ & Hnd & HL). rewrite cam_sample_run. unfold cam_solves. split; intros [Hm H]; (split; [done|]); intros v Hv.
    - specialize (H v Hv). apply ceqn_spec in H as (means & e & noise & H1 & H2 & H3 & H4 & H5). exists (colof L m <$> cord v), means, e, noise, (colof L m v).
      split; [|split; [done|split; [done|split; [done|split; [done|split; [done|]]]]]].
      + apply columns_iff; [done|done|intros; by eapply cord_in|done].
      + apply column_iff; [done|done|by apply HL|done].
    - destruct (H v Hv) as (cs & means & e & noise & c & Hcs & H1 & H2 & H3 & H4 & H5 & Hc).
      apply columns_iff in Hcs as ->; [|done|done|intros; by eapply cord_in]. apply column_iff in Hc as ->; [|done|done|by apply HL].
      apply ceqn_spec. by exists means, e, noise.
  Qed.

  Context (K : list node) (vals : columns).
  Definition meqn (z : node → list Qc) (v : node) (cs : columns) : res (list Qc) :=
    if decide (v ∈ K) then Ok (z v) else match cm_mean C !! v with None => Raise KeyError | Some f => res_bind (f cs n (cord v)) (bcast n) end.
  Lemma mean_node_eq v m : v ∈ N → length m = length L → v ∉ K →
    ∀ z0, mean_node o C n v m = res_bind (meqn z0 v (colof L m <$> cord v)) (λ c, Ok (<[pos L v := c]> m)).
  Proof using Hwf.
    intros Hv Hm HK z0. pose proof Hwf as (_ & _ & Hnd & HL). unfold mean_node, meqn. cbn zeta. fold (cord v). rewrite decide_False by done.
    rewrite ixs_in_ok by (done || intros; by eapply cord_in). cbn [res_bind]. destruct (cm_mean C !! v) as [f|]; [|done].
    rewrite cols_at_ok by (done || intros; by eapply cord_in). cbn [res_bind]. destruct (f _ n (cord v)) as [x|]; [|done]. cbn [res_bind].
    rewrite ix_map_pos by (done || by apply HL). by apply put_vec.
  Qed.
  Lemma loop_filter {A S} (P : A → Prop) `{∀ x, Decision (P x)} (f : A → S → res S) (l : list A) s :
    loopR f (filter P l) s = loopR (λ x s, if decide (P x) then f x s else Ok s) l s.
  Proof using.
    clear. revert s. induction l as [|x l IH]; intros s; [done|]. rewrite filter_cons. cbn. destruct (decide (P x)); cbn; [|done].
    destruct (f x s); [apply IH|done].
  Qed.
  (** The columns after the given values have been stored. *)
  Lemma store_ok : NoDup K → (∀ v, v ∈ K → v ∈ N) → length K = length vals →
    ∀ m0, length m0 = length L →
    (∀ m, loopR (λ (p : nat * list Qc) m, put_col n p.1 (Vec p.2) m) (zip (pos L <$> K) vals) m0 = Ok m →
      length m = length L ∧ (∀ i v x, K !! i = Some v → vals !! i = Some x → bcast n x = Ok (colof L m v)) ∧
      (∀ v, v ∈ N → v ∉ K → colof L m v = colof L m0 v)) ∧
    ((∀ x, x ∈ vals → ∃ c, bcast n x = Ok c) → ∃ m, loopR (λ (p : nat * list Qc) m, put_col n p.1 (Vec p.2) m) (zip (pos L <$> K) vals) m0 = Ok m).
  Proof using Hwf.
    pose proof Hwf as (_ & _ & Hnd & HL).
    revert vals. induction K as [|v K' IH]; intros vs HK HKN Hlen m0 Hm0; destruct vs as [|x vs]; try done.
    - cbn. split; [intros m [= <-]|by eexists]. split; [done|]. split; [done|done].
    - apply NoDup_cons in HK as [HvK HK]. cbn in Hlen. injection Hlen as Hlen. assert (v ∈ N) as Hv by (apply HKN; by left).
      assert (∀ w, w ∈ K' → w ∈ N) as HKN' by (intros w Hw; apply HKN; by right). cbn. rewrite put_vec by done.
      destruct (bcast n x) as [c|e] eqn:Ec; cbn.
      2: { split; [done|]. intros H. destruct (H x) as [? Hx]; [by left|]. rewrite Ec in Hx. done. }
      assert (length (<[pos L v := c]> m0) = length L) as Hm1 by (by rewrite insert_length).
      destruct (IH vs HK HKN' Hlen _ Hm1) as [IH1 IH2]. split.
      + intros m Hm. destruct (IH1 m Hm) as (H1 & H2 & H3). split; [done|]. split.
        * intros [|i] w y Hi Hy; cbn in Hi, Hy.
          -- injection Hi as <-. injection Hy as <-. rewrite (H3 v) by done. rewrite Ec. f_equal. symmetry. by apply (colof_ins_eq L N).
          -- by eapply H2.
        * intros w Hw HwK. apply not_elem_of_cons in HwK as [Hne HwK]. rewrite H3 by done. by apply (colof_ins_ne L N).
      + intros H. apply IH2. intros y Hy. apply H. by right.
  Qed.
  Lemma conditional_mean_iff m : NoDup K → (∀ v, v ∈ K → v ∈ N) → length K = length vals →
    conditional_mean o C n vals K false = Ok m ↔ mean_solves C cord n K vals m.
  Proof using Hwf.
    intros HK HKN Hlen. pose proof Hwf as (Hva & Hac & Hnd & HL). unfold conditional_mean. rewrite decide_True by done. cbn [res_bind].
    destruct (proj1 (C05_topological_sort (cm_dag C) o Hva) Hac) as (t & -> & Ht). cbn [res_bind].
    rewrite ixs_in_ok by (done || intros v Hv; by apply HL, HKN). cbn [res_bind]. unfold zero_cols. rewrite csize_list.
    assert (length (replicate (length L) z) = length L) as Hz by apply replicate_length.
    destruct (store_ok HK HKN Hlen _ Hz) as [Hst Htot].
    assert (∀ m, mean_solves C cord n K vals m → ∀ x, x ∈ vals → ∃ c, bcast n x = Ok c) as Hfill.
    { intros m' (_ & Hk & _) x Hx. apply elem_of_list_lookup in Hx as [i Hi]. destruct (K !! i) as [v|] eqn:Ev.
      - destruct (Hk i v x Ev Hi) as (c & Hc & _). apply fills_vec in Hc. by exists c.
      - apply lookup_ge_None in Ev. apply lookup_lt_Some in Hi. lia. }
    destruct (loopR _ (zip (pos L <$> K) vals) _) as [m1|e] eqn:Em1; cbn [res_bind].
    2: { split; [done|]. intros Hsol. destruct (Htot (Hfill m Hsol)) as [? ?]. done. }
    destruct (Hst m1 eq_refl) as (Hl1 & Hk1 & _). rewrite loop_filter.
    rewrite (run_iff L N (d_arcs (cm_dag C)) Hnd HL (colof L m1) cord) with (F := meqn (colof L m1)); [|..|exact Ht|done|done].
    - unfold mean_solves. split; intros [Hm H]; (split; [done|]).
      + assert (∀ v, v ∈ K → colof L m v = colof L m1 v) as HKm.
        { intros v Hv. specialize (H v (HKN v Hv)). unfold meqn in H. rewrite decide_True in H by done. by injection H as ->. }
        split.
        * intros i v x Hi Hx. exists (colof L m1 v). assert (v ∈ K) as Hv by (by eapply elem_of_list_lookup_2). split; [apply fills_vec; by eapply Hk1|].
          apply column_iff; [done|done|by apply HL, HKN|]. by rewrite HKm.
        * intros v Hv HvK. specialize (H v Hv). unfold meqn in H. rewrite decide_False in H by done. destruct (cm_mean C !! v) as [f|] eqn:Ef; [|done].
          destruct (f _ n (cord v)) as [x|] eqn:Ex; [|done]. cbn in H. exists (colof L m <$> cord v), f, x, (colof L m v).
          split; [apply columns_iff; [done|done|intros; by eapply cord_in|done]|]. split; [done|]. split; [done|]. split; [by apply fills_vec|].
          apply column_iff; [done|done|by apply HL|done].
      + destruct H as [H1 H2]. intros v Hv. unfold meqn. destruct (decide (v ∈ K)) as [HvK|HvK].
        * apply elem_of_list_lookup in HvK as [i Hi]. destruct (lookup_lt_is_Some_2 vals i) as [x Hx]; [rewrite <-Hlen; by eapply lookup_lt_Some|].
          destruct (H1 i v x Hi Hx) as (c & Hc & Hcol). apply fills_vec in Hc. apply column_iff in Hcol as ->; [|done|done|by apply HL].
          rewrite (Hk1 i v x Hi Hx) in Hc. by injection Hc as ->.
        * destruct (H2 v Hv HvK) as (cs & f & x & c & Hcs & Hf & Hx & Hc & Hcol). rewrite Hf.
          apply columns_iff in Hcs as ->; [|done|done|intros; by eapply cord_in]. apply column_iff in Hcol as ->; [|done|done|by apply HL].
          rewrite Hx. cbn. by apply fills_vec.
    - intros v p Hv Hp%cord_spec. split; [done|]. by apply Hva in Hp as [? _].
    - intros v m' Hv Hm' Hzv. destruct (decide (v ∉ K)) as [HvK|HvK].
      + by apply mean_node_eq.
      + assert (v ∈ K) as HvK' by (destruct (decide (v ∈ K)); [done|contradiction]). unfold meqn. rewrite decide_True by done. cbn. by rewrite list_insert_id.
  Qed.
End cam.
