(** C140: what [CamDAG.direct_effect] does. *)
From Coq Require Import QArith.Qcanon.
From Verif Require Import Py Spec DagModel QMatModel GaussModel ScmModel CamModel CamEffectModel SpecScm SpecCam.
From Verif Require Import TopoProofs StateProofs QMatProofs GaussProofs ScmProofs PropertiesDag PropertiesScm PropertiesCam.
#[local] Open Scope nat_scope.

Section effect.
  Context (o : oracle) (C : cam) (Hwf : cam_wf C) (rows : nat) (K : list node).
  Lemma effect_step i v m : v ∈ d_nodes (cm_dag C) → effect_node o C rows K (i, v) m =
    if decide (v ∈ K) then Ok m else if decide (i < length m) then Ok (<[i := replicate rows None]> m) else Raise IndexError.
  Proof using Hwf.
    intros Hv. destruct Hwf as (Hva & _ & Hnd & HL). unfold effect_node. cbn [fst snd]. destruct (decide (v ∈ K)); [done|].
    rewrite ixs_in_ok; [done|done|]. intros p [_ Hp]%elem_of_list_filter. apply HL. rewrite elem_of_on in Hp.
    rewrite <-wf_views_agree in Hva. apply (wf_par _ Hva) in Hp. by destruct (wf_over _ Hva p v Hp).
  Qed.
  Lemma effect_ok l : ∀ k m, (∀ v, v ∈ l → v ∈ d_nodes (cm_dag C)) → (∀ i v, l !! i = Some v → v ∉ K → k + i < length m) →
    ∃ m', loopR (effect_node o C rows K) (zip (seq k (length l)) l) m = Ok m' ∧ length m' = length m ∧
      (∀ j, m !! j = Some (replicate rows None) → m' !! j = Some (replicate rows None)) ∧
      ∀ i v, l !! i = Some v → v ∉ K → m' !! (k + i) = Some (replicate rows None).
  Proof using Hwf.
    induction l as [|v l IH]; intros k m Hl Hi; [by exists m|]. cbn [length seq zip zip_with loopR]. rewrite effect_step by (apply Hl; by left).
    assert (∀ w, w ∈ l → w ∈ d_nodes (cm_dag C)) as Hl' by (intros w Hw; apply Hl; by right).
    assert (∀ m0 : list (list (option Qc)), length m0 = length m → ∀ i w, l !! i = Some w → w ∉ K → S k + i < length m0) as Hi'.
    { intros m0 -> i w Hw HK. specialize (Hi (S i) w Hw HK). lia. }
    destruct (decide (v ∈ K)) as [Hv|Hv].
    - cbn [res_bind]. destruct (IH (S k) m Hl' (Hi' m eq_refl)) as (m' & H1 & H2 & H3 & H4). exists m'. split_and!; [done..|].
      intros [|i] w Hw HK; [cbn in Hw; injection Hw as <-; done|]. replace (k + S i) with (S k + i) by lia. by apply (H4 i w).
    - pose proof (Hi 0 v eq_refl Hv) as Hk. rewrite decide_True by lia. cbn [res_bind].
      destruct (IH (S k) (<[k := replicate rows None]> m) Hl') as (m' & H1 & H2 & H3 & H4); [apply Hi'; apply insert_length|].
      rewrite insert_length in H2. exists m'. split_and!; [done..| |].
      + intros j Hj. apply H3. destruct (decide (j = k)) as [->|Hne]; [apply list_lookup_insert; lia|by rewrite list_lookup_insert_ne].
      + intros [|i] w Hw HK.
        * rewrite Nat.add_0_r. apply H3, list_lookup_insert. lia.
        * replace (k + S i) with (S k + i) by lia. by apply (H4 i w).
  Qed.
  Lemma effect_err l : ∀ k m, (∀ v, v ∈ l → v ∈ d_nodes (cm_dag C)) → (∃ i v, l !! i = Some v ∧ v ∉ K ∧ length m ≤ k + i) →
    loopR (effect_node o C rows K) (zip (seq k (length l)) l) m = Raise IndexError.
  Proof using Hwf.
    induction l as [|v l IH]; intros k m Hl (i & w & Hi & HK & Hlen); [done|]. cbn [length seq zip zip_with loopR].
    rewrite effect_step by (apply Hl; by left). assert (∀ w, w ∈ l → w ∈ d_nodes (cm_dag C)) as Hl' by (intros u Hu; apply Hl; by right).
    destruct i as [|i].
    - cbn in Hi. injection Hi as ->. rewrite decide_False by done. rewrite decide_False by lia. done.
    - destruct (decide (v ∈ K)); [|destruct (decide (k < length m)); [|done]]; cbn [res_bind]; apply IH; try done; exists i, w;
        (split; [done|split; [done|rewrite ?insert_length; lia]]).
  Qed.
End effect.

(** If the conditioned nodes are the last ones of the node list, the result is [nan] everywhere, whatever the model and the
    values are; for other conditioned nodes the method raises. *)
Theorem C140_direct_effect o C rows K : cam_wf C → NoDup K → (∀ v, v ∈ K → v ∈ d_nodes (cm_dag C)) →
  let r := length (cm_list C) - length K in
  ((∀ v, v ∈ K ↔ v ∈ drop r (cm_list C)) → direct_effect o C rows K = Ok (replicate r (replicate rows None))) ∧
  (¬ (∀ v, v ∈ K ↔ v ∈ drop r (cm_list C)) → direct_effect o C rows K = Raise IndexError).
Proof.
  intros Hwf HK HKN. cbn zeta. pose proof Hwf as (_ & _ & Hnd & HL).
  assert (size (d_nodes (cm_dag C)) = length (cm_list C)) as Hsz.
  { rewrite <-(size_list_to_set (C := nset) (cm_list C)) by done. f_equal. apply set_eq. intros v. by rewrite elem_of_list_to_set, HL. }
  assert (length K ≤ length (cm_list C)) as Hle.
  { apply submseteq_length, NoDup_submseteq; [done|]. intros v Hv. by apply HL, HKN. }
  unfold direct_effect. rewrite Hsz, decide_True by done. set (r := length (cm_list C) - length K).
  assert (∀ v, v ∈ cm_list C → v ∈ d_nodes (cm_dag C)) as Hin by (intros v; apply HL).
  split.
  - intros Heq. destruct (effect_ok o C Hwf rows K (cm_list C) 0 (replicate r (replicate rows (Some 0%Qc))) Hin) as (m' & -> & Hlen & _ & Hm).
    { intros i v Hi Hv. rewrite replicate_length. destruct (decide (i < r)) as [|Hge]; [done|]. exfalso. apply Hv, Heq, elem_of_list_lookup.
      exists (i - r). rewrite lookup_drop. by replace (r + (i - r)) with i by lia. }
    f_equal. rewrite replicate_length in Hlen. apply list_eq_same_length with r; [by rewrite replicate_length|done|]. intros j x y Hj Hx Hy.
    apply lookup_replicate in Hy as [-> _]. destruct (lookup_lt_is_Some_2 (cm_list C) j) as [v Hv]; [lia|].
    assert (v ∉ K) as HvK.
    { intros [i Hi]%Heq%elem_of_list_lookup. rewrite lookup_drop in Hi. pose proof (NoDup_lookup _ _ _ _ Hnd Hv Hi). lia. }
    specialize (Hm j v Hv HvK). cbn in Hm. rewrite Hx in Hm. by injection Hm.
  - intros Hne. apply effect_err; [done|done|]. rewrite replicate_length.
    destruct (decide (Forall (λ v, v ∈ K) (drop r (cm_list C)))) as [Hall|Hall].
    + exfalso. apply Hne. rewrite Forall_forall in Hall.
      assert (drop r (cm_list C) ≡ₚ K) as Hp.
      { apply submseteq_Permutation_length_le; [rewrite drop_length; lia|]. apply NoDup_submseteq; [|done].
        rewrite <-(take_drop r (cm_list C)) in Hnd. by apply NoDup_app in Hnd as (_ & _ & ?). }
      intros v. by rewrite Hp.
    + apply not_Forall_Exists in Hall; [|intros v; apply _]. apply Exists_exists in Hall as (v & [i Hi]%elem_of_list_lookup & Hv).
      rewrite lookup_drop in Hi. exists (r + i), v. split; [done|]. split; [done|]. lia.
Qed.
(** In particular no number is ever returned in a cell. *)
Theorem C140_never_a_number o C rows K m : cam_wf C → NoDup K → (∀ v, v ∈ K → v ∈ d_nodes (cm_dag C)) →
  direct_effect o C rows K = Ok m → ∀ c x, c ∈ m → x ∈ c → x = None.
Proof.
  intros Hwf HK HKN Hm c x Hc Hx. destruct (C140_direct_effect o C rows K Hwf HK HKN) as [H1 H2]. set (r := length (cm_list C) - length K) in *.
  destruct (decide (Forall (λ v, v ∈ K) (drop r (cm_list C)) ∧ Forall (λ v, v ∈ drop r (cm_list C)) K)) as [[Ha Hb]|Hn].
  - rewrite Forall_forall in Ha, Hb. rewrite H1 in Hm by (intros v; split; auto). injection Hm as <-.
    apply elem_of_replicate in Hc as [-> _]. by apply elem_of_replicate in Hx as [-> _].
  - rewrite H2 in Hm; [done|]. intros H. apply Hn. rewrite !Forall_forall. split; intros v Hv; by apply H.
Qed.
(** The node list of [lin_cam] is 1, 0: given 0 the cells are [nan], given 1 the method raises. *)
Example C140_example : cam_wf lin_cam ∧
  direct_effect oracle0 lin_cam 2 [0] = Ok [[None; None]] ∧ direct_effect oracle0 lin_cam 2 [1] = Raise IndexError.
Proof. split; [apply pair_cam_wf|]. split; by_vm. Qed.

Print Assumptions C140_direct_effect.
Print Assumptions C140_never_a_number.
