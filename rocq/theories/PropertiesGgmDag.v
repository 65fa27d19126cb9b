(** Final theorems about [GGM.to_gauss_dag]: C121. *)
From Coq Require Import QArith.Qcanon Field.
From Verif Require Import Py Spec SpecDsep SpecLin SpecGgmDag DagModel UGraphModel InterveneModel QMatModel GaussModel GaussLinModel GgmDagModel
  TopoProofs StateProofs ReachProofs CoreProofs MarkovProofs ImapProofs ConvProofs QMatProofs LinProofs SemProofs InvProofs PartialProofs SchurProofs PrecProofs
  PropertiesDag GaussProofs GaussLoops PropertiesGauss PropertiesLin GgmDagProofs GgmDagRun.
#[local] Open Scope Qc_scope.

(** [g] has the variables 0..n-1 and the covariance matrix [S]. *)
Definition ggm_for (inv : nat → mat → mat) (n : nat) (S : mat) (g : ggm) : Prop :=
  gg_dim g = n ∧ ggm_covariance inv g = S ∧ ∀ x, x ∈ u_nodes (gg_graph g) ↔ (x < n)%nat.

(** The constructors make such objects. *)
Theorem C121_constructors (o : oracle) (flip : arc → bool) (inv : nat → mat → mat) (n : nat) (M : mat) :
  inverts inv → posdef n M →
  (∃ S, posdef n S ∧ is_inverse n M S ∧ ggm_for inv n S (ggm_make o flip n M)) ∧
  ggm_for inv n M (ggm_from_covariance o flip inv n M).
Proof.
  intros Hinv Hpd. split.
  - destruct (C93_edges o flip inv n M Hinv Hpd) as (HI & HC & HN & _). eexists. split; [exact HC|]. split; [exact HI|]. split; [done|]. split; [done|]. done.
  - destruct (C93_from_covariance o flip inv n M Hinv Hpd) as (HC & HP & _ & HG). split; [done|]. split; [done|]. rewrite HG. by apply (C93_edges o flip inv n _ Hinv HP).
Qed.

(** The graph: [x] before [y] in [perm] are joined if and only if they are correlated given the other
    variables before [y], and it is a minimal independence map. *)
Theorem C121_graph (o : oracle) (inv : nat → mat → mat) (n : nat) (S : mat) (g : ggm) (perm : list node) :
  inverts inv → posdef n S → no_small_correlation n S → ggm_for inv n S g → perm ≡ₚ seq 0 n →
  ∃ d, ggm_imap o inv g perm = Ok d ∧ views_agree d ∧ (∀ x, x ∈ d_nodes d ↔ (x < n)%nat) ∧
    (∀ x y, (x, y) ∈ d_arcs d → before perm x y) ∧
    (∀ x y (W : nset), before perm x y → (∀ z, z ∈ W ↔ before perm z y ∧ z ≠ x) → (x, y) ∈ d_arcs d ↔ ¬ uncorrelated n S W x y) ∧
    minimal_for n S (d_arcs d).
Proof.
  intros Hinv Hpd Hsm (Hd & HS & HN) Hp. destruct (imap_ok n S Hpd perm Hp o inv Hinv g Hd HS HN Hsm) as (d & Hl & Hwf & HN' & HA).
  exists d. split; [done|]. split; [by apply wf_views_agree|]. split; [done|]. rewrite HA. split; [|split].
  - intros x y He. apply (ee_rk n S Hpd) in He as (Hx & Hy & Hr). by apply (rk_before n perm Hp).
  - intros x y W Hxy HW. assert ((x < n)%nat ∧ (y < n)%nat) as [Hx Hy].
    { destruct Hxy as (i & j & Hi & Hj & _). apply (rk_lookup n perm Hp) in Hi, Hj. tauto. }
    pose proof Hxy as Hr. apply (rk_before n perm Hp) in Hr; [|done|done].
    rewrite (ee_unc n S Hpd perm x y Hx Hy Hr). replace W with (prevs n perm y ∖ {[x]}); [done|].
    apply set_eq. intros z. rewrite elem_of_difference, elem_prevs, elem_of_singleton, HW. split.
    + intros [[Hz ?] ?]. split; [|done]. by apply (rk_before n perm Hp).
    + intros [Hb ?]. split; [|done]. assert (z < n)%nat as Hz. { destruct Hb as (i & j & Hi & _). apply (rk_lookup n perm Hp) in Hi. tauto. }
      split; [done|]. by apply (rk_before n perm Hp).
  - by apply ee_minimal.
Qed.

(** Equal noise variances and weights give equal covariances. *)
Lemma noise_cov_unique n A V d C C' : is_inverse n (msub mid A) V → posdef n C → posdef n C' →
  (∀ i j, (i < n)%nat → (j < n)%nat → lcov n C (noise A i) (noise A j) = if decide (i = j) then d i else 0) →
  (∀ i j, (i < n)%nat → (j < n)%nat → lcov n C' (noise A i) (noise A j) = if decide (i = j) then d i else 0) → meq n C C'.
Proof.
  intros HV Hpc Hpc' HC HC' x z Hx Hz.
  assert (∀ M, posdef n M → (∀ i j, (i < n)%nat → (j < n)%nat → lcov n M (noise A i) (noise A j) = if decide (i = j) then d i else 0) →
    M x z = qsum n (λ k, V k x * (V k z * d k))) as H; [|by rewrite (H C), (H C')].
  intros M HM HN. transitivity (lcov n M (eunit z) (eunit x)).
  { rewrite cov_unit_r by done. rewrite (qsum_one n _ z); [unfold eunit; rewrite decide_True by done; rewrite (proj1 HM z x) by done; ring|done|].
    intros k _ Hk. unfold eunit. rewrite decide_False by done. ring. }
  transitivity (lcov n M (eunit z) (λ l, qsum n (λ k, V k x * noise A k l))).
  { apply cov_ext; [done|]. intros l Hl. by apply (unit_noise n A V HV). }
  rewrite (cov_sum_r n M n (λ k l, V k x * noise A k l)). apply qsum_ext. intros k Hk.
  rewrite <-(cov_noise_unit n A V M d HV HN k z Hk Hz), (cov_sym n M HM (noise A k)).
  transitivity (lcov n M (eunit z) (λ l, V k x * noise A k l + 0 * noise A k l)); [apply cov_ext; [done|]; intros; ring|].
  rewrite cov_lin_r. ring.
Qed.

(** What is handed to the constructor describes a model with the graph above and the covariance matrix and the means of the
    undirected model, once the lists of the means and the variances are put in the order of the nodes. *)
Theorem C121_arguments (o o' : oracle) (inv : nat → mat → mat) (n : nat) (S : mat) (g : ggm) (m : vec) (perm : list node) :
  inverts inv → posdef n S → no_small_correlation n S → ggm_for inv n S g → perm ≡ₚ seq 0 n →
  ∃ d arcs ms vs, ggm_imap o inv g perm = Ok d ∧ ggm_regress o inv g m perm = Ok (arcs, ms, vs) ∧ length ms = n ∧ length vs = n ∧
    ∀ b v, length b = n → length v = n → (∀ k x, perm !! k = Some x → b !! x = ms !! k ∧ v !! x = vs !! k) →
    ∃ h C, gauss_make o' (seq 0 n) arcs (Some b) (Some v) = Ok h ∧ plain n h ∧ d_arcs (g_dag h) = d_arcs d ∧
      (read_covariance inv h).2 = Ok C ∧ meq n C S ∧
      g_bias h = b ∧ ∀ i, (i < n)%nat → m i = vec_of b i + qsum n (λ k, g_w h k i * m k).
Proof.
  intros Hinv Hpd Hsm (Hd & HS & HN) Hp. destruct (imap_ok n S Hpd perm Hp o inv Hinv g Hd HS HN Hsm) as (d & Hl & Hwf & HN' & HA).
  exists d. eexists _, _, _. split; [done|]. split.
  { unfold ggm_regress. rewrite Hl. cbn [res_bind]. apply (regress_loop n S Hpd perm o inv Hinv g Hd HS m d Hwf HA). intros i. apply (perm_in n perm Hp). }
  cbn [app]. split; [by rewrite fmap_length, (perm_len n perm Hp)|]. split; [by rewrite fmap_length, (perm_len n perm Hp)|].
  intros b v Hb Hv Hbv. set (arcs := perm ≫= arcs_into n S perm o d).
  assert (∀ x, (x < n)%nat → vec_of b x = m x - qsum n (λ k, aa n S perm k x * m k) ∧ vec_of v x = dd n S perm x) as Hvec.
  { intros x Hx. pose proof (rk_at n perm Hp x Hx) as Hk. destruct (Hbv _ _ Hk) as [E1 E2]. unfold vec_of. rewrite E1, E2, !list_lookup_fmap, Hk. done. }
  destruct (gauss_new_spec o' (seq 0 n) arcs (Some b) (Some v)) as (h & Hh & Hg & Hgl & HW & HV & HB & Hf1 & Hf2).
  { apply NoDup_seq. } { by eapply arcs_nodup. }
  { intros [p i] w H. apply (arcs_elem n S Hpd perm Hp o d Hwf HA) in H as [He _]. apply (ee_rk n S Hpd) in He. rewrite !elem_of_seq. cbn. lia. }
  assert (∀ i j, (i < n)%nat → (j < n)%nat → g_w h i j = aa n S perm i j) as Hw.
  { intros i j Hi Hj. rewrite <-(lab_weight h n Hg Hgl) by done. rewrite HW. destruct (given arcs (i, j)) as [w|] eqn:E.
    - apply given_Some in E; [|by eapply arcs_nodup]. apply (arcs_elem n S Hpd perm Hp o d Hwf HA) in E as [_ ->]. done.
    - apply given_None in E. cbn. destruct (decide (aa n S perm i j = 0)) as [|Hne]; [done|]. destruct E. apply elem_of_list_fmap. exists ((i, j), aa n S perm i j). split; [done|].
      apply (arcs_elem n S Hpd perm Hp o d Hwf HA). split; [|done]. by apply elem_ee. }
  assert (d_arcs (g_dag h) = d_arcs d) as HE.
  { apply set_eq. intros [i j]. rewrite HA, elem_ee. pose proof Hg as (_ & _ & Hn & _ & Ha). rewrite Ha. split.
    - intros Hne. assert (is_Some (g_ix h !! i) ∧ is_Some (g_ix h !! j)) as [[a Hia] [c Hjc]]. { unfold weight in Hne. destruct (g_ix h !! i), (g_ix h !! j); done. }
      apply (lab_ix h n Hg Hgl) in Hia as [_ Hi], Hjc as [_ Hj]. rewrite (lab_weight h n Hg Hgl), Hw in Hne by done. done.
    - intros (Hi & Hj & Hne). by rewrite (lab_weight h n Hg Hgl), Hw. }
  assert (plain n h) as Hpl.
  { split; [done|]. split; [done|]. split. { rewrite HE, HA. by apply ee_acyclic. } split; [|done].
    split; [rewrite HV; cbn; by rewrite (lab_dim h n Hgl)|]. rewrite HV. cbn. apply Forall_lookup. intros x q Hq.
    assert (x < n)%nat as Hx by (rewrite <-Hv; by eapply lookup_lt_Some). destruct (Hvec x Hx) as [_ E]. unfold vec_of in E. rewrite Hq in E. cbn in E. subst q. by apply dd_pos. }
  destruct (plain_sem inv n h Hinv Hpl) as (V & C & HVi & HR & Hdp & Hs & Hn & _).
  exists h, C. split; [done|]. split; [done|]. split; [done|]. split; [by rewrite HR|]. split.
  - assert (∀ i j, (i < n)%nat → (j < n)%nat → noise (g_w h) i j = noise (aa n S perm) i j) as Hno.
    { intros i j Hi Hj. unfold noise. by rewrite Hw. }
    apply (noise_cov_unique n (g_w h) V (vec_of (g_var h))); [done|by eapply sem_posdef|done|done|].
    intros i j Hi Hj. transitivity (lcov n S (noise (aa n S perm) i) (noise (aa n S perm) j)).
    { apply cov_ext; intros k Hk; by apply Hno. }
    rewrite (noise_cov n S Hpd perm Hp) by done. case_decide; [|done]. rewrite HV. cbn. symmetry. by apply Hvec.
  - split; [done|]. intros i Hi. destruct (Hvec i Hi) as [-> _]. rewrite (qsum_ext n (λ k, g_w h k i * m k) (λ k, aa n S perm k i * m k)); [ring|].
    intros k Hk. by rewrite Hw.
Qed.

(** With the nodes in their own order the lists are in the right order already. *)
Theorem C121_identity (o o' : oracle) (inv : nat → mat → mat) (n : nat) (S : mat) (g : ggm) (m : vec) :
  inverts inv → posdef n S → no_small_correlation n S → ggm_for inv n S g →
  ∃ h C m', ggm_to_gauss_dag true o inv g m (seq 0 n) = Ok h ∧ plain n h ∧ (read_covariance inv h).2 = Ok C ∧ meq n C S ∧
    means o' h = Ok m' ∧ (∀ i, (i < n)%nat → m' i = m i) ∧ minimal_for n S (d_arcs (g_dag h)).
Proof.
  intros Hinv Hpd Hsm Hg. destruct (C121_graph o inv n S g (seq 0 n) Hinv Hpd Hsm Hg) as (d & Hd & _ & _ & Hb & _ & Hmin); [done|].
  destruct (C121_arguments o o inv n S g m (seq 0 n) Hinv Hpd Hsm Hg) as (d' & arcs & ms & vs & Hd' & Hr & Hms & Hvs & H); [done|].
  rewrite Hd in Hd'. injection Hd' as <-.
  destruct (H ms vs Hms Hvs) as (h & C & Hh & Hpl & HA & HC & HCS & Hbi & Hm). { intros k x [-> _]%lookup_seq. done. }
  assert (∀ i j, (i, j) ∈ d_arcs (g_dag h) → (i < j)%nat) as Hinc.
  { rewrite HA. intros i j (a & c & [-> _]%lookup_seq & [-> _]%lookup_seq & ?)%Hb. done. }
  pose proof Hpl as (Hwf & Hgl & _). destruct (C47_means o' h n Hwf Hgl) as (m' & Hm' & Heq); [by rewrite Hbi|done|].
  exists h, C, m'. split.
  { unfold ggm_to_gauss_dag. rewrite Hr. cbn [res_bind]. replace (size (u_nodes (gg_graph g))) with n; [done|].
    destruct Hg as (_ & _ & HN). replace (u_nodes (gg_graph g)) with (list_to_set (seq 0 n) : nset); [rewrite size_list_to_set; [by rewrite seq_length|apply NoDup_seq]|].
    apply set_eq. intros x. rewrite elem_of_list_to_set, elem_of_seq, HN. lia. }
  split; [done|]. split; [done|]. split; [done|]. split; [done|]. split; [|by rewrite HA].
  intros i. induction i as [i IH] using lt_wf_ind. intros Hi. rewrite (Heq i Hi), (Hm i Hi), Hbi. f_equal. apply qsum_ext. intros k Hk.
  rewrite (lab_weight h n Hwf Hgl) by done. destruct (decide (g_w h k i = 0)) as [->|Hne]; [ring|]. rewrite IH; [done| |done].
  apply Hinc. apply Hwf. by rewrite (lab_weight h n Hwf Hgl).
Qed.

(** The class of this repository does not accept the call. *)
Theorem C121_raises (o : oracle) (inv : nat → mat → mat) (n : nat) (S : mat) (g : ggm) (m : vec) (perm : list node) :
  inverts inv → posdef n S → no_small_correlation n S → ggm_for inv n S g → perm ≡ₚ seq 0 n →
  ggm_to_gauss_dag false o inv g m perm = Raise TypeError.
Proof.
  intros Hinv Hpd Hsm Hg Hp. destruct (C121_arguments o o inv n S g m perm Hinv Hpd Hsm Hg Hp) as (d & arcs & ms & vs & _ & Hr & _).
  unfold ggm_to_gauss_dag. by rewrite Hr.
Qed.

(** Two variables. *)
Lemma no_small_2 (S : mat) : posdef 2 S → (S 0%nat 1%nat ≠ 0 → / qz 10000000000000000 * (S 0%nat 0%nat * S 1%nat 1%nat) < S 0%nat 1%nat * S 0%nat 1%nat) → no_small_correlation 2 S.
Proof.
  intros Hpd H a b W r s Ha Hb Hab HaW HbW Hr Hs.
  assert (∀ x y t, (x < 2)%nat → x ∉ W → y ∉ W → (∀ z, (z < 2)%nat → z = x ∨ z = y) → residual 2 S W x t → ∀ i, (i < 2)%nat → t i = eunit x i) as Hu.
  { intros x y t Hx HxW HyW Hz Ht i Hi. apply Ht; [done|]. by destruct (Hz i Hi) as [->| ->]. }
  assert (∀ z, (z < 2)%nat → z = a ∨ z = b) as Hz by (intros; lia).
  assert (∀ z, (z < 2)%nat → z = b ∨ z = a) as Hz' by (intros; lia).
  pose proof (Hu a b r Ha HaW HbW Hz Hr) as Er. pose proof (Hu b a s Hb HbW HaW Hz' Hs) as Es.
  assert (∀ x y u w, (x < 2)%nat → (y < 2)%nat → (∀ i, (i < 2)%nat → u i = eunit x i) → (∀ i, (i < 2)%nat → w i = eunit y i) → lcov 2 S u w = S x y) as Hc.
  { intros x y u w Hx Hy H1 H2. transitivity (lcov 2 S (eunit x) (eunit y)); [by apply cov_ext|]. rewrite cov_unit_r by done.
    rewrite (qsum_one 2 _ x); [unfold eunit; rewrite decide_True by done; ring|done|]. intros k _ Hk. unfold eunit. rewrite decide_False by done. ring. }
  rewrite (Hc a b r s), (Hc a a r r), (Hc b b s s) by done.
  assert (a = 0 ∧ b = 1 ∨ a = 1 ∧ b = 0)%nat as [[-> ->]|[-> ->]] by lia; [done|].
  rewrite (proj1 Hpd 1%nat 0%nat) by lia. intros H0%H. by rewrite (Qcmult_comm (S 1%nat 1%nat)).
Qed.
Definition mat2 (a b c : Qc) : mat := λ i j, if decide (i ≠ j) then b else if decide (i = 0)%nat then a else c.
Lemma mat2_posdef a b c : 0 < c → 0 < a - b * b / c → posdef 2 (mat2 a b c).
Proof.
  intros Hc Ha. pose proof (Qc_lt_ne _ Hc) as Hc0.
  apply (factors_posdef 2 [0; 1]%nat _ (λ i j, if decide (i = j) then 1 else if decide (i = 0 ∧ j = 1)%nat then b / c else 0) (λ i, if decide (i = 0)%nat then a - b * b / c else c)); [done|].
  split; [|split].
  - intros i Hi. rewrite decide_True by done. split; [done|]. by case_decide.
  - intros i j Hi Hj Hij Hne. rewrite decide_False in Hne by done. destruct (decide (i = 0 ∧ j = 1)%nat) as [[-> ->]|]; [|done]. exists 0%nat, 1%nat. split_and!; [done|done|lia].
  - intros i j Hi Hj. destruct i as [|[|?]]; [..|lia]; (destruct j as [|[|?]]; [..|lia]); cbn; unfold mat2; repeat case_decide; try lia; field; done.
Qed.
Definition ggm2 (a b c : Qc) : ggm := ggm_from_covariance oracle0 (λ _, false) exact_inv 2 (mat2 a b c).
Lemma ggm2_for a b c : posdef 2 (mat2 a b c) → ggm_for exact_inv 2 (mat2 a b c) (ggm2 a b c).
Proof. intros H. by apply C121_constructors; [apply exact_inv_ok|]. Qed.

(** The lists are in the order of the permutation, so for another order the variances and the means are given to the wrong nodes. *)
Definition means57 : vec := λ i, if decide (i = 0)%nat then qz 5 else qz 7.
Theorem C121_order_refuted : ∃ S g m h C m', posdef 2 S ∧ no_small_correlation 2 S ∧ ggm_for exact_inv 2 S g ∧
  ggm_to_gauss_dag true oracle0 exact_inv g m [1; 0]%nat = Ok h ∧ (read_covariance exact_inv h).2 = Ok C ∧ C 0%nat 0%nat ≠ S 0%nat 0%nat ∧
  means oracle0 h = Ok m' ∧ m' 0%nat ≠ m 0%nat.
Proof.
  assert (posdef 2 (mat2 1 0 (qz 2))) as Hpd by (apply mat2_posdef; done).
  exists (mat2 1 0 (qz 2)), (ggm2 1 0 (qz 2)), means57.
  assert (match ggm_to_gauss_dag true oracle0 exact_inv (ggm2 1 0 (qz 2)) means57 [1; 0]%nat with
    | Ok h => match (read_covariance exact_inv h).2, means oracle0 h with
              | Ok C, Ok m' => bool_decide (C 0%nat 0%nat = qz 2 ∧ m' 0%nat = qz 7) | _, _ => false end
    | Raise _ => false end = true) as H by (vm_compute; reflexivity).
  destruct (ggm_to_gauss_dag _ _ _ _ _ _) as [h|]; [|done]. exists h. destruct ((read_covariance exact_inv h).2) as [C|] eqn:HC; [|done]. destruct (means oracle0 h) as [m'|] eqn:Hm; [|done].
  apply bool_decide_eq_true in H as [H1 H2]. exists C, m'. split; [done|]. split; [by apply no_small_2|]. split; [by apply ggm2_for|]. split; [done|]. split; [done|]. split; [by rewrite H1|].
  split; [done|]. by rewrite H2.
Qed.
(** A correlation of 1e-9 is taken for zero. *)
Theorem C121_small_refuted : ∃ S g d, posdef 2 S ∧ ggm_for exact_inv 2 S g ∧ ggm_imap oracle0 exact_inv g [0; 1]%nat = Ok d ∧ ¬ markov_for 2 S (d_arcs d).
Proof.
  set (S := mat2 1 (/ qz 1000000000) 1). assert (posdef 2 S) as Hpd by (apply mat2_posdef; done). exists S, (ggm2 1 (/ qz 1000000000) 1).
  assert (match ggm_imap oracle0 exact_inv (ggm2 1 (/ qz 1000000000) 1) [0; 1]%nat with Ok d => bool_decide (d_arcs d = ∅) | Raise _ => false end = true) as H by (vm_compute; reflexivity).
  destruct (ggm_imap _ _ _ _) as [d|]; [|done]. apply bool_decide_eq_true in H. exists d. split; [done|]. split; [by apply ggm2_for|]. split; [done|].
  rewrite H. intros Hmk. assert (uncorrelated 2 S ∅ 0%nat 1%nat) as Hu.
  { apply Hmk; [lia|lia|done|set_solver|set_solver|set_solver|]. assert (∀ u v, ¬ tc (edge (∅ : arcset)) u v) as Ht. { intros u v Hv. destruct Hv as [? ? Hv|? ? ? Hv]; unfold edge in Hv; by apply elem_of_empty in Hv. }
    replace (∅ : nset) with (pa ∅ 0%nat) by by_vm. apply local_markov.
    - intros v. apply Ht.
    - intros x ->%elem_of_singleton. split; [done|]. split; [|apply Ht]. replace (pa ∅ 0%nat) with (∅ : nset) by by_vm. set_solver. }
  apply (unc_iff 2 S Hpd ∅ 0%nat 1%nat (eunit 0%nat)) in Hu.
  - rewrite cov_unit_r in Hu by lia. revert Hu. vm_compute. done.
  - split; [done|]. set_solver.
Qed.

(** Three variables: the chain 0 - 1 - 2 of [C93_example]. *)
Lemma no_small_3 (S : mat) : posdef 3 S →
  (∀ a b c, (a < 3)%nat → (b < 3)%nat → (c < 3)%nat → a ≠ b → a ≠ c → b ≠ c → ∀ t : bool,
    let f := λ x y, if t then S x y - S x c * S y c / S c c else S x y in
    f a b ≠ 0 → / qz 10000000000000000 * (f a a * f b b) < f a b * f a b) → no_small_correlation 3 S.
Proof.
  intros Hpd H a b W r s Ha Hb Hab HaW HbW Hr Hs.
  assert (∃ c, (c < 3)%nat ∧ a ≠ c ∧ b ≠ c) as (c & Hc & Hac & Hbc).
  { destruct (decide (a = 0 ∨ b = 0)%nat); [destruct (decide (a = 1 ∨ b = 1)%nat); [exists 2%nat|exists 1%nat]|exists 0%nat]; lia. }
  assert (∀ z, (z < 3)%nat → z = a ∨ z = b ∨ z = c) as Hz by (intros; lia).
  assert (0 < S c c) as Hcc.
  { pose proof (proj2 Hpd (eunit c)) as Hp. rewrite cov_unit_r in Hp by done. rewrite (qsum_one 3 _ c) in Hp; [|done|].
    - unfold eunit in Hp. rewrite decide_True in Hp by done. rewrite <-(Qcmult_1_l (S c c)). apply Hp. exists c. by rewrite decide_True.
    - intros k _ Hk. unfold eunit. rewrite decide_False by done. ring. }
  apply Qc_lt_ne in Hcc.
  assert (∀ x y, (x < 3)%nat → (y < 3)%nat → lcov 3 S (eunit x) (eunit y) = S x y) as Hu.
  { intros x y Hx Hy. rewrite cov_unit_r by done. rewrite (qsum_one 3 _ x); [unfold eunit; rewrite decide_True by done; ring|done|]. intros k _ Hk. unfold eunit. rewrite decide_False by done. ring. }
  set (t := bool_decide (c ∈ W)). set (k := λ x, if t then S x c / S c c else 0).
  assert (∀ x u, (x < 3)%nat → x ≠ c → residual 3 S W x u → ∀ i, (i < 3)%nat → u i = 1 * eunit x i + - k x * eunit c i) as Hform.
  { intros x u Hx Hxc Hres. apply (residual_unique 3 S Hpd W x); [done|]. split.
    - intros i Hi HiW. unfold k, t. case_bool_decide; [|ring]. unfold eunit at 2. rewrite decide_False by (by intros ->). ring.
    - intros z Hz' HzW. assert (z = c) as -> by (destruct (Hz z Hz') as [->|[->| ->]]; done). rewrite cov_lin_l, !Hu by done.
      unfold k, t. rewrite bool_decide_true by done. field. done. }
  assert (∀ x y u v, (x < 3)%nat → (y < 3)%nat → x ≠ c → y ≠ c → residual 3 S W x u → residual 3 S W y v →
    lcov 3 S u v = if t then S x y - S x c * S y c / S c c else S x y) as Hcov.
  { intros x y u v Hx Hy Hxc Hyc Hu' Hv'. transitivity (lcov 3 S (λ i, 1 * eunit x i + - k x * eunit c i) (λ i, 1 * eunit y i + - k y * eunit c i)).
    { apply cov_ext; intros i Hi; by apply Hform. }
    rewrite cov_lin_l, !cov_lin_r, !Hu by done. unfold k. destruct t; [|ring]. rewrite (proj1 Hpd c y) by done. field. done. }
  rewrite (Hcov a b r s), (Hcov a a r r), (Hcov b b s s) by done. by apply H.
Qed.
Definition chain_cov : mat := λ i j, exact_inv 3 chain_prec i j.
Example C121_example : inverts exact_inv ∧ posdef 3 chain_cov ∧ no_small_correlation 3 chain_cov ∧
  let g := ggm_make oracle0 (λ _, false) 3 chain_prec in
  ggm_for exact_inv 3 chain_cov g ∧ [0; 2; 1]%nat ≡ₚ seq 0 3 ∧
  ggm_regress oracle0 exact_inv g means57 [0; 2; 1]%nat = Ok ([((0, 2), / qz 3); ((0, 1), - / qz 2); ((2, 1), - / qz 2)]%nat, [qz 5; qz 16 / qz 3; qz 13], [qz 3 / qz 4; qz 2 / qz 3; / qz 2]) ∧
  ∃ d, ggm_imap oracle0 exact_inv g [0; 1; 2]%nat = Ok d ∧ d_arcs d = {[(0, 1); (1, 2)]}%nat.
Proof.
  destruct C93_example as (_ & Hpp & _).
  destruct (C121_constructors oracle0 (λ _, false) exact_inv 3 chain_prec exact_inv_ok Hpp) as [(S & HS & _ & HF) _].
  assert (S = chain_cov) as -> by (destruct HF as (_ & <- & _); done).
  split; [apply exact_inv_ok|]. split; [done|]. split.
  { apply no_small_3; [done|]. intros a b c Ha Hb Hc Hab Hac Hbc t.
    destruct a as [|[|[|?]]]; [..|lia]; (destruct b as [|[|[|?]]]; [..|lia]); try done; (destruct c as [|[|[|?]]]; [..|lia]); try done; destruct t; cbv zeta;
      apply (bool_decide_unpack _); vm_compute; exact I. }
  intros g. split; [done|]. split; [by apply (bool_decide_unpack _)|]. split.
  - assert (match ggm_regress oracle0 exact_inv g means57 [0; 2; 1]%nat with
      | Ok p => bool_decide (p = ([((0, 2), / qz 3); ((0, 1), - / qz 2); ((2, 1), - / qz 2)]%nat, [qz 5; qz 16 / qz 3; qz 13], [qz 3 / qz 4; qz 2 / qz 3; / qz 2])) | Raise _ => false end = true) as H by (vm_compute; reflexivity).
    destruct (ggm_regress _ _ _ _ _); [|done]. apply bool_decide_eq_true in H. by subst.
  - assert (match ggm_imap oracle0 exact_inv g [0; 1; 2]%nat with Ok d => bool_decide (d_arcs d = {[(0, 1); (1, 2)]}%nat) | Raise _ => false end = true) as H by (vm_compute; reflexivity).
    destruct (ggm_imap _ _ _ _) as [d|]; [|done]. apply bool_decide_eq_true in H. by exists d.
Qed.

Print Assumptions C121_constructors.
Print Assumptions C121_graph.
Print Assumptions C121_arguments.
Print Assumptions C121_identity.
Print Assumptions C121_raises.
Print Assumptions C121_order_refuted.
Print Assumptions C121_small_refuted.
