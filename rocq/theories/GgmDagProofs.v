(** The graph that [to_gauss_dag] finds, and the regressions on it. *)
From Coq Require Import QArith.Qcanon Field.
From Verif Require Import Py Spec SpecDsep SpecLin SpecGgmDag DagModel UGraphModel InterveneModel QMatModel GaussModel GaussLinModel GgmDagModel
  TopoProofs StateProofs ReachProofs CoreProofs MarkovProofs ImapProofs ConvProofs QMatProofs LinProofs SemProofs InvProofs PartialProofs SchurProofs PrecProofs.
#[local] Open Scope Qc_scope.

Section ordered.
  Context (n : nat) (S : mat) (Hpd : posdef n S) (perm : list node) (Hperm : perm ≡ₚ seq 0 n).
  Notation rk := (pos_in perm).
  Notation cov := (lcov n S).

  Lemma perm_in x : x ∈ perm ↔ (x < n)%nat.
  Proof using Hperm. rewrite Hperm, elem_of_seq. lia. Qed.
  Lemma perm_nodup : NoDup perm.
  Proof using Hperm. rewrite Hperm. apply NoDup_seq. Qed.
  Lemma perm_len : length perm = n.
  Proof using Hperm. by rewrite Hperm, seq_length. Qed.
  Lemma rk_at x : (x < n)%nat → perm !! rk x = Some x.
  Proof using Hperm. intros Hx. by apply pos_in_lookup, perm_in. Qed.
  Lemma rk_lookup k x : perm !! k = Some x → (x < n)%nat ∧ rk x = k.
  Proof using Hperm.
    intros Hk. assert (x < n)%nat as Hx by (apply perm_in; by eapply elem_of_list_lookup_2). split; [done|].
    eapply NoDup_lookup; [apply perm_nodup|by apply rk_at|done].
  Qed.
  Lemma rk_inj x y : (x < n)%nat → (y < n)%nat → rk x = rk y → x = y.
  Proof using Hperm. intros Hx%rk_at Hy%rk_at E. rewrite E in Hx. congruence. Qed.
  Lemma rk_before x y : (x < n)%nat → (y < n)%nat → before perm x y ↔ (rk x < rk y)%nat.
  Proof using Hperm.
    intros Hx Hy. split.
    - intros (i & j & [_ <-]%rk_lookup & [_ <-]%rk_lookup & H). done.
    - intros H. exists (rk x), (rk y). split; [by apply rk_at|]. split; [by apply rk_at|done].
  Qed.

  (** The variables before [y], and the residual of the regression on these. *)
  Definition prevs (y : node) : nset := filter (λ x, (rk x < rk y)%nat) (list_to_set (seq 0 n)).
  Lemma elem_prevs x y : x ∈ prevs y ↔ (x < n)%nat ∧ (rk x < rk y)%nat.
  Proof using. unfold prevs. rewrite elem_of_filter, elem_of_list_to_set, elem_of_seq. split; intros [??]; split; lia. Qed.
  Definition rr (y : node) : nat → Qc := gs n S (elements (prevs y)) y.
  Lemma rr_res y : residual n S (prevs y) y (rr y).
  Proof using Hpd.
    pose proof (gs_residual n S (elements (prevs y)) Hpd (NoDup_elements _)) as H. rewrite list_to_set_elements_L in H. apply H.
    apply Forall_forall. intros x Hx. by apply elem_of_elements, elem_prevs in Hx as [? _].
  Qed.
  Lemma rr_self y : (y < n)%nat → rr y y = 1.
  Proof using Hpd. intros Hy. rewrite (proj1 (rr_res y)) by (done || (rewrite elem_prevs; lia)). unfold eunit. by rewrite decide_True. Qed.
  Lemma rr_out x y : (x < n)%nat → x ≠ y → ¬ (rk x < rk y)%nat → rr y x = 0.
  Proof using Hpd. intros Hx Hne Hr. rewrite (proj1 (rr_res y)) by (done || (rewrite elem_prevs; tauto)). unfold eunit. by rewrite decide_False. Qed.
  Definition aa : mat := λ i j, eunit j i - rr j i.
  Definition dd (j : nat) : Qc := cov (rr j) (rr j).
  Lemma noise_rr j k : noise aa j k = rr j k.
  Proof using. unfold noise, aa. ring. Qed.
  Lemma aa_out i j : (i < n)%nat → ¬ (rk i < rk j)%nat → aa i j = 0.
  Proof using Hpd. intros Hi Hr. unfold aa. rewrite (proj1 (rr_res j)) by (done || (rewrite elem_prevs; tauto)). ring. Qed.
  Lemma dd_pos j : (j < n)%nat → 0 < dd j.
  Proof using Hpd. intros Hj. apply (proj2 Hpd). exists j. split; [done|]. by rewrite rr_self. Qed.
  Lemma rr_orth i j : (i < n)%nat → (j < n)%nat → (rk i < rk j)%nat → cov (rr j) (rr i) = 0.
  Proof using Hpd.
    intros Hi Hj Hij. apply (residual_orth n S (prevs j) j); [apply rr_res|]. intros k Hk HkW. rewrite elem_prevs in HkW.
    apply rr_out; [done| |]; [intros ->; tauto|lia].
  Qed.
  Lemma noise_cov i j : (i < n)%nat → (j < n)%nat → cov (noise aa i) (noise aa j) = if decide (i = j) then dd i else 0.
  Proof using Hpd Hperm.
    intros Hi Hj. transitivity (cov (rr i) (rr j)). { apply cov_ext; intros k _; by rewrite noise_rr. }
    case_decide as D; [by subst|]. destruct (Nat.lt_trichotomy (rk i) (rk j)) as [H|[H|H]].
    - rewrite cov_sym by done. by apply rr_orth.
    - by apply rk_inj in H.
    - by apply rr_orth.
  Qed.

  (** The graph of the non-zero coefficients. *)
  Definition ee : arcset := filter (λ a : arc, aa a.1 a.2 ≠ 0) (list_to_set (i ← seq 0 n; j ← seq 0 n; [(i, j)])).
  Lemma elem_ee i j : (i, j) ∈ ee ↔ (i < n)%nat ∧ (j < n)%nat ∧ aa i j ≠ 0.
  Proof using.
    unfold ee. rewrite elem_of_filter, elem_of_list_to_set. setoid_rewrite elem_of_list_bind. setoid_rewrite elem_of_list_bind. cbn. split.
    - intros (Hne & x & (y & Hxy & Hy) & Hx). apply elem_of_list_singleton in Hxy as [= -> ->]. apply elem_of_seq in Hx, Hy. split; [lia|]. split; [lia|done].
    - intros (Hi & Hj & Hne). split; [done|]. exists i. split; [|apply elem_of_seq; lia]. exists j. split; [by left|apply elem_of_seq; lia].
  Qed.
  Lemma ee_rk i j : (i, j) ∈ ee → (i < n)%nat ∧ (j < n)%nat ∧ (rk i < rk j)%nat.
  Proof using Hpd.
    intros (Hi & Hj & Hne)%elem_ee. split; [done|]. split; [done|]. destruct (decide (rk i < rk j)%nat) as [|H]; [done|]. by rewrite aa_out in Hne.
  Qed.
  Lemma ee_acyclic : acyclic ee.
  Proof using Hpd.
    intros x Hx. assert (∀ a b, tc (edge ee) a b → (rk a < rk b)%nat) as H; [|apply H in Hx; lia].
    intros a b Hab. induction Hab as [a b (_ & _ & H)%ee_rk|a b c (_ & _ & H)%ee_rk _ IH]; lia.
  Qed.
  Lemma ee_rtc a b : rtc (edge ee) a b → (rk a ≤ rk b)%nat.
  Proof using Hpd. induction 1 as [|a b c (_ & _ & H)%ee_rk _ IH]; lia. Qed.
  (** An arc stands for a correlation given all other variables that come before. *)
  Lemma ee_unc i j : (i < n)%nat → (j < n)%nat → (rk i < rk j)%nat → (i, j) ∈ ee ↔ ¬ uncorrelated n S (prevs j ∖ {[i]}) i j.
  Proof using Hpd.
    intros Hi Hj Hr. assert (i ≠ j) as Hne by (intros ->; lia). rewrite elem_ee.
    pose proof (unc_coef n S Hpd (prevs j) j i _ (rr_res j) Hi) as Hc. specialize (Hc ltac:(by apply elem_prevs) Hne).
    assert (aa i j = - rr j i) as Ha. { unfold aa, eunit. rewrite decide_False by done. ring. }
    assert (aa i j = 0 ↔ rr j i = 0) as H0. { rewrite Ha. split; intros E; [|rewrite E; ring]. transitivity (- - rr j i); [ring|]. rewrite E. ring. }
    rewrite H0, Hc. split.
    - intros (_ & _ & H) Hu. apply H. by apply unc_sym.
    - intros H. split; [done|]. split; [done|]. intros Hu. apply H. by apply unc_sym.
  Qed.

  Definition vv : mat := mgeom n aa n.
  Lemma aa_macyclic : macyclic n aa.
  Proof using Hpd.
    intros i Hi. apply (ee_acyclic (id i)). eapply (tc_congruence id); [|exact Hi]. intros a b H. by apply elem_ee.
  Qed.
  Lemma vv_inv : is_inverse n (msub mid aa) vv.
  Proof using Hpd. apply acyclic_inverse, aa_macyclic. Qed.
  Lemma vv_rk i z : (i < n)%nat → (z < n)%nat → vv i z ≠ 0 → (rk i ≤ rk z)%nat.
  Proof using Hpd.
    intros Hi Hz H. apply ee_rtc. eapply (effect_path n aa vv ee vv_inv ee_acyclic); [|done..]. apply elem_ee.
  Qed.

  Lemma ee_markov : markov_for n S ee.
  Proof using Hpd Hperm.
    intros a b W Ha Hb Hab HaW HbW HW Hsep.
    apply (sem_global n aa vv S dd ee vv_inv dd_pos (proj1 Hpd) noise_cov ee_acyclic elem_ee); done.
  Qed.
  Lemma ee_minimal : minimal_for n S ee.
  Proof using Hpd Hperm.
    split; [apply ee_markov|]. intros E' [Hsub Hnsub] Hmk.
    assert (∃ x y, (x, y) ∈ ee ∧ (x, y) ∉ E') as (x & y & Hxy & Hxy').
    { destruct (decide (Exists (λ e, e ∉ E') (elements ee))) as [He|He].
      - apply Exists_exists in He as ([x y] & H1 & H2). apply elem_of_elements in H1. by exists x, y.
      - exfalso. apply Hnsub. intros e Hin. destruct (decide (e ∈ E')) as [|Hn]; [done|]. destruct He. apply Exists_exists. exists e. split; [by apply elem_of_elements|done]. }
    pose proof (ee_rk _ _ Hxy) as (Hx & Hy & Hr).
    assert (∀ a b, (a, b) ∈ E' → (a < n)%nat ∧ (b < n)%nat ∧ (rk a < rk b)%nat) as Hrk' by (intros a b H; by apply ee_rk, Hsub).
    assert (acyclic E') as Hac' by (by eapply acyclic_sub; [apply ee_acyclic|]).
    assert (∀ a b, tc (edge E') a b → (rk a < rk b)%nat) as Htc.
    { intros a b H. induction H as [a b (_ & _ & H)%Hrk'|a b c (_ & _ & H)%Hrk' _ IH]; lia. }
    destruct (residual_exists n S Hpd (pa E' y) y) as (r & Hres).
    assert (∀ z, z ∈ pa E' y → (z < n)%nat ∧ (rk z < rk y)%nat) as Hpa. { intros z (? & _ & ?)%elem_of_pa%Hrk'. done. }
    assert (residual n S (prevs y) y r) as Hres'.
    { split.
      - intros i Hi Hn. apply Hres; [done|]. intros H%Hpa. apply Hn. by apply elem_prevs.
      - intros z Hz [_ Hzr]%elem_prevs. destruct (decide (z ∈ pa E' y)) as [Hzp|Hzp]; [by apply Hres|].
        apply (unc_iff n S Hpd (pa E' y) y z r Hres). apply Hmk; [done|done| | |done| |].
        + intros ->. lia.
        + intros H%Hpa. lia.
        + intros w Hw. by apply Hpa.
        + apply local_markov; [done|]. intros w ->%elem_of_singleton. split; [intros ->; lia|]. split; [done|]. intros H%Htc. lia. }
    pose proof (residual_unique n S Hpd (prevs y) y _ _ Hres' (rr_res y) x Hx) as E.
    apply elem_ee in Hxy as (_ & _ & Hne). apply Hne. unfold aa. rewrite <-E. rewrite (proj1 Hres); [ring|done|]. by rewrite elem_of_pa.
  Qed.

  (** Testing [x] and [y] given the Markov blanket of [x] among the variables before [y] is testing them given all of these. *)
  Lemma blanket_test x y (M : nset) : (x < n)%nat → (y < n)%nat → (rk x < rk y)%nat →
    (∀ z, z ∈ M → (z < n)%nat ∧ (rk z < rk y)%nat ∧ z ≠ x) →
    (∀ z, (z < n)%nat → z ≠ x → (rk z < rk y)%nat →
      adjacent ee z x ∨ (∃ c, (rk c < rk y)%nat ∧ (x, c) ∈ ee ∧ (z, c) ∈ ee) → z ∈ M) →
    uncorrelated n S M x y ↔ (x, y) ∉ ee.
  Proof using Hpd Hperm.
    intros Hx Hy Hr HM HB.
    set (c := λ b, if decide (rk b < rk y)%nat then rr b x / dd b else 0).
    set (u := λ k, qsum n (λ b, c b * rr b k)).
    assert (∀ k, (k < n)%nat → k ≠ x → k ∉ M → u k = 0) as Hu0.
    { intros k Hk Hkx HkM. apply qsum_zero. intros b Hb. unfold c. case_decide as Db; [|ring].
      destruct (decide (rr b x = 0)) as [->|H1]; [unfold Qcdiv; ring|]. destruct (decide (rr b k = 0)) as [->|H2]; [ring|]. exfalso.
      assert (∀ i, (i < n)%nat → rr b i ≠ 0 → i = b ∨ (i, b) ∈ ee) as Hcase.
      { intros i Hi Hne. destruct (decide (i = b)) as [|Hib]; [by left|]. right. apply elem_ee. split; [done|]. split; [done|].
        unfold aa, eunit. rewrite decide_False by done. intros E. apply Hne. transitivity (0 - (0 - rr b i)); [ring|]. rewrite E. ring. }
      apply HkM. destruct (Hcase x Hx H1) as [->|Hxb], (Hcase k Hk H2) as [->|Hkb].
      - done.
      - apply HB; [done|done| |left; by left]. apply ee_rk in Hkb. lia.
      - apply HB; [done|done|done|]. left. by right.
      - apply HB; [done|done| |right; by exists b]. apply ee_rk in Hkb. lia. }
    assert (0 < u x) as Hux.
    { apply (qsum_pos n _ x); [|done|].
      - intros b Hb. unfold c. case_decide; [|replace (0 * rr b x) with 0 by ring; apply Qcle_refl].
        replace (rr b x / dd b * rr b x) with (rr b x * rr b x * / dd b) by (unfold Qcdiv; ring).
        replace 0 with (0 * / dd b) by ring. apply Qcmult_le_compat_r; [apply Qc_square_nonneg|by apply Qclt_le_weak, Qc_inv_pos, dd_pos].
      - unfold c. rewrite decide_True by done. rewrite rr_self by done. replace (1 / dd x * 1) with (/ dd x) by (unfold Qcdiv; ring). by apply Qc_inv_pos, dd_pos. }
    assert (∀ z, (z < n)%nat → z ≠ x → (rk z < rk y)%nat → cov u (eunit z) = 0) as Huz.
    { intros z Hz Hzx Hzr. rewrite cov_sym by done. unfold u. rewrite (cov_sum_r n S n (λ b k, c b * rr b k)).
      transitivity (qsum n (λ b, vv b z * noise aa b x)).
      2: { rewrite <-(unit_noise n aa vv vv_inv z x Hz Hx). unfold eunit. by rewrite decide_False. }
      apply qsum_ext. intros b Hb. transitivity (cov (eunit z) (λ k, c b * rr b k + 0 * rr b k)). { apply cov_ext; [done|]. intros; ring. }
      rewrite cov_lin_r. rewrite (cov_sym n S Hpd (eunit z)).
      assert (cov (rr b) (eunit z) = vv b z * dd b) as ->.
      { rewrite <-(cov_noise_unit n aa vv S dd vv_inv noise_cov b z Hb Hz). apply cov_ext; [|done]. intros k _. by rewrite noise_rr. }
      rewrite noise_rr. unfold c. case_decide as Db.
      - pose proof (Qc_lt_ne _ (dd_pos b Hb)). field. done.
      - destruct (decide (vv b z = 0)) as [->|Hne]; [ring|]. apply vv_rk in Hne; [lia|done|done]. }
    pose proof (Qc_lt_ne _ Hux) as Hux0. set (r := λ k, / u x * u k + 0 * u k).
    assert (∀ z, (z < n)%nat → z ≠ x → (rk z < rk y)%nat → cov r (eunit z) = 0) as Hrz.
    { intros z Hz Hzx Hzr. unfold r. rewrite cov_lin_l, Huz by done. ring. }
    assert (∀ W : nset, (∀ z, z ∈ M → z ∈ W) → (∀ z, z ∈ W → z ≠ x ∧ (rk z < rk y)%nat) → residual n S W x r) as Hres.
    { intros W HMW HW. split.
      - intros i Hi HiW. unfold r, eunit. case_decide as Di; [subst; field; done|]. rewrite (Hu0 i Hi Di); [ring|]. intros H%HMW. done.
      - intros z Hz [??]%HW. by apply Hrz. }
    rewrite (ee_unc x y Hx Hy Hr).
    rewrite (unc_iff n S Hpd M x y r); [|apply Hres; [done|]; intros z (? & ? & ?)%HM; done].
    rewrite (unc_iff n S Hpd (prevs y ∖ {[x]}) x y r).
    - split; [tauto|]. intros H. destruct (decide (cov r (eunit y) = 0)); [done|tauto].
    - apply Hres.
      + intros z (? & ? & ?)%HM. rewrite elem_of_difference, elem_prevs, elem_of_singleton. done.
      + intros z. rewrite elem_of_difference, elem_prevs, elem_of_singleton. tauto.
  Qed.
End ordered.
