(** What the loops of [to_gauss_dag] compute. *)
From Coq Require Import QArith.Qcanon Field.
From Verif Require Import Py Spec SpecDsep SpecLin SpecGgmDag DagModel UGraphModel InterveneModel QMatModel GaussModel GaussLinModel GgmDagModel
  TopoProofs StateProofs ReachProofs CoreProofs MarkovProofs ImapProofs ConvProofs QMatProofs LinProofs SemProofs InvProofs PartialProofs SchurProofs PrecProofs
  GaussProofs GgmDagProofs.
#[local] Open Scope Qc_scope.

Lemma loopR_app {S A} (f : A → S → res S) l l' s s' : loopR f l s = Ok s' → loopR f (l ++ l') s = loopR f l' s'.
Proof. revert s. induction l as [|a l IH]; intros s; cbn; [by intros [= ->]|]. destruct (f a s); [apply IH|done]. Qed.
Lemma position_pairs_S k : position_pairs (S k) = position_pairs k ++ ((λ f, (f, k)) <$> seq 0 k).
Proof.
  unfold position_pairs. rewrite seq_S, bind_app. f_equal. cbn. rewrite app_nil_r. induction (seq 0 k) as [|a l IH]; cbn; [done|]. by f_equal.
Qed.

Section run.
  Context (n : nat) (S : mat) (Hpd : posdef n S) (perm : list node) (Hperm : perm ≡ₚ seq 0 n).
  Context (o : oracle) (inv : nat → mat → mat) (Hinv : inverts inv) (g : ggm) (Hdim : gg_dim g = n) (HS : ggm_covariance inv g = S)
    (Hnodes : ∀ x, x ∈ u_nodes (gg_graph g) ↔ (x < n)%nat).
  Notation rk := (pos_in perm).
  Notation cov := (lcov n S).
  Notation ee := (ee n S perm).
  Notation aa := (aa n S perm).
  Notation dd := (dd n S perm).
  Notation rr := (rr n S perm).

  Definition upto (s f : nat) (d : dag) : Prop :=
    wf d ∧ (∀ x, x ∈ d_nodes d ↔ (x < n)%nat) ∧
    ∀ a b, (a, b) ∈ d_arcs d ↔ (a, b) ∈ ee ∧ (rk b < s ∨ rk b = s ∧ rk a < f)%nat.

  Lemma close_iff (Hsmall : no_small_correlation n S) (o' : oracle) x y (M : nset) :
    (x < n)%nat → (y < n)%nat → x ≠ y → x ∉ M → y ∉ M → (∀ v, v ∈ M → (v < n)%nat) →
    ∃ ab, ggm_partial_correlation o' inv g x y M = Ok ab ∧ (is_close ab = true ↔ uncorrelated n S M x y).
  Proof using Hpd Hinv Hdim HS.
    intros Hx Hy Hxy HxM HyM HM. unfold ggm_partial_correlation. rewrite Hdim, HS.
    destruct (partial_spec o' inv n S x y M Hinv Hpd Hx Hy Hxy HxM HyM HM) as (a & b & -> & Hb & Hab). exists (a, b). split; [done|].
    destruct (residual_exists n S Hpd M x) as (r & Hr). destruct (residual_exists n S Hpd M y) as (s & Hs).
    destruct (Hab r s Hr Hs) as (k & Hk & -> & ->). unfold is_close. rewrite bool_decide_eq_true. cbn [fst snd].
    rewrite (unc_iff n S Hpd M x y r Hr), <-(residual_cov n S M x y r s Hr Hs). split.
    - intros Hle. destruct (decide (cov r s = 0)) as [|Hne]; [done|]. exfalso.
      pose proof (Hsmall x y M r s Hx Hy Hxy HxM HyM Hr Hs Hne) as Hlt. rewrite <-tol2_eq in Hlt.
      assert (0 < k * k) as Hkk. { replace 0 with (0 * k) by ring. by apply Qcmult_lt_compat_r. }
      apply (Qcmult_lt_compat_r _ _ (k * k)) in Hlt; [|done]. apply Qclt_not_le in Hlt. apply Hlt.
      replace (cov r s * cov r s * (k * k)) with (k * cov r s * (k * cov r s)) by ring.
      replace (tol2 * (cov r r * cov s s) * (k * k)) with (tol2 * (k * k * (cov r r * cov s s))) by ring. done.
    - intros ->. replace (k * 0 * (k * 0)) with (0 * (k * k * (cov r r * cov s s))) by ring.
      apply Qcmult_le_compat_r; [apply Qclt_le_weak, tol2_pos|by apply Qclt_le_weak].
  Qed.

  Lemma step_upto (Hsmall : no_small_correlation n S) s f d : (f < s)%nat → (s < n)%nat → upto s f d →
    ∃ d', imap_step o inv g perm (f, s) d = Ok d' ∧ upto s (Datatypes.S f) d'.
  Proof using Hpd Hinv Hdim HS Hperm.
    intros Hf Hs (Hwf & HN & HA). pose proof (perm_len n perm Hperm) as Hlen.
    assert (is_Some (perm !! f)) as [x Hx'] by (apply lookup_lt_is_Some; lia). assert (is_Some (perm !! s)) as [y Hy'] by (apply lookup_lt_is_Some; lia).
    destruct (rk_lookup n perm Hperm f x Hx') as [Hx Hrx]. destruct (rk_lookup n perm Hperm s y Hy') as [Hy Hry].
    assert (x ≠ y) as Hxy by (intros ->; lia).
    assert (acyclic (d_arcs d)) as Hac. { eapply acyclic_sub; [apply (ee_acyclic n S Hpd perm)|]. intros [a b] H. by apply HA in H as [H _]. }
    unfold imap_step. cbn [fst snd]. rewrite Hx', Hy'.
    assert (∀ z, z ∈ markov_blanket_of d x → (z < n)%nat ∧ (rk z < rk y)%nat ∧ z ≠ x) as HM.
    { intros z [Hzx H]%markov_blanket_elem; [|done|done]. destruct H as [[H|H]|(c & H & H')].
      - apply HA in H as [H _]. apply ee_rk in H; [|done]. split_and!; [lia|lia|done].
      - apply HA in H as [H Hc]. apply ee_rk in H; [|done]. split_and!; [lia|lia|done].
      - apply HA in H as [H Hc]. apply HA in H' as [H' _]. apply ee_rk in H; [|done]. apply ee_rk in H'; [|done]. split_and!; [lia|lia|done]. }
    destruct (close_iff Hsmall (at_call o [206; f; s]%nat) x y (markov_blanket_of d x)) as (ab & -> & Hab); [done..| | | |].
    { intros H%HM. tauto. } { intros H%HM. lia. } { intros z H%HM. tauto. }
    cbn [res_bind]. rewrite (blanket_test n S Hpd perm Hperm x y _ Hx Hy) in Hab; [|lia|done|].
    2: { intros z Hz Hzx Hzr H. apply markov_blanket_elem; [done|done|]. split; [done|]. destruct H as [[H|H]|(c & Hc & H & H')].
      - left. left. apply HA. split; [done|]. lia.
      - left. right. apply HA. split; [done|]. lia.
      - right. exists c. split; apply HA; (split; [done|lia]). }
    destruct (is_close ab) eqn:Hcl.
    - exists d. split; [done|]. split; [done|]. split; [done|]. intros a b. rewrite HA. split; [intros [? ?]; split; [done|lia]|].
      intros [He Hor]. split; [done|]. destruct Hor as [?|[Hb Ha]]; [by left|]. right. split; [done|].
      destruct (decide (rk a = f)) as [Haf|]; [|lia]. pose proof (ee_rk n S Hpd perm _ _ He) as (Ha' & Hb' & _).
      assert (a = x) as -> by (apply (rk_inj n perm Hperm); [done|done|congruence]). assert (b = y) as -> by (apply (rk_inj n perm Hperm); [done|done|congruence]).
      exfalso. by apply (proj1 Hab).
    - assert ((x, y) ∈ ee) as He. { destruct (decide ((x, y) ∈ ee)) as [|Hne]; [done|]. apply Hab in Hne. done. }
      destruct (add_arc_checked (at_call o [207; f; s]%nat) x y d Hwf) as [(d' & -> & Hwf' & HN' & HA' & _)|(s' & e & _ & Hno)].
      + exists d'. split; [done|]. split; [done|]. split.
        * intros z. rewrite HN', HN. split; [intros [?|[->| ->]]; done|by left].
        * intros a b. rewrite HA', elem_of_union, elem_of_singleton, HA. split.
          -- intros [[= -> ->]|[? ?]]; (split; [done|]); lia.
          -- intros [He' Hor]. destruct (decide ((a, b) = (x, y))) as [|Hne]; [by left|]. right. split; [done|].
             destruct Hor as [?|[Hb Ha]]; [by left|]. right. split; [done|]. destruct (decide (rk a = f)) as [Haf|]; [|lia].
             pose proof (ee_rk n S Hpd perm _ _ He') as (Ha' & Hb' & _). destruct Hne. f_equal; apply (rk_inj n perm Hperm); (done || congruence).
      + exfalso. apply Hno. eapply acyclic_sub; [apply (ee_acyclic n S Hpd perm)|]. intros [a b]. rewrite elem_of_union, elem_of_singleton. intros [[= -> ->]|H]; [done|].
        by apply HA in H as [H _].
  Qed.

  Lemma inner_upto (Hsmall : no_small_correlation n S) s d : (s < n)%nat → upto s 0 d → ∀ f, (f ≤ s)%nat →
    ∃ d', loopR (imap_step o inv g perm) ((λ f, (f, s)) <$> seq 0 f) d = Ok d' ∧ upto s f d'.
  Proof using Hpd Hinv Hdim HS Hperm.
    intros Hs H0 f. induction f as [|f IH]; intros Hf; [by exists d|].
    destruct IH as (d1 & Hl & H1); [lia|]. destruct (step_upto Hsmall s f d1) as (d2 & Hst & H2); [lia|done|done|]. exists d2. split; [|done].
    rewrite seq_S, fmap_app. rewrite (loopR_app _ _ _ _ _ Hl). cbn [fmap list_fmap loopR plus]. by rewrite Hst.
  Qed.
  Lemma outer_upto (Hsmall : no_small_correlation n S) s : (s ≤ n)%nat →
    ∃ d', loopR (imap_step o inv g perm) (position_pairs s) (dag_init (u_nodes (gg_graph g))) = Ok d' ∧ upto s 0 d'.
  Proof using Hpd Hinv Hdim HS Hperm Hnodes.
    induction s as [|s IH]; intros Hs.
    - eexists. split; [done|]. split; [apply wf_init|]. split; [intros x; apply Hnodes|]. intros a b. split; [intros H; by apply elem_of_empty in H|]. intros [_ ?]. lia.
    - destruct IH as (d & Hl & Hd); [lia|]. destruct (inner_upto Hsmall s d) with (f := s) as (d' & Hl' & Hd'); [lia|done|done|].
      exists d'. split. { rewrite position_pairs_S, (loopR_app _ _ _ _ _ Hl). done. }
      destruct Hd' as (H1 & H2 & H3). split; [done|]. split; [done|]. intros a b. rewrite H3. split; [intros [He ?]; split; [done|lia]|].
      intros [He Hor]. split; [done|]. apply ee_rk in He; [|done]. lia.
  Qed.
  Lemma imap_ok (Hsmall : no_small_correlation n S) :
    ∃ d, ggm_imap o inv g perm = Ok d ∧ wf d ∧ (∀ x, x ∈ d_nodes d ↔ (x < n)%nat) ∧ d_arcs d = ee.
  Proof using Hpd Hinv Hdim HS Hperm Hnodes.
    destruct (outer_upto Hsmall n) as (d & Hl & H1 & H2 & H3); [done|]. exists d. split.
    { unfold ggm_imap. rewrite decide_True by (by eapply perm_nodup). by rewrite (perm_len n perm Hperm). }
    split; [done|]. split; [done|]. apply set_eq. intros [a b]. rewrite H3. split; [tauto|]. intros He. split; [done|].
    left. apply ee_rk in He as (_ & Hb & _); [|done]. apply (rk_at n perm Hperm) in Hb. apply lookup_lt_Some in Hb. by rewrite (perm_len n perm Hperm) in Hb.
  Qed.

  (** The regressions. *)
  Context (m : vec) (d : dag) (Hwf : wf d) (Harcs : d_arcs d = ee).
  Definition arcs_into (i : node) : list (arc * Qc) := (λ p, ((p, i), aa p i)) <$> on o [208%nat; i] (parents d i).
  Lemma regress_ok i arcs ms vs : (i < n)%nat →
    regress_step o inv g m d i (arcs, ms, vs) = Ok (arcs ++ arcs_into i, ms ++ [m i - qsum n (λ k, aa k i * m k)], vs ++ [dd i]).
  Proof using Hpd Hinv Hdim HS Hwf Harcs.
    intros Hi. unfold regress_step, arcs_into. rewrite HS, Hdim. set (ps := on o [208%nat; i] (parents d i)).
    assert (∀ p, p ∈ ps ↔ (p, i) ∈ ee) as Hps. { intros p. unfold ps. by rewrite elem_of_on, (wf_par d Hwf), Harcs. }
    assert (NoDup ps) as Hnd by apply NoDup_on.
    assert (in_range n ps) as Hr. { apply Forall_forall. intros p Hp%Hps. apply ee_rk in Hp; [|done]. tauto. }
    assert (i ∉ ps) as Hip. { intros H%Hps. apply ee_rk in H; [|done]. lia. }
    rewrite decide_True by (by constructor). cbv zeta.
    set (co := λ a, mmul (length ps) (inv (length ps) (mix_ ps ps S)) (λ a _, S (default O (ps !! a)) i) a O).
    pose proof (regression_spec inv n S ps i Hinv Hpd Hnd Hr Hi Hip) as HR. fold co in HR. set (R := λ x, 1 * eunit i x + - (1) * emb ps co x) in HR.
    assert (residual n S (list_to_set ps) i (rr i)) as HR'.
    { split.
      - intros z Hz Hn. rewrite elem_of_list_to_set, Hps, elem_ee in Hn. destruct (decide (aa z i = 0)) as [E|]; [|tauto].
        unfold GgmDagProofs.aa in E. transitivity (eunit i z - (eunit i z - rr i z)); [ring|]. rewrite E. ring.
      - intros z Hz Hin. rewrite elem_of_list_to_set, Hps in Hin. apply ee_rk in Hin; [|done]. apply (rr_res n S Hpd perm i); [done|]. apply elem_prevs. tauto. }
    assert (∀ z, (z < n)%nat → emb ps co z = aa z i) as Hco.
    { intros z Hz. pose proof (residual_unique n S Hpd _ _ _ _ HR HR' z Hz) as E. unfold R in E. unfold GgmDagProofs.aa. rewrite <-E. ring. }
    assert (∀ a, (a < length ps)%nat → co a = aa (default O (ps !! a)) i) as Hca.
    { intros a Ha. rewrite <-(emb_at ps Hnd co a Ha). apply Hco. by apply at_range. }
    f_equal. f_equal; [f_equal|].
    - f_equal. apply list_eq. intros a. rewrite lookup_zip_with, !list_lookup_fmap. destruct (ps !! a) as [p|] eqn:Hp; [|done]. cbn.
      rewrite lookup_seq_lt by (by eapply lookup_lt_Some). cbn. rewrite Hca by (by eapply lookup_lt_Some). by rewrite Hp.
    - f_equal. f_equal. f_equal. transitivity (qsum n (λ k, emb ps co k * m k)).
      2: { apply qsum_ext. intros k Hk. by rewrite Hco. }
      unfold emb. transitivity (qsum n (λ k, qsum (length ps) (λ a, co a * eunit (default O (ps !! a)) k * m k))).
      2: { apply qsum_ext. intros k _. apply qsum_mul_r. }
      rewrite qsum_swap. apply qsum_ext. intros a Ha. rewrite (qsum_one n _ (default O (ps !! a))).
      + unfold eunit. rewrite decide_True by done. unfold co. ring.
      + by apply at_range.
      + intros k _ Hk. unfold eunit. rewrite decide_False by done. ring.
    - f_equal. f_equal. unfold GgmDagProofs.dd. rewrite (residual_cov n S _ i i _ _ HR' HR').
      transitivity (cov R (eunit i)).
      2: { apply cov_ext; [|done]. intros z Hz. by apply (residual_unique n S Hpd _ _ _ _ HR HR'). }
      unfold R. rewrite cov_lin_l, cov_emb_unit by done. rewrite cov_unit_r by done. rewrite (qsum_one n _ i); [|done|].
      2: { intros k _ Hk. unfold eunit. rewrite decide_False by done. ring. }
      unfold eunit. rewrite decide_True by done. fold (length ps).
      rewrite (qsum_ext (length ps) (λ a, S i (default O (ps !! a)) * co a) (λ a, co a * S (default O (ps !! a)) i)); [ring|].
      intros a Ha. rewrite (proj1 Hpd i) by (done || by apply at_range). ring.
  Qed.
  Lemma regress_loop l arcs ms vs : (∀ i, i ∈ l → (i < n)%nat) →
    loopR (regress_step o inv g m d) l (arcs, ms, vs) =
      Ok (arcs ++ (l ≫= arcs_into), ms ++ ((λ i, m i - qsum n (λ k, aa k i * m k)) <$> l), vs ++ (dd <$> l)).
  Proof using Hpd Hinv Hdim HS Hwf Harcs.
    revert arcs ms vs. induction l as [|i l IH]; intros arcs ms vs Hl; cbn [loopR]; [by rewrite !app_nil_r|].
    rewrite regress_ok by (apply Hl; left). rewrite IH by (intros; apply Hl; by right). cbn. by rewrite <-!app_assoc.
  Qed.
  Lemma arcs_elem e w : (e, w) ∈ (perm ≫= arcs_into) ↔ e ∈ ee ∧ w = aa e.1 e.2.
  Proof using Hpd Hwf Harcs Hperm.
    rewrite elem_of_list_bind. unfold arcs_into. setoid_rewrite elem_of_list_fmap. setoid_rewrite elem_of_on. split.
    - intros (i & (p & [= -> ->] & Hp) & Hi). apply (wf_par d Hwf) in Hp. by rewrite Harcs in Hp.
    - destruct e as [p i]. cbn. intros [He ->]. exists i. split.
      + exists p. split; [done|]. apply (wf_par d Hwf). by rewrite Harcs.
      + apply (perm_in n perm Hperm). apply ee_rk in He; [|done]. tauto.
  Qed.
  Lemma arcs_nodup : NoDup ((perm ≫= arcs_into).*1).
  Proof using Hperm.
    pose proof (perm_nodup n perm Hperm) as Hnd. clear -Hnd. induction perm as [|i l IH]; [constructor|]. apply NoDup_cons in Hnd as [Hi Hnd].
    cbn. rewrite fmap_app. apply NoDup_app. split; [|split; [|by apply IH]].
    - unfold arcs_into. rewrite <-list_fmap_compose. apply NoDup_fmap_2; [|apply NoDup_on]. by intros a b [= ->].
    - intros e. unfold arcs_into. rewrite !elem_of_list_fmap. intros ((e1 & w) & -> & (p & [= -> ->] & _)%elem_of_list_fmap) ((e2 & w') & E & H).
      apply elem_of_list_bind in H as (j & (q & [= -> ->] & _)%elem_of_list_fmap & Hj). cbn in E. injection E as -> ->. done.
  Qed.
End run.
