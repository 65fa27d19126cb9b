(** The Markov properties of undirected Gaussian models. *)
From Coq Require Import QArith.Qcanon Field.
From Verif Require Import Py Spec SpecLin DagModel UGraphModel QMatModel GaussModel GaussLinModel QMatProofs LinProofs SemProofs InvProofs PartialProofs SchurProofs UGraphProofs.
#[local] Open Scope Qc_scope.

(** The rows of the inverse covariance matrix are the residuals of the regressions on all other variables. *)
Lemma inverse_residual n (S P : mat) x (W : nset) : posdef n S → is_inverse n S P → (x < n)%nat →
  (∀ y, y ∈ W ↔ (y < n)%nat ∧ y ≠ x) → residual n S W x (λ i, P i x / P x x).
Proof.
  intros Hpd HP Hx HW. pose proof (posdef_inverse n S P Hpd HP) as Hpp.
  assert (0 < P x x) as Hxx.
  { assert (lcov n P (eunit x) (eunit x) = P x x) as <-.
    { rewrite lcov_unit_l by done. rewrite (qsum_one n _ x); [|done|]; unfold eunit; [rewrite decide_True by done; ring|]. intros k _ Hk. rewrite decide_False by done. ring. }
    apply Hpp. exists x. split; [done|]. unfold eunit. by rewrite decide_True. }
  pose proof (Qc_lt_ne _ Hxx) as H0. split.
  - intros i Hi HiW. destruct (decide (i = x)) as [->|Hne]; [|destruct HiW; by apply HW]. unfold eunit. rewrite decide_True by done. field. done.
  - intros z Hz Hzx%HW. rewrite cov_unit_r by done. transitivity (/ P x x * qsum n (λ i, S z i * P i x)).
    { rewrite <-qsum_mul_l. apply qsum_ext. intros i Hi. rewrite (proj1 Hpd i z) by done. unfold Qcdiv. ring. }
    pose proof (proj1 HP z x Hz Hx) as E. unfold mmul, mid in E. rewrite E. rewrite decide_False by apply Hzx. ring.
Qed.
Lemma inverse_unc n (S P : mat) x y (W : nset) : posdef n S → is_inverse n S P → (x < n)%nat → (y < n)%nat → x ≠ y →
  (∀ z, z ∈ W ↔ (z < n)%nat ∧ z ≠ x ∧ z ≠ y) → P x y = 0 ↔ uncorrelated n S W x y.
Proof.
  intros Hpd HP Hx Hy Hxy HW. pose proof (posdef_inverse n S P Hpd HP) as Hpp. set (B := W ∪ {[y]}).
  assert (∀ z, z ∈ B ↔ (z < n)%nat ∧ z ≠ x) as HB.
  { intros z. unfold B. rewrite elem_of_union, HW, elem_of_singleton. destruct (decide (z = y)) as [->|]; naive_solver. }
  pose proof (inverse_residual n S P x B Hpd HP Hx HB) as Hres.
  pose proof (unc_coef n S Hpd B x y _ Hres Hy) as Hiff. replace (B ∖ {[y]}) with W in Hiff.
  2: { apply set_eq. intros z. rewrite elem_of_difference, HB, HW, elem_of_singleton. tauto. }
  rewrite <-Hiff; [|by apply HB|done]. assert (P x x ≠ 0) as H0.
  { apply Qc_lt_ne. assert (lcov n P (eunit x) (eunit x) = P x x) as <-.
    { rewrite lcov_unit_l by done. rewrite (qsum_one n _ x); [|done|]; unfold eunit; [rewrite decide_True by done; ring|]. intros k _ Hk. rewrite decide_False by done. ring. }
    apply Hpp. exists x. split; [done|]. unfold eunit. by rewrite decide_True. }
  rewrite (proj1 Hpp y x) by done. split; [intros ->; field; done|]. intros E. transitivity (P x y / P x x * P x x); [field; done|]. rewrite E. ring.
Qed.

(** The pairwise Markov property implies the global one. *)
Section global.
  Context (n : nat) (S : mat) (Hpd : posdef n S) (adj : node → node → Prop) (Hadj : ∀ a b, adj a b → adj b a).
  Context (Hpair : ∀ x y (W : nset), (x < n)%nat → (y < n)%nat → x ≠ y → ¬ adj x y → (∀ z, z ∈ W ↔ (z < n)%nat ∧ z ≠ x ∧ z ≠ y) → uncorrelated n S W x y).
  Notation step W := (λ a b, adj a b ∧ b ∉ (W : nset)).
  Lemma usep_sym (W : nset) x y : x ∉ W → y ∉ W → useparated adj W x y → useparated adj W y x.
  Proof using Hadj.
    intros Hx Hy Hsep Hr. apply Hsep. clear Hsep. induction Hr as [|a b c [Hab Hb] _ IH]; [done|].
    eapply rtc_r; [by apply IH|]. split; [by apply Hadj|done].
  Qed.
  Lemma usep_mono (W W' : nset) x y : W ⊆ W' → useparated adj W x y → useparated adj W' x y.
  Proof using. intros HW Hsep Hr. apply Hsep. eapply rtc_subrel; [|exact Hr]. intros a b [Hab Hb]. split; [done|]. clear -HW Hb. set_solver. Qed.
  Lemma unc_global (W : nset) x y : (x < n)%nat → (y < n)%nat → x ≠ y → x ∉ W → y ∉ W → (∀ w, w ∈ W → (w < n)%nat) →
    useparated adj W x y → uncorrelated n S W x y.
  Proof using Hpd Hadj Hpair.
    remember (n - size W)%nat as k eqn:Hk. revert W x y Hk. induction k as [k IH] using lt_wf_ind. intros W x y -> Hx Hy Hxy HxW HyW HW Hsep.
    destruct (decide (Exists (λ z, z ∉ W ∧ z ≠ x ∧ z ≠ y) (seq 0 n))) as [He|He].
    2: { apply Hpair; [done..| |].
      - intros Ha. apply Hsep. apply rtc_once. done.
      - intros z. split; [intros Hz; split; [by apply HW|split; intros ->; done]|]. intros (Hz & Hzx & Hzy). destruct (decide (z ∈ W)) as [|Hzn]; [done|].
        destruct He. apply Exists_exists. exists z. split; [apply elem_of_seq; lia|done]. }
    apply Exists_exists in He as (z & Hz & HzW & Hzx & Hzy). apply elem_of_seq in Hz.
    assert (size W < n)%nat as Hsz.
    { assert (W ∪ {[z]} ⊆ list_to_set (seq 0 n)) as Hsub. { intros w. rewrite elem_of_list_to_set, elem_of_seq, elem_of_union, elem_of_singleton. intros [?%HW| ->]; lia. }
      apply subseteq_size in Hsub. rewrite size_list_to_set, seq_length in Hsub by apply NoDup_seq. rewrite size_union, size_singleton in Hsub by set_solver. lia. }
    assert (∀ (v : node), v ∉ W → size (W ∪ {[v]}) = (1 + size W)%nat) as Hsv by (intros v Hv; rewrite size_union, size_singleton by set_solver; lia).
    apply (unc_stable n S Hpd). intros Hnot.
    assert (uncorrelated n S (W ∪ {[z]}) x y) as Hxyz.
    { apply (IH (n - size (W ∪ {[z]}))%nat); [rewrite Hsv by done; lia|done|done|done|done| | | |].
      - clear -HxW Hzx. set_solver.
      - clear -HyW Hzy. set_solver.
      - intros w [?|Hw]%elem_of_union; [by apply HW|]. apply elem_of_singleton in Hw. subst. lia.
      - eapply usep_mono; [|exact Hsep]. set_solver. }
    assert (¬ useparated adj W x z) as H1.
    { intros Hs. apply Hnot. apply (unc_inter n S Hpd W x y z); [done|done|].
      apply (IH (n - size (W ∪ {[y]}))%nat); [rewrite Hsv by done; lia|done|done|lia|done| | | |].
      - clear -HxW Hxy. set_solver.
      - clear -HzW Hzy. set_solver.
      - intros w [?|Hw]%elem_of_union; [by apply HW|]. apply elem_of_singleton in Hw. by subst.
      - eapply usep_mono; [|exact Hs]. set_solver. }
    apply H1. intros Hxz. assert (¬ useparated adj W y z) as H2.
    { intros Hs. apply Hnot. apply unc_sym; [done|]. apply (unc_inter n S Hpd W y x z); [done|by apply unc_sym|].
      apply (IH (n - size (W ∪ {[x]}))%nat); [rewrite Hsv by done; lia|done|done|lia|done| | | |].
      - clear -HyW Hxy. set_solver.
      - clear -HzW Hzx. set_solver.
      - intros w [?|Hw]%elem_of_union; [by apply HW|]. apply elem_of_singleton in Hw. by subst.
      - eapply usep_mono; [|exact Hs]. set_solver. }
    apply H2. intros Hyz. apply Hsep. eapply rtc_transitive; [exact Hxz|].
    clear -Hyz Hadj HyW HzW. induction Hyz as [|a b c [Hab Hb] _ IH]; [done|]. eapply rtc_r; [by apply IH|]. split; [by apply Hadj|done].
  Qed.
End global.

(** The edges of a [GGM]. *)
Lemma ggm_edges o flip n P : (∀ i j, (i < n)%nat → (j < n)%nat → P i j = P j i) → ∀ i j, upair i j ∈ u_edges (gg_graph (ggm_make o flip n P)) ↔ i ≠ j ∧ (i < n)%nat ∧ (j < n)%nat ∧ P i j ≠ 0.
Proof.
  intros HP i j. unfold ggm_make. cbn [gg_graph]. destruct (ug_make_ok o flip (list_to_set (seq 0 n)) (filter (λ e : arc, (e.1 < e.2)%nat ∧ P e.1 e.2 ≠ 0) (list_to_set (i ← seq 0 n; j ← seq 0 n; [(i, j)])))) as (_ & _ & -> & _).
  assert (∀ a b, (a, b) ∈ (list_to_set (i ← seq 0 n; j ← seq 0 n; [(i, j)]) : arcset) ↔ (a < n)%nat ∧ (b < n)%nat) as Hin.
  { intros a b. rewrite elem_of_list_to_set, elem_of_list_bind. split.
    - intros (a' & Hab & Ha). apply elem_of_list_bind in Hab as (b' & Hab & Hb). apply elem_of_list_singleton in Hab as [= -> ->]. apply elem_of_seq in Ha, Hb. lia.
    - intros [Ha Hb]. exists a. split; [|apply elem_of_seq; lia]. apply elem_of_list_bind. exists b. split; [by apply elem_of_list_singleton|apply elem_of_seq; lia]. }
  rewrite !elem_of_filter, !Hin. cbn. split.
  - intros (Hij & [((Hlt & HP0) & Hi & Hj)|((Hlt & HP0) & Hj & Hi)]); split_and!; try done. by rewrite HP.
  - intros (Hij & Hi & Hj & HP0). split; [done|]. destruct (decide (i < j)%nat); [left|right]; split_and!; try done; [lia|by rewrite <-HP].
Qed.
