(** Final theorems about [GaussDAG.normalize_weights] and [GaussDAG.round_weights]: C128. *)
From Coq Require Import QArith.Qcanon Field.
From Verif Require Import Py Spec DagModel QMatModel GaussModel GaussRoundModel TopoProofs StateProofs ReachProofs CoreProofs MarkovProofs QMatProofs PropertiesDag GaussProofs GaussLoops PropertiesGauss PropertiesGauss2 QcTac ConvProofs QueryProofs.
#[local] Open Scope Qc_scope.

(** *** Rounding *)
Lemma rint_Z (n d q r : Z) : (0 < d → 2 * n + d = 2 * d * q + r → 0 <= r < 2 * d →
  let z := if decide (r = 0 ∧ Z.odd q = true) then q - 1 else q in
  (- d <= 2 * (n - z * d) <= d ∧ (2 * (n - z * d) = d ∨ 2 * (n - z * d) = - d → Z.even z = true)))%Z.
Proof.
  intros Hd E Hr. cbn zeta. case_decide as Hc.
  - destruct Hc as [-> Ho]. split; [lia|]. intros _. rewrite Z.even_sub, <-Z.negb_odd, Ho. done.
  - split; [lia|]. intros [H|H]; [lia|]. assert (r = 0)%Z as -> by lia. rewrite <-Z.negb_odd. destruct (Z.odd q); [|done]. destruct Hc. done.
Qed.
Lemma rint_num (y : Qc) : let n := QArith_base.Qnum (this y) in let d := Z.pos (QArith_base.Qden (this y)) in
  (- d <= 2 * (n - rint y * d) <= d ∧ (2 * (n - rint y * d) = d ∨ 2 * (n - rint y * d) = - d → Z.even (rint y) = true))%Z.
Proof.
  cbn zeta. unfold rint. set (n := QArith_base.Qnum (this y)). set (d := Z.pos (QArith_base.Qden (this y))).
  assert (0 < d)%Z as Hd by (unfold d; lia). clearbody n d.
  apply rint_Z; [done|apply Z.div_mod; lia|apply Z.mod_pos_bound; lia].
Qed.
Lemma le_num (y : Qc) (a b : Z) : qz a <= qz b * y ↔ (a * Z.pos (QArith_base.Qden (this y)) <= b * QArith_base.Qnum (this y))%Z.
Proof.
  unfold Qcle, qz. cbn [this Q2Qc Qcmult]. rewrite !Qreduction.Qred_correct. unfold QArith_base.Qle. cbn. lia.
Qed.
Lemma ge_num (y : Qc) (a b : Z) : qz b * y <= qz a ↔ (b * QArith_base.Qnum (this y) <= a * Z.pos (QArith_base.Qden (this y)))%Z.
Proof.
  unfold Qcle, qz. cbn [this Q2Qc Qcmult]. rewrite !Qreduction.Qred_correct. unfold QArith_base.Qle. cbn. lia.
Qed.
Lemma qz_mul a b : qz (a * b) = qz a * qz b.
Proof. apply Qc_eq_this. rewrite this_mul, !this_qz, QArith_base.inject_Z_mult. reflexivity. Qed.
Lemma rint_near (y : Qc) : - (1) <= qz 2 * (y - qz (rint y)) <= 1 ∧
  (qz 2 * (y - qz (rint y)) = 1 ∨ qz 2 * (y - qz (rint y)) = - (1) → Z.even (rint y) = true).
Proof.
  destruct (rint_num y) as [[H1 H2] H3]. set (z := rint y) in *. clearbody z.
  assert (qz 2 * (y - qz z) = qz 2 * y - qz (2 * z)) as -> by (rewrite qz_mul; ring).
  assert (qz (2 * z + 1) = qz (2 * z) + 1) as Hp by (rewrite qz_add; done).
  assert (qz (2 * z + -1) = qz (2 * z) - 1) as Hm by (rewrite qz_add; done).
  split; [split|].
  - assert (qz (2 * z + -1) <= qz 2 * y) as H by (apply le_num; lia). rewrite Hm in H. clear - H. qlra.
  - assert (qz 2 * y <= qz (2 * z + 1)) as H by (apply ge_num; lia). rewrite Hp in H. clear - H. qlra.
  - intros H. apply H3. clear H3. destruct H as [H|H].
    + assert (qz 2 * y = qz (2 * z + 1)) as E by (rewrite Hp, <-H; ring).
      pose proof (proj1 (le_num y (2 * z + 1) 2) ltac:(rewrite E; apply Qcle_refl)). pose proof (proj1 (ge_num y (2 * z + 1) 2) ltac:(rewrite E; apply Qcle_refl)). left. lia.
    + assert (qz 2 * y = qz (2 * z + -1)) as E by (rewrite Hm; transitivity (qz 2 * y - qz (2 * z) + qz (2 * z)); [ring|rewrite H; ring]).
      pose proof (proj1 (le_num y (2 * z + -1) 2) ltac:(rewrite E; apply Qcle_refl)). pose proof (proj1 (ge_num y (2 * z + -1) 2) ltac:(rewrite E; apply Qcle_refl)). right. lia.
Qed.
Lemma rint_zero (y : Qc) : rint y ≠ 0%Z ↔ 1 < qz 2 * y ∨ qz 2 * y < - (1).
Proof.
  destruct (rint_num y) as [H12 H3]. set (z := rint y) in *. clearbody z.
  change (1) with (qz 1). change (- qz 1) with (qz (-1)).
  assert (qz 1 < qz 2 * y ↔ ¬ qz 2 * y <= qz 1) as -> by (split; [apply Qclt_not_le|apply Qcnot_le_lt]).
  assert (qz 2 * y < qz (-1) ↔ ¬ qz (-1) <= qz 2 * y) as -> by (split; [apply Qclt_not_le|apply Qcnot_le_lt]).
  rewrite le_num, ge_num. set (n := QArith_base.Qnum (this y)) in *. set (d := Z.pos (QArith_base.Qden (this y))) in *.
  assert (0 < d)%Z as Hd by (unfold d; lia). clearbody n d. split.
  - intros Hz. destruct (decide (2 * n <= 1 * d)%Z) as [Hl|]; [|by left]. destruct (decide (-1 * d <= 2 * n)%Z) as [Hr|]; [|by right]. exfalso.
    assert (z = 1 ∨ z = -1)%Z as Hz1 by nia.
    destruct Hz1 as [-> | ->]; (assert (Z.even _ = true) as He by (apply H3; lia)); done.
  - intros Hor ->. lia.
Qed.
Lemma ten_pos (k : nat) : 0 < qz (10 ^ Z.of_nat k).
Proof. apply Qclt_this. rewrite this_qz. change (this 0) with (QArith_base.inject_Z 0). rewrite <-QArith_base.Zlt_Qlt. lia. Qed.
Lemma ten_ne (k : nat) : qz (10 ^ Z.of_nat k) ≠ 0.
Proof. intros E. pose proof (ten_pos k) as H. rewrite E in H. by destruct (Qclt_not_eq _ _ H). Qed.
Lemma around_zero (k : nat) (x : Qc) : around k x ≠ 0 ↔ 1 < qz 2 * qz (10 ^ Z.of_nat k) * x ∨ qz 2 * qz (10 ^ Z.of_nat k) * x < - (1).
Proof.
  pose proof (ten_ne k) as Hne. unfold around. set (T := qz (10 ^ Z.of_nat k)) in *.
  assert (qz 2 * T * x = qz 2 * (x * T)) as -> by ring. rewrite <-rint_zero. split.
  - intros H E. apply H. rewrite E. change (qz 0) with 0. by field.
  - intros H E. apply H. apply qz_inj. transitivity (qz (rint (x * T)) / T * T); [by field|]. rewrite E. change (qz 0) with 0. ring.
Qed.

(** ** C128: rounding and normalizing the weights *)

(** [round_weights(k)] always returns.  With one unit being [10 ^ -k], each weight becomes a
    whole number of units at most half a unit away, the even one of two.  An arc stays iff
    its weight is more than half a unit from 0.  The nodes are numbered anew, and the
    variances are 1 and the biases 0, whatever they were. *)
Theorem C128_round (o : oracle) (k : nat) (g : gauss) : gauss_wf g →
  let unit := / qz (10 ^ Z.of_nat k) in
  ∃ g', round_weights o k g = Ok g' ∧ gauss_wf g' ∧ g_list g' = seq 0 (g_dim g) ∧ fresh g' ∧
    g_var g' = replicate (g_dim g) 1 ∧ g_bias g' = replicate (g_dim g) 0 ∧
    ∀ a b u v, g_list g !! a = Some u → g_list g !! b = Some v →
      (∃ z, weight g' a b = qz z * unit ∧ - unit <= qz 2 * (weight g u v - weight g' a b) <= unit ∧
        (qz 2 * (weight g u v - weight g' a b) = unit ∨ qz 2 * (weight g u v - weight g' a b) = - unit → Z.even z = true)) ∧
      ((a, b) ∈ d_arcs (g_dag g') ↔ unit < qz 2 * weight g u v ∨ qz 2 * weight g u v < - unit).
Proof.
  intros Hwf. cbn zeta. unfold round_weights.
  destruct (C79_from_amat o (g_dim g) (λ i j, around k (g_w g i j)) None None) as (g' & Hg' & Hwf' & Hl & HW & HE & Hv & Hb & Hf).
  exists g'. split; [done|]. split; [done|]. split; [done|]. split; [done|]. split; [done|]. split; [done|].
  intros a b u v Ha Hb'.
  assert (a < g_dim g)%nat as Ha' by (eapply lookup_lt_Some; exact Ha). assert (b < g_dim g)%nat as Hb'' by (eapply lookup_lt_Some; exact Hb').
  rewrite (lab_weight g' (g_dim g) Hwf' Hl a b), (HW a b) by done. rewrite HE.
  destruct Hwf as (_ & _ & _ & Hix & _). assert (weight g u v = g_w g a b) as ->.
  { unfold weight. by rewrite (proj2 (Hix u a) Ha), (proj2 (Hix v b) Hb'). }
  set (x := g_w g a b). clearbody x. rewrite around_zero.
  pose proof (ten_ne k) as Hne. pose proof (ten_pos k) as Hpos. pose proof (rint_near (x * qz (10 ^ Z.of_nat k))) as [[H1 H2] H3].
  unfold around. set (T := qz (10 ^ Z.of_nat k)) in *. set (z := rint (x * T)) in *.
  assert (qz 2 * (x - qz z / T) = qz 2 * (x * T - qz z) * / T) as E by (by field).
  assert (0 < / T) as Hi.
  { destruct (Qclt_le_dec 0 (/ T)) as [|Hle]; [done|]. exfalso. apply (Qclt_not_le 0 1); [done|]. rewrite <-(Qcmult_inv_r T Hne). clear - Hle Hpos. qnra. }
  assert (T * / T = 1) as HTi by (by apply Qcmult_inv_r). rewrite E.
  split.
  - clear E. exists z. split; [done|]. generalize dependent (qz 2 * (x * T - qz z)). intros y H1 H2 H3. generalize dependent (/ T). intros t Ht HTt. split.
    + pose proof (Qcmult_le_compat_r _ _ t H1 (Qclt_le_weak _ _ Ht)) as H4. pose proof (Qcmult_le_compat_r _ _ t H2 (Qclt_le_weak _ _ Ht)) as H5.
      rewrite Qcmult_1_l in H5. replace (- (1) * t) with (- t) in H4 by ring. done.
    + intros [Hy|Hy]; apply H3; [left|right].
      * transitivity (y * t * T); [rewrite <-(Qcmult_1_r y) at 1; rewrite <-HTt; ring|]. rewrite Hy, <-HTt. ring.
      * transitivity (y * t * T); [rewrite <-(Qcmult_1_r y) at 1; rewrite <-HTt; ring|]. rewrite Hy, <-HTt. ring.
  - clear E H1 H2 H3. clearbody z. set (t := / T) in *. clearbody t T. assert (qz 2 * T * x = T * (qz 2 * x)) as -> by ring. generalize (qz 2 * x) as w. intros w. split.
    + intros (_ & _ & [H|H]); [left|right].
      * assert (w = T * w * t) as -> by (transitivity (w * (T * t)); [rewrite HTi; ring|ring]). clear - H Hi. set (q := T * w) in *. clearbody q. qnra.
      * assert (w = T * w * t) as -> by (transitivity (w * (T * t)); [rewrite HTi; ring|ring]). clear - H Hi. set (q := T * w) in *. clearbody q. qnra.
    + intros H. split; [done|]. split; [done|]. destruct H as [H|H]; [left|right]; rewrite <-HTi; clear - H Hpos; qnra.
Qed.

(** If the nodes are numbered from 0, no arc is added, so the result of rounding the weights of
    an acyclic graph is acyclic. *)
Corollary C128_round_acyclic (o : oracle) (k : nat) (g g' : gauss) : gauss_wf g → g_list g = seq 0 (g_dim g) →
  round_weights o k g = Ok g' → d_nodes (g_dag g') = d_nodes (g_dag g) ∧ d_arcs (g_dag g') ⊆ d_arcs (g_dag g) ∧
    (acyclic (d_arcs (g_dag g)) → acyclic (d_arcs (g_dag g'))).
Proof.
  intros Hwf Hl E. destruct (C128_round o k g Hwf) as (g1 & E1 & Hwf1 & Hl1 & _ & _ & _ & H). rewrite E1 in E. injection E as ->.
  assert (d_arcs (g_dag g') ⊆ d_arcs (g_dag g)) as Hsub.
  { intros [a b] Hab. assert (a < g_dim g ∧ b < g_dim g)%nat as [Ha Hb].
    { destruct Hwf1 as (Hva & _ & Hn & _). pose proof (proj2 (wf_views_agree _) Hva) as Hw. split.
      - assert (a ∈ g_list g') as Hin by (apply Hn; by apply (wf_over _ Hw a b)). rewrite Hl1 in Hin. apply elem_of_seq in Hin. lia.
      - assert (b ∈ g_list g') as Hin by (apply Hn; by apply (wf_over _ Hw a b)). rewrite Hl1 in Hin. apply elem_of_seq in Hin. lia. }
    destruct (H a b a b) as [_ HE]; [rewrite Hl; by apply lookup_seq_lt..|].
    apply HE in Hab. destruct Hwf as (_ & _ & _ & _ & HA). apply HA. intros E0. rewrite E0 in Hab.
    clear H HE. pose proof (ten_pos k) as Hpos. pose proof (Qcmult_inv_r _ (ten_ne k)) as HTi. set (T := qz (10 ^ Z.of_nat k)) in *. generalize dependent (/ T). intros t Hab HTi.
    assert (0 < t) as Ht.
    { destruct (Qclt_le_dec 0 t) as [|Hle]; [done|]. exfalso. apply (Qclt_not_le 0 1); [done|]. rewrite <-HTi. clear - Hle Hpos. qnra. }
    rewrite (Qcmult_comm (qz 2)), Qcmult_0_l in Hab. clear - Hab Ht. destruct Hab as [Hab|Hab]; qlra. }
  split; [|split; [done|]].
  - apply set_eq. intros v. destruct Hwf as (_ & _ & Hn & _), Hwf1 as (_ & _ & Hn1 & _). by rewrite Hn, Hn1, Hl1, <-Hl.
  - intros Hac. by eapply acyclic_sub.
Qed.

(** [normalize_weights] computes the covariance, if it was not stored, and then raises iff some
    arc goes from a node to a node that comes later in the list of nodes; otherwise it
    returns a graph without arcs. *)
Theorem C128_normalize (o : oracle) (inv : nat → mat → mat) (g : gauss) : gauss_wf g → length (g_var g) = g_dim g →
  (normalize_weights o inv g).1 = (read_covariance inv g).1 ∧
  let forward := ∃ a b u v, (a < b)%nat ∧ g_list g !! a = Some u ∧ g_list g !! b = Some v ∧ (u, v) ∈ d_arcs (g_dag g) in
  (forward → (normalize_weights o inv g).2 = Raise TypeError) ∧
  (¬ forward → ∃ g', (normalize_weights o inv g).2 = Ok g' ∧ gauss_wf g' ∧ g_list g' = seq 0 (g_dim g) ∧ d_arcs (g_dag g') = ∅).
Proof.
  intros Hwf Hlen. pose proof (gauss_size g Hwf) as Hsz.
  assert (∃ c, (read_covariance inv g).2 = Ok c) as [c Hc].
  { unfold read_covariance. destruct (g_cov g) as [c|]; [by exists c|]. unfold covariance_of. rewrite decide_True by done.
    case_decide; [by eexists|]. rewrite decide_True by done. by eexists. }
  assert (g_w (read_covariance inv g).1 = g_w g ∧ g_dag (read_covariance inv g).1 = g_dag g ∧ g_list (read_covariance inv g).1 = g_list g) as (Ew & Ed & El).
  { unfold read_covariance. destruct (g_cov g) as [c'|]; [done|]. by destruct (covariance_of inv g). }
  unfold normalize_weights. destruct (read_covariance inv g) as [g1 r] eqn:ER. cbn in Hc, Ew, Ed, El |- *. subst r. cbn [fst snd]. split; [done|].
  assert (g_dim g1 = g_dim g) as En by (unfold g_dim; by rewrite El). rewrite Ew, Ed, En, Hsz. clear ER.
  assert (∀ a b, (a, b) ∈ combinations2 (seq 0 (g_dim g)) ↔ (a < b < g_dim g)%nat) as Hcomb.
  { intros a b. rewrite elem_of_combinations2. split.
    - intros (l1 & l2 & l3 & E). assert (NoDup (seq 0 (g_dim g))) as Hnd by apply NoDup_seq.
      assert (seq 0 (g_dim g) !! length l1 = Some a) as H1 by (rewrite E; by apply list_lookup_middle).
      assert (seq 0 (g_dim g) !! (length l1 + S (length l2))%nat = Some b) as H2.
      { rewrite E, lookup_app_r by lia. replace (length l1 + S (length l2) - length l1)%nat with (S (length l2)) by lia. cbn. by apply list_lookup_middle. }
      apply lookup_seq in H1 as [-> _]. apply lookup_seq in H2 as [-> ?]. lia.
    - intros [Hab Hb]. exists (seq 0 a), (seq (S a) (b - S a)), (seq (S b) (g_dim g - S b)).
      replace (g_dim g) with (a + (1 + ((b - S a) + (1 + (g_dim g - S b)))))%nat at 1 by lia. rewrite !seq_app. cbn. do 3 f_equal; [f_equal; lia|]. f_equal; [lia|f_equal; lia]. }
  assert (∀ a b u v, g_list g !! a = Some u → g_list g !! b = Some v → (u, v) ∈ d_arcs (g_dag g) ↔ g_w g a b ≠ 0) as Harc.
  { intros a b u v Ha Hb. destruct Hwf as (_ & _ & _ & Hix & HA). rewrite HA. unfold weight. by rewrite (proj2 (Hix u a) Ha), (proj2 (Hix v b) Hb). }
  set (f := λ (e : nat * nat) (W : mat), if decide (g_w g e.1 e.2 ≠ 0) then Raise TypeError else Ok W).
  split.
  - intros (a & b & u & v & Hab & Ha & Hb & He). assert (loopR f (combinations2 (seq 0 (g_dim g))) mzero = Raise TypeError) as ->; [|done].
    assert ((a, b) ∈ combinations2 (seq 0 (g_dim g))) as Hin. { apply Hcomb. apply lookup_lt_Some in Hb. unfold g_dim. lia. }
    apply (Harc a b u v Ha Hb) in He. generalize mzero. revert Hin. generalize (combinations2 (seq 0 (g_dim g))). intros l Hin. induction l as [|e l IH]; [by apply elem_of_nil in Hin|].
    intros W. cbn [loopR]. unfold f at 1. case_decide as Hd; [done|]. cbn [res_bind]. apply IH. apply elem_of_cons in Hin as [<-|]; done.
  - intros Hno. assert (loopR f (combinations2 (seq 0 (g_dim g))) mzero = Ok mzero) as ->.
    { assert (Forall (λ e, g_w g e.1 e.2 = 0) (combinations2 (seq 0 (g_dim g)))) as HF.
      { apply Forall_forall. intros [a b] Hin%Hcomb. cbn. destruct (decide (g_w g a b = 0)) as [|Hne]; [done|]. exfalso. apply Hno.
        destruct (lookup_lt_is_Some_2 (g_list g) a) as [u Hu]; [unfold g_dim in *; lia|]. destruct (lookup_lt_is_Some_2 (g_list g) b) as [v Hv]; [unfold g_dim in *; lia|].
        exists a, b, u, v. split; [lia|]. split; [done|]. split; [done|]. by apply (Harc a b u v). }
      clear Hcomb. induction HF as [|e l He HF IH]; [done|]. cbn [loopR]. unfold f at 1. rewrite decide_False by (rewrite He; tauto). exact IH. }
    cbn [res_bind]. destruct (C79_from_amat o (g_dim g) mzero None None) as (g' & Hg' & Hwf' & Hl & _ & HE & _).
    exists g'. split; [done|]. split; [done|]. split; [done|]. apply set_eq. intros [i j]. rewrite HE. split; [intros (_ & _ & H); by destruct H|]. intros H. by apply elem_of_empty in H.
Qed.

(** What the two do not keep.  Rounding loses the variances, the biases and the names of the
    nodes. *)
Theorem C128_round_keeps_refuted : ∃ g g', gauss_wf g ∧ acyclic (d_arcs (g_dag g)) ∧ round_weights oracle0 2 g = Ok g' ∧
  g_var g = [qz 4; qz 9] ∧ g_var g' = [1; 1] ∧ g_bias g = [qz 5; qz 6] ∧ g_bias g' = [0; 0] ∧
  g_list g = [7; 3]%nat ∧ g_list g' = [0; 1]%nat.
Proof.
  destruct (gauss_new_spec oracle0 [7; 3]%nat [((7, 3)%nat, qz 2)] (Some [qz 5; qz 6]) (Some [qz 4; qz 9])) as (g & Hg & Hwf & Hl & _ & Hv & Hb & _).
  { by apply (bool_decide_unpack _). } { by apply (bool_decide_unpack _). }
  { intros e w. rewrite !elem_of_cons, elem_of_nil. intros [[= -> ->]|[]]; cbn; split; apply (bool_decide_unpack _); done. }
  assert (match gauss_make oracle0 [7; 3]%nat [((7, 3)%nat, qz 2)] (Some [qz 5; qz 6]) (Some [qz 4; qz 9]) with
    | Ok g => bool_decide (acyclic (d_arcs (g_dag g))) | Raise _ => false end = true) as H by by_vm.
  rewrite Hg in H. apply bool_decide_eq_true in H. destruct (C128_round oracle0 2 g Hwf) as (g' & E & _ & Hl' & _ & Hv' & Hb' & _).
  assert (g_dim g = 2%nat) as Hn by (unfold g_dim; by rewrite Hl). rewrite Hn in Hv', Hb', Hl'. exists g, g'. by split_and!.
Qed.

(** "Return a GaussDAG with the same skeleton": the only arc of this graph is lost. *)
Theorem C128_normalize_skeleton_refuted : ∃ g g', gauss_wf g ∧ acyclic (d_arcs (g_dag g)) ∧ variances_ok g ∧ fresh g ∧ d_arcs (g_dag g) = {[(1, 0)%nat]} ∧
  (normalize_weights oracle0 series_inv g).2 = Ok g' ∧ d_arcs (g_dag g') = ∅.
Proof.
  destruct (gauss_new_spec oracle0 [0; 1]%nat [((1, 0)%nat, qz 2)] None None) as (g & Hg & Hwf & Hl & _ & Hv & _ & Hfp & Hfc).
  { by apply (bool_decide_unpack _). } { by apply (bool_decide_unpack _). }
  { intros e w. rewrite !elem_of_cons, elem_of_nil. intros [[= -> ->]|[]]; cbn; split; apply (bool_decide_unpack _); done. }
  assert (match gauss_make oracle0 [0; 1]%nat [((1, 0)%nat, qz 2)] None None with
    | Ok g => bool_decide (acyclic (d_arcs (g_dag g)) ∧ d_arcs (g_dag g) = {[(1, 0)%nat]}) | Raise _ => false end = true) as H by by_vm.
  rewrite Hg in H. apply bool_decide_eq_true in H as [Hac HE]. cbn in Hv.
  assert (g_dim g = 2%nat) as Hn by (unfold g_dim; by rewrite Hl).
  assert (length (g_var g) = g_dim g) as Hlen by (by rewrite Hv, Hn).
  destruct (C128_normalize oracle0 series_inv g Hwf Hlen) as (_ & _ & HB). destruct HB as (g' & E & _ & _ & Hempty).
  { intros (a & b & u & v & Hab & Ha & Hb & He). rewrite HE in He. apply elem_of_singleton in He as [= -> ->]. rewrite Hl in Ha, Hb.
    destruct a as [|[|a]]; cbn in Ha; try done. destruct b as [|[|b]]; cbn in Hb; try done. lia. }
  assert (variances_ok g) as Hok by (split; [done|]; rewrite Hv; by apply (bool_decide_unpack _)).
  exists g, g'. split; [done|]. split; [done|]. split; [done|]. split; [done|]. done.
Qed.

(** The weights 0.005, 0.015 and 0.0349 become 0, 0.02 and 0.03. *)
Example C128_example : ∃ g g', gauss_wf g ∧ g_list g = seq 0 (g_dim g) ∧ length (g_var g) = g_dim g ∧
  (0, 1)%nat ∈ d_arcs (g_dag g) ∧ round_weights oracle0 2 g = Ok g' ∧
  d_arcs (g_dag g') = {[(0, 2)%nat; (1, 2)%nat]} ∧ g_w g' 0%nat 2%nat = qz 2 / qz 100 ∧ g_w g' 1%nat 2%nat = qz 3 / qz 100 ∧
  (normalize_weights oracle0 series_inv g).2 = Raise TypeError.
Proof.
  destruct (gauss_new_spec oracle0 [0; 1; 2]%nat [((0, 1)%nat, qz 5 / qz 1000); ((0, 2)%nat, qz 15 / qz 1000); ((1, 2)%nat, qz 349 / qz 10000)] None None) as (g & Hg & Hwf & Hl & _ & Hv & _).
  { by apply (bool_decide_unpack _). } { by apply (bool_decide_unpack _). }
  { intros e w. rewrite !elem_of_cons, elem_of_nil. intros [[= -> ->]|[[= -> ->]|[[= -> ->]|[]]]]; cbn; split; apply (bool_decide_unpack _); done. }
  assert (match gauss_make oracle0 [0; 1; 2]%nat [((0, 1)%nat, qz 5 / qz 1000); ((0, 2)%nat, qz 15 / qz 1000); ((1, 2)%nat, qz 349 / qz 10000)] None None with
    | Ok g => match round_weights oracle0 2 g with
      | Ok g' => bool_decide ((0, 1)%nat ∈ d_arcs (g_dag g) ∧ d_arcs (g_dag g') = {[(0, 2)%nat; (1, 2)%nat]} ∧ g_w g' 0%nat 2%nat = qz 2 / qz 100 ∧ g_w g' 1%nat 2%nat = qz 3 / qz 100)
      | Raise _ => false end
    | Raise _ => false end = true) as H by by_vm.
  rewrite Hg in H. cbn in Hv. assert (g_dim g = 3%nat) as Hn by (unfold g_dim; by rewrite Hl).
  assert (length (g_var g) = g_dim g) as Hlen by (by rewrite Hv, Hn).
  destruct (round_weights oracle0 2 g) as [g'|] eqn:E; [|done]. apply bool_decide_eq_true in H as (H1 & H2 & H3 & H4). exists g, g'.
  destruct (C128_normalize oracle0 series_inv g Hwf Hlen) as (_ & HA & _). split_and!; try done; [by rewrite Hn|].
  apply HA. exists 0%nat, 1%nat, 0%nat, 1%nat. rewrite Hl. split; [lia|]. done.
Qed.

Print Assumptions C128_round.
Print Assumptions C128_round_acyclic.
Print Assumptions C128_normalize.
Print Assumptions C128_round_keeps_refuted.
Print Assumptions C128_normalize_skeleton_refuted.
