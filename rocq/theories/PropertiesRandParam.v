(** Random parameters of a graph: C103. *)
From Coq Require Import QArith.Qcanon Field.
From Verif Require Import Py Spec DagModel QMatModel GaussModel DiscreteModel RandParamModel SpecDiscrete SpecRandParam TopoProofs StateProofs ReachProofs QueryProofs CoreProofs MarkovProofs QMatProofs PropertiesDag DiscreteProofs SampleProofs QcTac GaussProofs GaussLoops PropertiesGauss RandProofs RandParamProofs.
#[local] Open Scope Qc_scope.

(** ** Weights *)
(** [unif_away_zero] returns weights whose absolute value is between [low] and [high], positive ones with [all_positive]. *)
Theorem C103_unif_away_zero (all_positive : bool) (coins : list bool) (us : list Qc) (low high : Qc) :
  (∀ u, u ∈ us → low <= u ∧ u <= high) → length coins = length us →
  let ws := unif_away_zero all_positive coins us in
  length ws = length us ∧ ∀ w, w ∈ ws → abs_between low high w ∧ (all_positive = true → low <= w ∧ w <= high) ∧ (0 < low → w ≠ 0).
Proof.
  intros Hu Hlen ws. assert (∀ w, abs_between low high w → 0 < low → w ≠ 0) as Hnz. { intros w [[H _]|[H _]] Hl ->; qlra. }
  unfold ws, unif_away_zero. destruct all_positive.
  - split; [done|]. intros w Hw%Hu. assert (abs_between low high w) by (by left). split; [done|]. split; [done|]. by apply Hnz.
  - split; [rewrite zip_with_length; lia|]. intros w (c & u & -> & Hc & Hin)%elem_of_zip_with.
    assert (abs_between low high (((if c then 1 else 0) - 1 / qz 2) * qz 2 * u)) as Ha.
    { specialize (Hu u Hin). destruct c; [rewrite sign_true; by left|rewrite sign_false; right; by rewrite opp_opp]. }
    split; [done|]. split; [done|]. by apply Hnz.
Qed.

Ltac hide_w := match goal with |- apart _ ?x _ ∧ _ => set (w := x) in *; clearbody w end.
(** [unif_away_original] returns a weight of the given size that differs from the original one by at least [dist], provided that
    [dist] is not larger than the distance of the original weight to the weights of the other sign. *)
Theorem C103_unif_away_original (k : nat) (t original dist low high w : Qc) :
  0 <= low → low <= high → abs_between low high original → 0 <= t → t <= 1 →
  (dist <= original + low ∨ dist <= low - original) →
  unif_away_original k t original dist low high = Ok w → apart dist w original ∧ abs_between low high w.
Proof.
  intros H0 Hlh Ho Ht0 Ht1 Hd E. unfold unif_away_original in E. case_decide as Hdl; [done|]. apply Qcnot_lt_le in Hdl. case_decide; [done|].
  destruct (away_regions original dist low high !! k) as [[a b]|] eqn:Ek; [|done]. injection E as <-. apply elem_of_list_lookup_2 in Ek.
  assert (∀ a b, a <= b → a <= a + (b - a) * t ∧ a + (b - a) * t <= b) as Hb by (intros; by apply between).
  unfold away_regions in Ek. case_decide as Hneg.
  - rewrite elem_of_cons, elem_of_app in Ek. destruct Ek as [[= -> ->]|[Ek|Ek]].
    + destruct (Hb low high Hlh) as [B1 B2]. hide_w. split; [|by left]. destruct Ho as [[? ?]|[? ?]], Hd; (left; qlra).
    + case_decide as Hr; [|by apply elem_of_nil in Ek]. apply elem_of_list_singleton in Ek as [= -> ->]. destruct (Hb _ _ Hr) as [B1 B2]. hide_w.
      split; [right; qlra|right; split; qlra].
    + case_decide as Hr; [|by apply elem_of_nil in Ek]. apply elem_of_list_singleton in Ek as [= -> ->]. destruct (Hb _ _ Hr) as [B1 B2]. hide_w.
      split; [left; qlra|]. right. destruct Ho as [[? ?]|[? ?]]; split; qlra.
  - apply Qcnot_lt_le in Hneg. rewrite elem_of_cons, elem_of_app in Ek. destruct Ek as [[= -> ->]|[Ek|Ek]].
    + assert (- high <= - low) as Hr by qlra. destruct (Hb _ _ Hr) as [B1 B2]. hide_w. split; [|right; split; qlra]. right. destruct Ho as [[? ?]|[? ?]], Hd; qlra.
    + case_decide as Hr; [|by apply elem_of_nil in Ek]. apply elem_of_list_singleton in Ek as [= -> ->]. destruct (Hb _ _ Hr) as [B1 B2]. hide_w.
      split; [left; qlra|left; split; qlra].
    + case_decide as Hr; [|by apply elem_of_nil in Ek]. apply elem_of_list_singleton in Ek as [= -> ->]. destruct (Hb _ _ Hr) as [B1 B2]. hide_w.
      split; [right; qlra|]. left. destruct Ho as [[? ?]|[? ?]]; split; qlra.
Qed.
(** Without this condition the new weight can be closer.  The message of the [ValueError] asks for [low] larger than the distance,
    but the check requires the opposite: a distance smaller than [low] is refused, although all weights of the
    other sign would do. *)
Theorem C103_unif_away_original_refuted :
  (∃ k t original dist low high w, 0 < low ∧ low <= high ∧ abs_between low high original ∧ 0 <= t ∧ t <= 1 ∧
    unif_away_original k t original dist low high = Ok w ∧ ¬ apart dist w original) ∧
  ∀ k t original dist low high, dist < low → unif_away_original k t original dist low high = Raise ValueError.
Proof.
  split.
  - exists 0%nat, 1, (1 / qz 4), (qz 3 / qz 5), (1 / qz 4), 1, (- (1 / qz 4)).
    do 2 (split; [vm_compute; done|]). split; [left; split; vm_compute; done|]. do 2 (split; [vm_compute; done|]).
    split. { assert (match unif_away_original 0 1 (1 / qz 4) (qz 3 / qz 5) (1 / qz 4) 1 with Ok w => bool_decide (w = - (1 / qz 4)) | Raise _ => false end = true) as H by (vm_compute; reflexivity).
      destruct (unif_away_original _ _ _ _ _ _) as [w|]; [|done]. apply bool_decide_eq_true in H. by subst w. }
    intros [H|H]; vm_compute in H; done.
  - intros k t original dist low high H. unfold unif_away_original. by rewrite decide_True.
Qed.

(** [rand_weights] keeps the graph, if its nodes are the numbers 0, 1, ..., and gives each arc one of the weights. *)
Theorem C103_rand_weights (o : oracle) (d : dag) (n : nat) (ws : list Qc) :
  views_agree d → numbered n (d_nodes d) → length ws = size (d_arcs d) → (∀ w, w ∈ ws → w ≠ 0) →
  ∃ g, rand_weights o d ws = Ok g ∧ gauss_wf g ∧ fresh g ∧ g_list g = seq 0 n ∧ d_nodes (g_dag g) = d_nodes d ∧ d_arcs (g_dag g) = d_arcs d ∧
    (∀ v, (v < n)%nat → g_var g !! v = Some 1 ∧ g_bias g !! v = Some 0) ∧
    ∃ l, NoDup l ∧ (∀ e, e ∈ l ↔ e ∈ d_arcs d) ∧ ∀ k i j, l !! k = Some (i, j) → ws !! k = Some (weight g i j).
Proof.
  intros Hv%wf_views_agree Hn Hlen Hnz. unfold rand_weights. rewrite (numbered_size n _ Hn). set (l := oa o [171]%nat (d_arcs d)).
  assert (NoDup l) as Hl by apply NoDup_oa. assert (∀ e, e ∈ l ↔ e ∈ d_arcs d) as Hle by (intros e; apply elem_of_oa).
  assert (length l = length ws) as Hll.
  { rewrite Hlen. rewrite <-(size_list_to_set (C := arcset) l) by done. f_equal. apply set_eq. intros e. by rewrite elem_of_list_to_set. }
  assert ((zip l ws).*1 = l) as Hfst by (apply fst_zip; lia).
  destruct (gauss_new_spec o (seq 0 n) (zip l ws) None None) as (g & -> & Hwf & Hgl & Hw & Hvar & Hb & Hp & Hc); [apply NoDup_seq|by rewrite Hfst| |].
  { intros [i j] w H. apply (elem_of_list_fmap_1 fst) in H. rewrite Hfst in H. cbn in H. apply Hle in H. apply (wf_over _ Hv) in H as [H1 H2]. cbn. apply Hn in H1, H2. rewrite !elem_of_seq. lia. }
  assert (∀ i j, (i, j) ∈ d_arcs (g_dag g) ↔ (i, j) ∈ d_arcs d) as HA.
  { intros i j. pose proof Hwf as (_ & _ & _ & _ & HA). rewrite HA, Hw, <-Hle. destruct (given (zip l ws) (i, j)) as [w|] eqn:E.
    - apply given_Some in E; [|by rewrite Hfst]. cbn. split; intros _.
      + apply (elem_of_list_fmap_1 fst) in E. by rewrite Hfst in E.
      + apply Hnz. apply (elem_of_list_fmap_1 snd) in E. rewrite snd_zip in E by lia. done.
    - apply given_None in E. rewrite Hfst in E. cbn. split; [done|]. done. }
  exists g. split; [done|]. split; [done|]. split; [by split|]. split; [done|]. split.
  { apply set_eq. intros v. destruct Hwf as (_ & _ & HN & _). rewrite HN, Hgl, elem_of_seq, (Hn v). lia. }
  split; [apply set_eq; by intros [i j]|]. split.
  { intros v Hvn. rewrite Hvar, Hb. cbn. rewrite seq_length. split; by apply lookup_replicate. }
  exists l. split; [done|]. split; [done|]. intros k i j Hk.
  destruct (lookup_lt_is_Some_2 ws k) as [w Hwk]; [rewrite <-Hll; by eapply lookup_lt_Some|].
  rewrite Hwk, Hw. assert (given (zip l ws) (i, j) = Some w) as ->; [|done]. apply given_Some; [by rewrite Hfst|].
  apply elem_of_list_lookup. exists k. rewrite lookup_zip_with, Hk. cbn. by rewrite Hwk.
Qed.
(** For other labels the result is an error, as for the graph of the example in the documentation. *)
Theorem C103_rand_weights_labels (o : oracle) (d : dag) (ws : list Qc) (i j : node) :
  views_agree d → length ws = size (d_arcs d) → (i, j) ∈ d_arcs d → (size (d_nodes d) <= i ∨ size (d_nodes d) <= j)%nat →
  rand_weights o d ws = Raise KeyError.
Proof.
  intros Hv%wf_views_agree Hlen Hij Hbig. unfold rand_weights. set (l := oa o [171]%nat (d_arcs d)).
  assert (NoDup l) as Hl by apply NoDup_oa. assert (∀ e, e ∈ l ↔ e ∈ d_arcs d) as Hle by (intros e; apply elem_of_oa).
  assert (length l = length ws) as Hll.
  { rewrite Hlen. rewrite <-(size_list_to_set (C := arcset) l) by done. f_equal. apply set_eq. intros e. by rewrite elem_of_list_to_set. }
  apply C45_constructor; [apply NoDup_seq|rewrite fst_zip by lia; done|].
  apply Hle, elem_of_list_lookup in Hij as [k Hk]. destruct (lookup_lt_is_Some_2 ws k) as [w Hwk]; [rewrite <-Hll; by eapply lookup_lt_Some|].
  exists (i, j), w. split; [apply elem_of_list_lookup; exists k; rewrite lookup_zip_with, Hk; cbn; by rewrite Hwk|]. cbn. rewrite !elem_of_seq. lia.
Qed.
Theorem C103_rand_weights_refuted : ∃ d ws, views_agree d ∧ acyclic (d_arcs d) ∧ length ws = size (d_arcs d) ∧ (∀ w, w ∈ ws → w ≠ 0) ∧
  d_arcs d = {[(1, 2); (2, 3)]}%nat ∧ rand_weights oracle0 d ws = Raise KeyError.
Proof.
  exists (dag_of {[1; 2; 3]}%nat {[(1, 2); (2, 3)]}%nat), [1; 1]. split; [apply wf_views_agree, dag_of_wf|].
  split; [apply acyclicb_spec; vm_compute; reflexivity|]. split; [vm_compute; reflexivity|]. split; [intros w; rewrite !elem_of_cons, elem_of_nil; intros [->|[->|[]]]; done|].
  assert (d_arcs (dag_of {[1; 2; 3]}%nat {[(1, 2); (2, 3)]}%nat) = {[(1, 2); (2, 3)]}%nat) as E by by_vm. split; [done|].
  apply (C103_rand_weights_labels _ _ _ 2 3)%nat; [apply wf_views_agree, dag_of_wf|vm_compute; reflexivity|rewrite E; set_solver|].
  right. vm_compute. lia.
Qed.

(** ** Discrete networks *)
Lemma parents_of_node o k d v : wf d → v ∈ d_nodes d → NoDup (on o [k; v] (parents d v)) ∧ ∀ p, p ∈ on o [k; v] (parents d v) ↔ (p, v) ∈ d_arcs d.
Proof. intros Hwf Hv. split; [apply NoDup_on|]. intros p. rewrite elem_of_on. by rewrite (wf_par _ Hwf). Qed.

(** [rand_discrete_dag] returns a network with the given graph, if its nodes are the numbers 0, 1, ..., whose tables are the
    distributions that were drawn.  Without alphabets every node has the three values 0, 1, 2. *)
Theorem C103_rand_discrete_dag (o : oracle) (d : dag) (n : nat) (alph : option (gmap node (list Qc))) (row : node → list nat → list Qc) :
  views_agree d → acyclic (d_arcs d) → numbered n (d_nodes d) → (∀ m v, alph = Some m → v ∈ d_nodes d → is_Some (m !! v)) →
  (∀ v ix, v ∈ d_nodes d → distribution (length (default (qz <$> [0; 1; 2]%Z) (alph ≫= (.!! v)))) (row v ix)) →
  ∃ D, rand_discrete_dag o d alph row = Ok D ∧ ddag_wf D ∧ stochastic D ∧ nonneg D ∧
    d_nodes (dd_dag D) = d_nodes d ∧ d_arcs (dd_dag D) = d_arcs d ∧ (∀ m, alph = Some m → dd_alph D = m) ∧
    (alph = None → ∀ v, v ∈ d_nodes d → dd_alph D !! v = Some (qz <$> [0; 1; 2]%Z)) ∧
    ∀ v ps a, v ∈ d_nodes d → dd_par D !! v = Some ps → in_range D (ps ++ [v]) a → row v (vals a ps) !! (a !!! v) = Some (prob D a v).
Proof.
  intros Hv%wf_views_agree Hac Hn Halph Hrow. unfold rand_discrete_dag. set (al := default _ alph).
  assert (∀ v, v ∈ d_nodes d → is_Some (al !! v) ∧ length (default [] (al !! v)) = length (default (qz <$> [0; 1; 2]%Z) (alph ≫= (.!! v)))) as Hal.
  { intros v Hvn. unfold al. destruct alph as [m|].
    - destruct (Halph m v eq_refl Hvn) as [x Hx]. change (default _ (Some m)) with m. rewrite Hx. split; [by eexists|]. change (Some m ≫= (.!! v)) with (m !! v). by rewrite Hx.
    - change (default ?x None) with x. rewrite (proj2 (lookup_gset_to_gmap_Some _ _ _ _)) by done. split; [by eexists|done]. }
  set (ps := λ v, on o [173; v]%nat (parents d v)).
  set (c := λ v, Tensor (shape_of al (ps v) ++ shape_of al [v]) (λ ix, default 0 (ix !! length (ps v) ≫= (row v (take (length (ps v)) ix) !!.)))).
  assert (∀ v, v ∈ d_nodes d → NoDup (ps v) ∧ ∀ p, p ∈ ps v ↔ (p, v) ∈ d_arcs d) as Hps by (intros v Hvn; by apply parents_of_node).
  destruct (tables_loop (discrete_node o d al row) c ps (on o [172]%nat (d_nodes d))) with (s := (∅ : gmap node tensor, ∅ : gmap node (list node))) as ([conds n2p] & E & Hc & Hp).
  { intros v [conds n2p] Hvn%elem_of_on. unfold discrete_node. rewrite decide_True; [done|]. apply Forall_forall.
    intros p [H| ->%elem_of_list_singleton]%elem_of_app; apply Hal; [|done]. apply (Hps v Hvn) in H. by destruct (wf_over _ Hv _ _ H). }
  rewrite E. cbn [res_bind]. cbn in Hc, Hp.
  destruct (make_tables o d n Hv Hac Hn c ps al conds n2p) as (D & -> & HD & HDN & HDA & HDc & HDp & HDa); [done| | | | |].
  { intros v Hvn. rewrite Hc, decide_True; [done|by apply elem_of_on]. }
  { intros v. rewrite Hp. destruct (decide (v ∈ d_nodes d)) as [H|H]; [rewrite decide_True; [done|by apply elem_of_on]|rewrite decide_False; [done|by rewrite elem_of_on]]. }
  { intros v Hvn. by apply Hal. } { intros v Hvn. cbn. unfold shape_of. by rewrite fmap_app. }
  assert (∀ v, v ∈ d_nodes d → dd_par D !! v = Some (ps v) ∧ dd_cond D !! v = Some (c v)) as HDv.
  { intros v Hvn. rewrite HDp, HDc, Hc, Hp. by rewrite !decide_True by (by apply elem_of_on). }
  assert (∀ v, card D v = length (default [] (al !! v))) as Hcard by (intros v; unfold card; by rewrite HDa).
  assert (∀ v ps' a, v ∈ d_nodes d → dd_par D !! v = Some ps' → (a !!! v < card D v)%nat → row v (vals a ps') !! (a !!! v) = Some (prob D a v)) as Hprob.
  { intros v ps' a Hvn Eps Hr. destruct (HDv v Hvn) as [Ep Ec]. rewrite Ep in Eps. injection Eps as <-. unfold prob. rewrite Ec, Ep. cbn [c t_at].
    destruct (vals_at a (ps v) v) as [-> ->]. cbn. destruct (Hrow v (vals a (ps v)) Hvn) as (Hlen & _).
    destruct (lookup_lt_is_Some_2 (row v (vals a (ps v))) (a !!! v)) as [x Hx]; [rewrite Hlen, <-(proj2 (Hal v Hvn)); by rewrite Hcard in Hr|]. by rewrite Hx. }
  exists D. split; [done|]. split; [done|]. split; [|split; [|split; [done|split; [done|split; [|split]]]]].
  - intros v ps' a Hvn Eps Ha. rewrite HDN in Hvn. destruct (Hrow v (vals a ps') Hvn) as (Hlen & _ & Hsum).
    assert (v ∉ ps') as Hnv. { destruct (HDv v Hvn) as [Ep _]. rewrite Ep in Eps. injection Eps as <-. intros H. apply (Hps v Hvn) in H. apply (Hac v). by apply tc_once. }
    rewrite <-Hsum, <-qsum_list, Hlen, <-(proj2 (Hal v Hvn)), <-Hcard. apply qsum_ext. intros k Hk.
    pose proof (Hprob v ps' (<[v := k]> a) Hvn Eps) as Hp'. rewrite !ins_same in Hp'. specialize (Hp' Hk).
    assert (vals (<[v:=k]> a) ps' = vals a ps') as Ev. { apply vals_ext. intros p Hpp. apply ins_other. by intros ->. }
    rewrite Ev in Hp'. by rewrite Hp'.
  - intros v ps' a Hvn Eps Ha. rewrite HDN in Hvn. destruct (Hrow v (vals a ps') Hvn) as (_ & Hnn & _). apply Hnn.
    apply elem_of_list_lookup. exists (a !!! v). apply Hprob; [done..|]. apply Ha, elem_of_app. right. by left.
  - intros m ->. rewrite HDa. done.
  - intros -> v Hvn. rewrite HDa. unfold al. change (default ?x None) with x. by apply lookup_gset_to_gmap_Some.
  - intros v ps' a Hvn Eps Ha. apply Hprob; [done..|]. apply Ha, elem_of_app. right. by left.
Qed.
(** For other labels the network returned has further nodes, without tables. *)
Theorem C103_rand_discrete_labels_refuted : ∃ d row D, views_agree d ∧ acyclic (d_arcs d) ∧ d_nodes d = {[1; 2]}%nat ∧ d_arcs d = {[(1, 2)]}%nat ∧
  (∀ v ix, distribution 3 (row v ix)) ∧
  rand_discrete_dag oracle0 d None row = Ok D ∧ d_nodes (dd_dag D) = {[0; 1; 2]}%nat ∧ dd_cond D !! 0%nat = None ∧ ¬ ddag_wf D.
Proof.
  set (d := dag_of {[1; 2]}%nat {[(1, 2)]}%nat). set (row := λ (v : node) (ix : list nat), [1; 0; 0] : list Qc).
  assert (match rand_discrete_dag oracle0 d None row with Ok D => bool_decide (d_nodes (dd_dag D) = {[0; 1; 2]}%nat) && match dd_cond D !! 0%nat with None => true | _ => false end | Raise _ => false end = true) as H
    by (vm_compute; reflexivity).
  destruct (rand_discrete_dag oracle0 d None row) as [D|] eqn:E; [|done]. apply andb_true_iff in H as [H1 H2]. apply bool_decide_eq_true in H1.
  exists d, row, D. split; [apply wf_views_agree, dag_of_wf|]. split; [apply acyclicb_spec; vm_compute; reflexivity|].
  split; [by_vm|]. split; [by_vm|]. split. { intros v ix. split; [done|]. split; [|vm_compute; reflexivity]. unfold row. intros x. rewrite !elem_of_cons, elem_of_nil. intros [->|[->|[->|[]]]]; done. }
  split; [done|]. split; [done|]. destruct (dd_cond D !! 0%nat) eqn:E0; [done|]. split; [done|].
  intros (_ & _ & Hw). destruct (Hw 0%nat) as (al & ps & c & _ & _ & Hc & _); [rewrite H1; set_solver|]. congruence.
Qed.

(** [rand_noisy_or_dag] returns a network with the given graph and the values 0 and 1, in which a node is 0 with the probability
    [q] times the parameters of the parents that are 1. *)
Theorem C103_rand_noisy_or_dag (o : oracle) (d : dag) (n : nat) (q : node → Qc) (param : node → nat → Qc) (u : node → Qc) :
  views_agree d → acyclic (d_arcs d) → numbered n (d_nodes d) →
  (∀ v, 0 <= q v ∧ q v <= 1 ∧ 0 <= u v ∧ u v <= 1) → (∀ v k, 0 <= param v k ∧ param v k <= 1) →
  ∃ D, rand_noisy_or_dag o d q param u = Ok D ∧ ddag_wf D ∧ stochastic D ∧ nonneg D ∧
    d_nodes (dd_dag D) = d_nodes d ∧ d_arcs (dd_dag D) = d_arcs d ∧
    (∀ v, v ∈ d_nodes d → card D v = 2%nat ∧ plain D v) ∧
    ∀ v ps a, v ∈ d_nodes d → dd_par D !! v = Some ps → in_range D (ps ++ [v]) a →
      let off := (if decide (ps = []) then u v else on_product (param v) ps a) * q v in
      prob D a v = if decide (a !!! v = 0%nat) then off else 1 - off.
Proof.
  intros Hv%wf_views_agree Hac Hn Hq Hparam. unfold rand_noisy_or_dag.
  set (al := gset_to_gmap (qz <$> [0; 1]%Z) (list_to_set (seq 0 (size (d_nodes d))))).
  assert (∀ v, v ∈ d_nodes d → al !! v = Some (qz <$> [0; 1]%Z)) as Hal.
  { intros v Hvn. apply lookup_gset_to_gmap_Some. split; [|done]. by rewrite (numbered_size n _ Hn), (numbered_seq n _ Hn). }
  set (ps := λ v, on o [175; v]%nat (parents d v)).
  assert (∀ v, v ∈ d_nodes d → NoDup (ps v) ∧ ∀ p, p ∈ ps v ↔ (p, v) ∈ d_arcs d) as Hps by (intros v Hvn; by apply parents_of_node).
  set (t := λ v, match (if decide (0 < length (ps v))%nat then tensor_product ((λ k, [1; param v k]) <$> seq 0 (length (ps v))) else Ok (Tensor [] (λ _, u v))) with Ok t => t | Raise _ => Tensor [] (λ _, 0) end).
  assert (∀ v, (if decide (0 < length (ps v))%nat then tensor_product ((λ k, [1; param v k]) <$> seq 0 (length (ps v))) else Ok (Tensor [] (λ _, u v))) = Ok (t v) ∧
    t_shape (t v) = replicate (length (ps v)) 2%nat ∧ ∀ a : assignment, (∀ p, p ∈ ps v → (a !!! p < 2)%nat) →
      t_at (t v) (vals a (ps v)) = if decide (ps v = []) then u v else on_product (param v) (ps v) a) as Ht.
  { intros v. unfold t. case_decide as Hl.
    - destruct (tensor_product_spec (param v) (ps v)) as (t' & -> & H1 & H2); [by intros E; rewrite E in Hl; cbn in Hl; lia|].
      split; [done|]. split; [done|]. intros a Ha. rewrite decide_False; [by apply H2|]. intros E; rewrite E in Hl; cbn in Hl; lia.
    - assert (ps v = []) as ->; [|done]. apply nil_length_inv. lia. }
  set (c := λ v, two_values (Tensor (t_shape (t v)) (λ ix, t_at (t v) ix * q v))).
  destruct (tables_loop (noisy_node o d q param u) c ps (on o [174]%nat (d_nodes d))) with (s := (∅ : gmap node tensor, ∅ : gmap node (list node))) as ([conds n2p] & E & Hc & Hp).
  { intros v [conds n2p] _. unfold noisy_node. fold (ps v). destruct (Ht v) as [-> _]. done. }
  rewrite E. cbn [res_bind]. cbn in Hc, Hp.
  destruct (make_tables o d n Hv Hac Hn c ps al conds n2p) as (D & -> & HD & HDN & HDA & HDc & HDp & HDa); [done| | | | |].
  { intros v Hvn. rewrite Hc, decide_True; [done|by apply elem_of_on]. }
  { intros v. rewrite Hp. destruct (decide (v ∈ d_nodes d)) as [H|H]; [rewrite decide_True; [done|by apply elem_of_on]|rewrite decide_False; [done|by rewrite elem_of_on]]. }
  { intros v Hvn. rewrite Hal by done. by eexists. }
  { intros v Hvn. cbn. destruct (Ht v) as (_ & -> & _). unfold shape_of. rewrite fmap_app. cbn. rewrite Hal by done. f_equal.
    assert (∀ p, p ∈ ps v → al !! p = Some (qz <$> [0; 1]%Z)) as Hpal. { intros p H. apply Hal. apply (Hps v Hvn) in H. by destruct (wf_over _ Hv _ _ H). }
    clear -Hpal. induction (ps v) as [|p l IH]; [done|]. cbn. rewrite Hpal by (by left). cbn. f_equal. apply IH. intros; apply Hpal; by right. }
  assert (∀ v, v ∈ d_nodes d → dd_par D !! v = Some (ps v) ∧ dd_cond D !! v = Some (c v)) as HDv.
  { intros v Hvn. rewrite HDp, HDc, Hc, Hp. by rewrite !decide_True by (by apply elem_of_on). }
  assert (∀ v, v ∈ d_nodes d → card D v = 2%nat) as Hcard by (intros v Hvn; unfold card; by rewrite HDa, Hal).
  set (off := λ v a, (if decide (ps v = []) then u v else on_product (param v) (ps v) a) * q v).
  assert (∀ v a, v ∈ d_nodes d → (∀ p, p ∈ ps v → (a !!! p < 2)%nat) → prob D a v = if decide (a !!! v = 0%nat) then off v a else 1 - off v a) as Hprob.
  { intros v a Hvn Ha. destruct (HDv v Hvn) as [Ep Ec]. unfold prob. rewrite Ec, Ep. cbn [c two_values t_at t_shape]. destruct (Ht v) as (_ & Hsh & Hat).
    rewrite Hsh, replicate_length. destruct (vals_at a (ps v) v) as [-> ->]. rewrite Hat by done. fold (off v a).
    destruct (decide (a !!! v = 0%nat)) as [E0|E0]; [rewrite decide_True by (by rewrite E0); done|rewrite decide_False by (by intros [= ?]); done]. }
  assert (∀ v a, 0 <= off v a ∧ off v a <= 1) as Hoff.
  { intros v a. unfold off. destruct (Hq v) as (Q1 & Q2 & U1 & U2). assert (∀ x, 0 <= x → x <= 1 → 0 <= x * q v ∧ x * q v <= 1) as H.
    { intros x X1 X2. set (y := q v) in *. clearbody y. split; qnra. }
    case_decide; [by apply H|]. destruct (on_product_range (param v) (ps v) a (Hparam v)). by apply H. }
  assert (∀ v a, v ∈ d_nodes d → in_range D (ps v) a → ∀ p, p ∈ ps v → (a !!! p < 2)%nat) as Hran.
  { intros v a Hvn Ha p Hpp. specialize (Ha p Hpp). rewrite Hcard in Ha; [done|]. apply (Hps v Hvn) in Hpp. by destruct (wf_over _ Hv _ _ Hpp). }
  exists D. split; [done|]. split; [done|]. split; [|split; [|split; [done|split; [done|split]]]].
  - intros v ps' a Hvn Eps Ha. rewrite HDN in Hvn. destruct (HDv v Hvn) as [Ep _]. rewrite Ep in Eps. injection Eps as <-. pose proof (Hran v a Hvn Ha) as Hr.
    assert (v ∉ ps v) as Hnv. { intros H. apply (Hps v Hvn) in H. apply (Hac v). by apply tc_once. }
    assert (∀ k, off v (<[v := k]> a) = off v a) as Ho.
    { intros k. unfold off. f_equal. case_decide; [done|]. clear -Hnv. generalize (param v). induction (ps v) as [|p l IH]; intros f; [done|]. cbn.
      apply not_elem_of_cons in Hnv as [Hne Hnv]. rewrite ins_other by done. by rewrite IH. }
    assert (∀ k, prob D (<[v := k]> a) v = if decide (k = 0%nat) then off v a else 1 - off v a) as Hk.
    { intros k. rewrite Hprob; [|done|]. 2:{ intros p Hpp. rewrite ins_other; [by apply Hr|by intros ->]. } by rewrite ins_same, Ho. }
    rewrite Hcard by done. cbn [qsum]. rewrite !Hk. rewrite decide_True, decide_False by done. ring.
  - intros v ps' a Hvn Eps Ha. rewrite HDN in Hvn. destruct (HDv v Hvn) as [Ep _]. rewrite Ep in Eps. injection Eps as <-.
    assert (in_range D (ps v) a) as Ha' by (intros p Hpp; apply Ha, elem_of_app; by left).
    rewrite (Hprob v a Hvn (Hran v a Hvn Ha')). destruct (Hoff v a). case_decide; [done|]. qlra.
  - intros v Hvn. split; [by apply Hcard|]. unfold plain. rewrite Hcard by done. rewrite HDa, Hal by done. done.
  - intros v ps' a Hvn Eps Ha. destruct (HDv v Hvn) as [Ep _]. rewrite Ep in Eps. injection Eps as <-. cbv zeta. fold (off v a). apply Hprob; [done|].
    apply Hran; [done|]. intros p Hpp; apply Ha, elem_of_app; by left.
Qed.

(** ** Linear Gaussian models *)
(** [rand_normal_wishart] returns a model with the given graph, for any labels; each node has the variance, bias and weights that were drawn for
    it.  The default degrees of freedom are always accepted. *)
Theorem C103_rand_normal_wishart (o : oracle) (d : dag) (dof : option Qc) (chi : node → Qc) (ws : node → list Qc) :
  views_agree d → (∀ x, dof = Some x → qz (Z.of_nat (size (d_nodes d))) < x + 1) →
  (∀ v, v ∈ d_nodes d → length (ws v) = S (size (parents d v)) ∧ ∀ w, w ∈ ws v → w ≠ 0) →
  ∃ g, rand_normal_wishart o d dof chi ws = Ok g ∧ gauss_wf g ∧ fresh g ∧ d_nodes (g_dag g) = d_nodes d ∧ d_arcs (g_dag g) = d_arcs d ∧
    ∀ v, v ∈ d_nodes d → ∃ k ps, g_list g !! k = Some v ∧ g_var g !! k = Some (chi v) ∧ g_bias g !! k = last (ws v) ∧
      NoDup ps ∧ (∀ p, p ∈ ps ↔ (p, v) ∈ d_arcs d) ∧ ∀ m p, ps !! m = Some p → ws v !! m = Some (weight g p v).
Proof.
  intros Hv%wf_views_agree Hdof Hws. unfold rand_normal_wishart. set (df := default _ dof). set (nodes := on o [176]%nat (d_nodes d)).
  set (ps := λ v, on o [177; v]%nat (parents d v)). assert (∀ v, v ∈ nodes ↔ v ∈ d_nodes d) as Hin by (intros; apply elem_of_on).
  assert (∀ v, v ∈ d_nodes d → NoDup (ps v) ∧ ∀ p, p ∈ ps v ↔ (p, v) ∈ d_arcs d) as Hps by (intros v Hvn; by apply parents_of_node).
  assert (∀ v, length (ps v) = size (parents d v)) as Hlen.
  { intros v. rewrite <-(size_list_to_set (C := nset) (ps v)) by apply NoDup_on. f_equal. apply set_eq. intros x. rewrite elem_of_list_to_set. apply elem_of_on. }
  set (row := λ v, zip ((λ p, (p, v)) <$> ps v) (take (length (ps v)) (ws v))).
  assert (∀ l arcs ms vs, (∀ v, v ∈ l → v ∈ d_nodes d) → loopR (wishart_node o d df chi ws) l (arcs, ms, vs) =
    Ok (arcs ++ (l ≫= row), ms ++ ((λ v, default 0 (last (ws v))) <$> l), vs ++ (chi <$> l))) as Hloop.
  { induction l as [|v l IH]; intros arcs ms vs Hl; cbn [loopR]; [by rewrite !app_nil_r|]. unfold wishart_node at 1. fold (ps v). rewrite decide_True.
    - cbn [res_bind]. rewrite IH by (intros; apply Hl; by right). fold (row v). cbn. by rewrite <-!app_assoc.
    - assert (qz (Z.of_nat (size (d_nodes d))) < df + 1) as H.
      { unfold df. destruct dof as [x|]; [by apply Hdof|]. change (default ?x None) with x. set (z := qz _). clearbody z. qlra. }
      pose proof (qn_nonneg (length (ps v))) as Hp0. set (a := qz (Z.of_nat (length _))) in *. set (b := qz (Z.of_nat (size _))) in *. clearbody a b df. clear -H Hp0.
      assert (0 < / qz 2) as H2 by done. unfold Qcdiv. set (h := / qz 2) in *. clearbody h. assert (0 < df - b + a + 1) as H3 by qlra. set (s := df - b + a + 1) in *. clearbody s. qnra. }
  rewrite Hloop by (intros v; by rewrite Hin). cbn [res_bind app].
  assert (∀ v, v ∈ d_nodes d → (row v).*1 = (λ p, (p, v)) <$> ps v) as Hrow1.
  { intros v Hvn. unfold row. apply fst_zip. rewrite fmap_length, take_length. destruct (Hws v Hvn) as [-> _]. rewrite Hlen. lia. }
  assert (∀ v p w, v ∈ d_nodes d → ((p, v), w) ∈ row v ↔ ∃ m, ps v !! m = Some p ∧ ws v !! m = Some w) as Hrow.
  { intros v p w Hvn. unfold row. rewrite elem_of_list_lookup. split; intros [m Hm]; exists m.
    - rewrite lookup_zip_with, list_lookup_fmap in Hm. destruct (ps v !! m) as [p'|] eqn:Ep; cbn in Hm; [|done].
      destruct (take _ _ !! m) as [w'|] eqn:Ew; cbn in Hm; [|done]. injection Hm as -> ->. split; [done|]. apply lookup_take_Some in Ew as [? _]. done.
    - destruct Hm as [Ep Ew]. rewrite lookup_zip_with, list_lookup_fmap, Ep. cbn. rewrite lookup_take by (by eapply lookup_lt_Some). by rewrite Ew. }
  assert (∀ v p v' w, v ∈ d_nodes d → ((p, v'), w) ∈ row v → v' = v) as Hsnd.
  { intros v p v' w Hvn H. apply (elem_of_list_fmap_1 fst) in H. rewrite Hrow1 in H by done. apply elem_of_list_fmap in H as (? & [= _ ->] & _). done. }
  assert (∀ p v w, ((p, v), w) ∈ nodes ≫= row ↔ v ∈ d_nodes d ∧ ∃ m, ps v !! m = Some p ∧ ws v !! m = Some w) as Hall.
  { intros p v w. rewrite elem_of_list_bind. split.
    - intros (v' & H & Hv'%Hin). pose proof (Hsnd v' p v w Hv' H) as ->. split; [done|]. by apply Hrow.
    - intros [Hvn H]. exists v. split; [by apply Hrow|by apply Hin]. }
  assert (NoDup (nodes ≫= row).*1) as Hnd.
  { assert (∀ l, NoDup l → (∀ v, v ∈ l → v ∈ d_nodes d) → NoDup (l ≫= row).*1) as H; [|apply H; [apply NoDup_on|intros v; apply Hin]].
    induction l as [|v l IH]; intros Hl Hs; [by constructor|]. cbn. apply NoDup_cons in Hl as [Hvl Hl]. rewrite fmap_app, Hrow1 by (apply Hs; by left). apply NoDup_app. split_and!.
    - apply NoDup_fmap_2; [by intros ? ? [= ->]|]. apply Hps, Hs. by left.
    - intros [p v'] (q & [= -> ->] & _)%elem_of_list_fmap ([[q' v''] w] & E & H)%elem_of_list_fmap. cbn in E. injection E as <- <-.
      apply elem_of_list_bind in H as (x & H & Hx). apply Hsnd in H as ->; [done|]. apply Hs. by right.
    - apply IH; [done|]. intros; apply Hs; by right. }
  destruct (gauss_new_spec o nodes (nodes ≫= row) (Some ((λ v, default 0 (last (ws v))) <$> nodes)) (Some (chi <$> nodes))) as (g & -> & Hwf & Hgl & Hw & Hvar & Hb & Hp & Hc); [apply NoDup_on|done| |].
  { intros [p v] w (Hvn & m & Hm & _)%Hall. cbn. apply elem_of_list_lookup_2 in Hm. apply (Hps v Hvn) in Hm. rewrite !Hin. by apply (wf_over _ Hv). }
  assert (∀ v m p, v ∈ d_nodes d → ps v !! m = Some p → ws v !! m = Some (weight g p v)) as Hwt.
  { intros v m p Hvn Hm. destruct (Hws v Hvn) as [Hl _]. destruct (lookup_lt_is_Some_2 (ws v) m) as [w Ew]; [rewrite Hl, <-Hlen; apply lookup_lt_Some in Hm; lia|].
    rewrite Ew, Hw. assert (given (nodes ≫= row) (p, v) = Some w) as ->; [|done]. apply given_Some; [done|]. apply Hall. split; [done|]. by exists m. }
  exists g. split; [done|]. split; [done|]. split; [by split|]. split; [|split].
  - apply set_eq. intros v. destruct Hwf as (_ & _ & HN & _). by rewrite HN, Hgl.
  - apply set_eq. intros [p v]. pose proof Hwf as (_ & _ & _ & _ & HA). rewrite HA. split.
    + intros Hne. rewrite Hw in Hne. destruct (given _ (p, v)) as [w|] eqn:E; [|done]. apply given_Some in E; [|done]. apply Hall in E as (Hvn & m & Hm & _).
      apply elem_of_list_lookup_2 in Hm. by apply (Hps v Hvn).
    + intros H. destruct (wf_over _ Hv _ _ H) as [_ Hvn]. apply (Hps v Hvn), elem_of_list_lookup in H as [m Hm]. apply (Hws v Hvn). apply elem_of_list_lookup. exists m. by apply Hwt.
  - intros v Hvn. pose proof (proj2 (Hin v) Hvn) as Hvl. apply elem_of_list_lookup in Hvl as [k Hk]. exists k, (ps v). split; [by rewrite Hgl|].
    rewrite Hvar, Hb. change (default ?x (Some ?y)) with y. rewrite !list_lookup_fmap, Hk. split; [done|]. split.
    { cbn. destruct (Hws v Hvn) as [Hl _]. destruct (last (ws v)) eqn:El; [done|]. apply last_None in El. rewrite El in Hl. done. }
    destruct (Hps v Hvn). split; [done|]. split; [done|]. intros m p. by apply Hwt.
Qed.

(** ** [alter_weights] *)
(** [alter_weights] returns a model on the same nodes with the same variances and biases.  [na] arcs have a new weight given by
    [rand_change_fn], [nr] others are removed, [nn] new ones are added with weights given by [rand_weight_fn], no other weight changes, and
    the result is acyclic. *)
Theorem C103_alter_weights (o : oracle) (samp : nat → list arc → nat → list arc) (change : arc → Qc → res Qc) (ws : list Qc)
    (na nr nn n : nat) (pa pr pn : bool) (g : gauss) :
  gauss_wf g → g_list g = seq 0 n → on o [131%nat] (d_nodes (g_dag g)) = seq 0 n → acyclic (d_arcs (g_dag g)) → sampler samp →
  (∀ i j, (i, j) ∈ d_arcs (g_dag g) → ∃ x, change (i, j) (weight g i j) = Ok x ∧ x ≠ 0) → length ws = nn → (∀ w, w ∈ ws → w ≠ 0) →
  (na + nr <= size (d_arcs (g_dag g)))%nat → (nn + size (d_arcs (g_dag g)) <= n * (n - 1) / 2)%nat →
  ∃ g' A R N, alter_weights o samp change ws (Some na, pa) (Some nr, pr) (Some nn, pn) g = Ok g' ∧
    gauss_wf g' ∧ fresh g' ∧ acyclic (d_arcs (g_dag g')) ∧ g_list g' = g_list g ∧ g_var g' = g_var g ∧ g_bias g' = g_bias g ∧
    size A = na ∧ size R = nr ∧ size N = nn ∧ A ∪ R ⊆ d_arcs (g_dag g) ∧ A ## R ∧ N ## d_arcs (g_dag g) ∧
    d_arcs (g_dag g') = (d_arcs (g_dag g) ∖ R) ∪ N ∧
    (∀ i j, (i, j) ∈ A → change (i, j) (weight g i j) = Ok (weight g' i j)) ∧ (∀ i j, (i, j) ∈ N → weight g' i j ∈ ws) ∧
    (∀ i j, (i, j) ∉ A ∪ R ∪ N → weight g' i j = weight g i j).
Proof.
  intros Hg Hl Ho Hac Hs Hch Hlen Hnz Hsz Hnn. unfold alter_weights. set (E := d_arcs (g_dag g)) in *. cbn [fst].
  rewrite decide_False by (intros [?|[?|?]]; done). rewrite decide_False by lia.
  assert (size (d_nodes (g_dag g)) = n) as Hn. { rewrite (gauss_size g Hg). unfold g_dim. by rewrite Hl, seq_length. }
  rewrite decide_False.
  2:{ rewrite Hn. assert (Z.of_nat (n * (n - 1) / 2) = Z.of_nat n * (Z.of_nat n - 1) / 2)%Z as <-; [|lia].
      rewrite Nat2Z.inj_div, Nat2Z.inj_mul. destruct n as [|k]; [done|]. f_equal. f_equal. lia. }
  assert (∀ k (S : arcset), NoDup (oa o [k] S) ∧ length (oa o [k] S) = size S ∧ ∀ e, e ∈ oa o [k] S ↔ e ∈ S) as Hoa.
  { intros k S. assert (NoDup (oa o [k] S)) as H1 by apply NoDup_oa. assert (∀ e, e ∈ oa o [k] S ↔ e ∈ S) as H2 by (intros; apply elem_of_oa).
    split; [done|]. split; [|done]. rewrite <-(size_list_to_set (C := arcset) (oa o [k] S)) by done. f_equal. apply set_eq. intros e. by rewrite elem_of_list_to_set. }
  set (alt := samp 0%nat _ na). destruct (Hs 0%nat (oa o [178]%nat E) na) as (A1 & A2 & A3); [apply Hoa|destruct (Hoa 178%nat E) as (_ & -> & _); lia|]. fold alt in A1, A2, A3.
  assert (∀ e, e ∈ alt → e ∈ E) as A4 by (intros e He; by apply (Hoa 178%nat E), A3).
  assert (size (E ∖ list_to_set alt) = size E - na)%nat as Hdiff.
  { rewrite size_difference by (intros e He; apply A4; by apply elem_of_list_to_set in He). rewrite size_list_to_set by done. by rewrite A2. }
  rewrite Nat.min_l by lia. set (rem := samp 1%nat _ nr). destruct (Hs 1%nat (oa o [179]%nat (E ∖ list_to_set alt)) nr) as (R1 & R2 & R3); [apply Hoa|destruct (Hoa 179%nat (E ∖ list_to_set alt)) as (_ & -> & _); lia|]. fold rem in R1, R2, R3.
  assert (∀ e, e ∈ rem → e ∈ E ∧ e ∉ alt) as R4. { intros e He. apply R3, (Hoa 179%nat) in He. apply elem_of_difference in He as [? He]. by rewrite elem_of_list_to_set in He. }
  pose proof (lab_wf g Hg) as Hdwf. pose proof (topological_sort_spec (g_dag g) o Hdwf) as Ht. destruct (topological_sort (g_dag g) o) as [t|err].
  2:{ destruct Ht as (x & _ & Hx). by apply closes_cycle_not_acyclic in Hx. }
  cbn [res_bind]. destruct Ht as (Htnd & Htn & Htord).
  assert (∀ e, e ∈ E → e ∈ combinations2 t) as HEt.
  { intros [x y] He. destruct (wf_over _ Hdwf _ _ He) as [Hx%Htn Hy%Htn]. apply elem_of_list_lookup in Hx as [i Hi], Hy as [j Hj]. apply (index_pairs t x y i j Hi Hj). by apply (Htord i j x y). }
  assert (length t = n) as Htl.
  { rewrite <-Hn. rewrite <-(size_list_to_set (C := nset) t) by done. f_equal. apply set_eq. intros x. by rewrite elem_of_list_to_set. }
  assert (length (combinations2 t) = n * (n - 1) / 2)%nat as Hpl. { pose proof (length_pairs t) as H. rewrite Htl in H. rewrite <-H. by rewrite Nat.div_mul. }
  set (new := samp 2%nat _ nn). destruct (Hs 2%nat (oa o [180]%nat (list_to_set (combinations2 t) ∖ E)) nn) as (N1 & N2 & N3).
  { apply Hoa. } { destruct (Hoa 180%nat (list_to_set (combinations2 t) ∖ E)) as (_ & -> & _). rewrite size_difference by (intros e He; apply elem_of_list_to_set; by apply HEt).
    rewrite size_list_to_set by (by apply NoDup_pairs). rewrite Hpl. lia. }
  fold new in N1, N2, N3.
  assert (∀ e, e ∈ new → e ∈ combinations2 t ∧ e ∉ E) as N4. { intros e He. apply N3, (Hoa 180%nat) in He. apply elem_of_difference in He as [He ?]. by apply elem_of_list_to_set in He. }
  destruct (C48_copy o g n Hg Hl Ho) as (c & -> & Hc & Hcl & Hca & Hcw & Hcv & Hcb & [Hcp Hcc]). cbn [res_bind].
  destruct (C48_arc_weights o g n Hg Hl) as (old & -> & Hond & Hold). cbn [res_bind].
  assert (∀ i j, (i, j) ∈ E → (list_to_map old : gmap arc Qc) !! (i, j) = Some (weight g i j)) as Holdw. { intros i j H. apply elem_of_list_to_map_1; [done|]. by apply Hold. }
  assert (along t c) as Hal.
  { split; [done|]. split; [|by rewrite Hca]. intros v. rewrite Htn. destruct Hg as (_ & _ & HN & _). by rewrite HN, Hcl. }
  set (chv := λ e : arc, match change e (weight g e.1 e.2) with Ok x => x | Raise _ => 0 end).
  assert (∀ e, e ∈ E → change e (weight g e.1 e.2) = Ok (chv e) ∧ chv e ≠ 0) as Hchv.
  { intros [i j] He. destruct (Hch i j He) as (x & Ex & Hx). unfold chv. cbn [fst snd]. by rewrite Ex. }
  assert (∀ {B} (l : list B), (λ x : B, x) <$> l = l) as Hfid. { intros B l. induction l as [|x l IH]; [done|]. cbn. by rewrite IH. }
  unfold mthen, mbind'.
  match goal with |- context [mfor alt ?f c] => destruct (set_loop o t Htnd alt f (λ e, e) chv c Hal) as (c1 & -> & Hal1 & (S11 & S12 & S13 & S14 & S15) & W1 & W1') end.
  { intros e He. split; [by apply HEt, A4|]. intros c'. destruct e as [i j]. rewrite Holdw by (by apply A4). destruct (Hchv (i, j)) as [Ee _]; [by apply A4|]. cbn [fst snd] in Ee. by rewrite Ee. }
  { by rewrite Hfid. }
  match goal with |- context [mfor rem ?f c1] => destruct (set_loop o t Htnd rem f (λ e, e) (λ _, 0) c1 Hal1) as (c2 & -> & Hal2 & (S21 & S22 & S23 & S24 & S25) & W2 & W2') end.
  { intros e He. split; [by apply HEt, R4|]. done. } { by rewrite Hfid. }
  assert ((zip new ws).*1 = new) as Hzip by (apply fst_zip; lia).
  match goal with |- context [mfor (zip new ws) ?f c2] => destruct (set_loop o t Htnd (zip new ws) f fst snd c2 Hal2) as (c3 & -> & Hal3 & (S31 & S32 & S33 & S34 & S35) & W3 & W3') end.
  { intros [e w] He. split; [|done]. apply (elem_of_list_fmap_1 fst) in He. rewrite Hzip in He. by apply N4. } { by rewrite Hzip. }
  rewrite Hzip in W3'. rewrite Hfid in W1', W2'.
  assert (∀ i j, (i, j) ∈ alt → weight c3 i j = chv (i, j)) as Wa.
  { intros i j H. rewrite W3', W2', <-(W1 (i, j) H); [done|intros [_ ?]%R4; done|intros [_ ?]%N4; by apply A4 in H]. }
  assert (∀ i j, (i, j) ∈ rem → weight c3 i j = 0) as Wr.
  { intros i j H. rewrite W3', <-(W2 (i, j) H); [done|]. intros [_ Hne]%N4. by apply R4 in H as [? _]. }
  assert (∀ i j, (i, j) ∈ new → weight c3 i j ∈ ws) as Wn.
  { intros i j H. rewrite <-Hzip in H. apply elem_of_list_fmap in H as ([e w] & Ee & Hin). cbn in Ee. subst e. rewrite (W3 _ Hin : weight c3 i j = w). apply (elem_of_list_fmap_1 snd) in Hin. rewrite snd_zip in Hin by lia. done. }
  assert (∀ i j, (i, j) ∉ alt → (i, j) ∉ rem → (i, j) ∉ new → weight c3 i j = weight g i j) as Wo. { intros i j ? ? ?. rewrite W3', W2', W1' by done. apply Hcw. }
  destruct Hal3 as (Hwf3 & _ & Har3). exists c3, (list_to_set alt), (list_to_set rem), (list_to_set new). split; [done|]. split; [done|]. split; [split; congruence|].
  split.
  { apply (topo_order_acyclic (d_nodes (g_dag c3)) _ t).
    - intros x y H. pose proof (lab_wf c3 Hwf3) as Hw3. by apply (wf_over _ Hw3).
    - split; [done|]. split.
      + intros x. destruct Hwf3 as (_ & _ & HN3 & _), Hg as (_ & _ & HN & _). rewrite HN3, Htn, HN. assert (g_list c3 = g_list g) as -> by congruence. done.
      + intros i j x y H Hi Hj. by apply (pairs_index t x y i j Htnd (Har3 _ H)). }
  do 3 (split; [congruence|]). rewrite !size_list_to_set by done. do 3 (split; [done|]). split; [|split; [|split; [|split; [|split; [|split]]]]].
  - intros e. rewrite elem_of_union, !elem_of_list_to_set. intros [?|?]; [by apply A4|by apply R4].
  - intros e. rewrite !elem_of_list_to_set. intros H [_ H']%R4. done.
  - intros e. rewrite elem_of_list_to_set. by intros [_ ?]%N4.
  - apply set_eq. intros [i j]. rewrite elem_of_union, elem_of_difference, !elem_of_list_to_set. pose proof Hwf3 as (_ & _ & _ & _ & HA3). rewrite HA3.
    pose proof Hg as (_ & _ & _ & _ & HA). fold E in HA.
    destruct (decide ((i, j) ∈ new)) as [Hi|Hi]; [split; [by right|]; intros _; by apply Hnz, Wn|].
    destruct (decide ((i, j) ∈ rem)) as [Hr|Hr]; [rewrite Wr by done; split; [done|]; by intros [[_ ?]|?]|].
    destruct (decide ((i, j) ∈ alt)) as [Ha|Ha].
    + rewrite Wa by done. split; [intros _; left; split; [by apply A4|done]|]. intros _. by apply Hchv, A4.
    + rewrite Wo by done. rewrite <-HA. split; [by left|]. by intros [[? _]|?].
  - intros i j. rewrite elem_of_list_to_set. intros H. rewrite Wa by done. by apply (Hchv (i, j)), A4.
  - intros i j. rewrite elem_of_list_to_set. apply Wn.
  - intros i j. rewrite !elem_of_union, !elem_of_list_to_set. intros H. apply Wo; tauto.
Qed.
(** Requests that cannot be met are refused. *)
Theorem C103_alter_weights_refuses (o : oracle) (samp : nat → list arc → nat → list arc) (change : arc → Qc → res Qc) (ws : list Qc)
    (na nr nn : nat) (pa pr pn : bool) (g : gauss) :
  let n := size (d_nodes (g_dag g)) in
  (size (d_arcs (g_dag g)) < na + nr ∨ n * (n - 1) / 2 < nn + size (d_arcs (g_dag g)))%nat →
  alter_weights o samp change ws (Some na, pa) (Some nr, pr) (Some nn, pn) g = Raise ValueError.
Proof.
  intros n H. unfold alter_weights. case_decide; [done|]. cbn [fst]. case_decide; [done|]. rewrite decide_True; [done|]. destruct H as [?|H]; [lia|]. fold n.
  assert (Z.of_nat (n * (n - 1) / 2) = Z.of_nat n * (Z.of_nat n - 1) / 2)%Z as <-; [|lia].
  rewrite Nat2Z.inj_div, Nat2Z.inj_mul. destruct n as [|k]; [done|]. f_equal. f_equal. lia.
Qed.
(** The arguments [prob_*] do not work: unless all three numbers are given there is always an error. *)
Theorem C103_alter_weights_prob (o : oracle) (samp : nat → list arc → nat → list arc) (change : arc → Qc → res Qc) (ws : list Qc)
    (altered removed added : option nat * bool) (g : gauss) :
  altered.1 = None ∨ removed.1 = None ∨ added.1 = None →
  alter_weights o samp change ws altered removed added g = Raise TypeError ∨ alter_weights o samp change ws altered removed added g = Raise ValueError.
Proof.
  intros H. unfold alter_weights. case_decide; [by right|]. destruct altered as [[na|] pa], removed as [[nr|] pr]; cbn; try by left. case_decide; [by right|].
  destruct added as [[nn|] pn]; cbn; [|by left]. cbn in H. destruct H as [?|[?|?]]; done.
Qed.

(** ** Examples *)
Definition ex_rand_dag : dag := dag_of {[0; 1; 2]}%nat {[(0, 1); (0, 2); (1, 2)]}%nat.
Example C103_unif_away_zero_ex : bool_decide (unif_away_zero false [true; false; false] [1; 1 / qz 2; 1 / qz 4] = [1; - (1 / qz 2); - (1 / qz 4)]) = true.
Proof. vm_compute. reflexivity. Qed.
Example C103_unif_away_original_ex :
  match unif_away_original 1 (1 / qz 2) (1 / qz 2) (1 / qz 4) (1 / qz 4) 1, unif_away_original 2 (1 / qz 2) (1 / qz 2) (1 / qz 4) (1 / qz 4) 1 with
  | Ok w, Ok w' => bool_decide (w = qz 7 / qz 8 ∧ w' = 1 / qz 4) | _, _ => false end = true.
Proof. vm_compute. reflexivity. Qed.
Lemma ex_rand_numbered : views_agree ex_rand_dag ∧ acyclic (d_arcs ex_rand_dag) ∧ numbered 3 (d_nodes ex_rand_dag) ∧ size (d_arcs ex_rand_dag) = 3%nat.
Proof.
  split; [apply wf_views_agree, dag_of_wf|]. split; [apply acyclicb_spec; vm_compute; reflexivity|]. split; [|vm_compute; reflexivity].
  intros v. assert (d_nodes ex_rand_dag = {[0; 1; 2]}%nat) as -> by by_vm. rewrite !elem_of_union, !elem_of_singleton. lia.
Qed.
Example C103_rand_weights_ex : match rand_weights oracle0 ex_rand_dag [1 / qz 2; - (1 / qz 4); qz 1] with
  | Ok g => bool_decide (d_arcs (g_dag g) = d_arcs ex_rand_dag ∧ g_list g = [0; 1; 2]%nat ∧ weight g 0 1 ≠ 0 ∧ weight g 1 0 = 0) | Raise _ => false end = true.
Proof. vm_compute. reflexivity. Qed.
Example C103_rand_discrete_dag_ex : (∀ v ix, distribution 3 ((λ (v : node) (ix : list nat), [1 / qz 2; 1 / qz 4; 1 / qz 4]) v ix)) ∧
  match rand_discrete_dag oracle0 ex_rand_dag None (λ v ix, [1 / qz 2; 1 / qz 4; 1 / qz 4]) with
  | Ok D => bool_decide (card D 2%nat = 3%nat ∧ prob D ({[0 := 2; 1 := 0; 2 := 1]}%nat : assignment) 2%nat = 1 / qz 4) | Raise _ => false end = true.
Proof.
  split; [|vm_compute; reflexivity]. intros v ix. split; [done|]. split; [|apply (bool_decide_eq_true _); vm_compute; reflexivity].
  intros x. rewrite !elem_of_cons, elem_of_nil. intros [->|[->|[->|[]]]]; done.
Qed.
Example C103_rand_noisy_or_dag_ex :
  match rand_noisy_or_dag oracle0 ex_rand_dag (λ _, qz 3 / qz 4) (λ _ _, 1 / qz 2) (λ _, 1 / qz 3) with
  | Ok D => bool_decide (prob D ({[0 := 1; 1 := 1; 2 := 0]}%nat : assignment) 2%nat = qz 3 / qz 16 ∧
      prob D ({[0 := 1; 1 := 0; 2 := 1]}%nat : assignment) 2%nat = qz 5 / qz 8 ∧ prob D ({[0 := 0]}%nat : assignment) 0%nat = 1 / qz 4) | Raise _ => false end = true.
Proof. vm_compute. reflexivity. Qed.
Example C103_rand_normal_wishart_ex :
  match rand_normal_wishart oracle0 (dag_of {[5; 7]}%nat {[(7, 5)]}%nat) None (λ v, qz (Z.of_nat v)) (λ v, if decide (v = 5)%nat then [qz 2; qz 3] else [qz 4]) with
  | Ok g => bool_decide (d_arcs (g_dag g) = {[(7, 5)]}%nat ∧ weight g 7 5 = qz 2 ∧ g_list g = [7; 5]%nat ∧ g_var g = [qz 7; qz 5] ∧ g_bias g = [qz 4; qz 3])
  | Raise _ => false end = true.
Proof. vm_compute. reflexivity. Qed.
Lemma sampler_take : sampler (λ _ l n, take n l).
Proof.
  intros k l n Hl Hn. split; [|split; [by rewrite take_length_le|]]. 
  - rewrite <-(take_drop n l) in Hl. by apply NoDup_app in Hl as (? & _).
  - intros e He. rewrite <-(take_drop n l). apply elem_of_app. by left.
Qed.
(** One arc changed, one removed and two added in [0 → 1 → 2], [3]. *)
Example C103_alter_weights_ex :
  match gauss_make oracle0 [0; 1; 2; 3]%nat [((0, 1)%nat, 1); ((1, 2)%nat, qz 2)] None None with
  | Ok g => match alter_weights oracle0 (λ _ l n, take n l) (λ _ w, Ok (w + 1)) [qz 7; qz 8] (Some 1%nat, false) (Some 1%nat, false) (Some 2%nat, false) g with
    | Ok g' => bool_decide (size (d_arcs (g_dag g')) = 3%nat ∧ d_arcs (g_dag g') ≠ d_arcs (g_dag g) ∧ acyclic (d_arcs (g_dag g')) ∧ (weight g' 0 1 = qz 2 ∨ weight g' 1 2 = qz 3))
    | Raise _ => false end
  | Raise _ => false end = true.
Proof. vm_compute. reflexivity. Qed.
Example C103_alter_weights_prob_ex :
  match gauss_make oracle0 [0; 1]%nat [((0, 1)%nat, 1)] None None with
  | Ok g => match alter_weights oracle0 (λ _ l n, take n l) (λ _ w, Ok w) [] (None, true) (Some 0%nat, false) (Some 0%nat, false) g with
    | Raise e => bool_decide (e = TypeError) | Ok _ => false end
  | Raise _ => false end = true.
Proof. vm_compute. reflexivity. Qed.

Print Assumptions C103_unif_away_zero.
Print Assumptions C103_unif_away_original.
Print Assumptions C103_unif_away_original_refuted.
Print Assumptions C103_rand_weights.
Print Assumptions C103_rand_weights_labels.
Print Assumptions C103_rand_weights_refuted.
Print Assumptions C103_rand_discrete_dag.
Print Assumptions C103_rand_discrete_labels_refuted.
Print Assumptions C103_rand_noisy_or_dag.
Print Assumptions C103_rand_normal_wishart.
Print Assumptions C103_alter_weights.
Print Assumptions C103_alter_weights_refuses.
Print Assumptions C103_alter_weights_prob.
