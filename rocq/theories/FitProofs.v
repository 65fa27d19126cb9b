(** Fitting discrete Bayesian networks. *)
From Coq Require Import QArith.Qcanon Field.
From Verif Require Import Py Spec DagModel QMatModel DiscreteModel DiscreteSampleModel DiscreteFitModel SpecDiscrete SpecFit TopoProofs StateProofs ReachProofs QueryProofs CoreProofs MarkovProofs QMatProofs PropertiesDag DiscreteProofs SampleProofs QcTac.
#[local] Open Scope Qc_scope.

Lemma cell_lookup (r : row) v z : r !! v = Some z → cell r v = z.
Proof. unfold cell. by intros ->. Qed.
Lemma filter_length_ext {A} (P Q : A → Prop) `{∀ x, Decision (P x)} `{∀ x, Decision (Q x)} (l : list A) :
  (∀ x, x ∈ l → P x ↔ Q x) → filter P l = filter Q l.
Proof.
  induction l as [|x l IH]; intros Hl; [done|]. rewrite !filter_cons. rewrite IH by (intros y Hy; apply Hl; by right).
  pose proof (Hl x ltac:(by left)). do 2 case_decide; tauto.
Qed.

(** ** Counting *)
(** The number of rows with value [k] in column [v]. *)
Definition hits (data : list row) (v : node) (k : nat) : nat := length (filter (λ r, cell r v = Z.of_nat k) data).
Lemma hits_sum data v K : (∀ r, r ∈ data → (0 <= cell r v < Z.of_nat K)%Z) → qsum K (λ k, qn (hits data v k)) = qn (length data).
Proof.
  intros Hd. transitivity (asum data (λ _, 1)); [|rewrite asum_const; ring].
  transitivity (asum data (λ r, qsum K (λ k, if decide (cell r v = Z.of_nat k) then 1 else 0))).
  - rewrite asum_qsum. apply qsum_ext. intros k _. rewrite (asum_if data (λ r, cell r v = Z.of_nat k)). unfold hits. ring.
  - apply asum_ext. intros r Hr. destruct (Hd r Hr). rewrite (qsum_one _ _ (Z.to_nat (cell r v))).
    + by rewrite decide_True by lia.
    + lia.
    + intros k _ Hk. rewrite decide_False; [done|lia].
Qed.
Definition al_of (K : nat) : list Qc := (λ j, qn j) <$> seq 0 K.
Definition alpha_of (add_one : bool) (alpha : Qc) : Qc := if add_one then alpha else 0.
Lemma gc_base_spec w data v K add_one alpha : (v < w)%nat → (∀ r, r ∈ data → (0 <= cell r v < Z.of_nat K)%Z) →
  ∃ t, gc_base w data v (al_of K) add_one alpha = Ok t ∧ t_shape t = [K] ∧
    ∀ k, (k < K)%nat → t_at t [k] = (qn (hits data v k) + alpha_of add_one alpha) / (qn (length data) + alpha_of add_one alpha * qn K).
Proof.
  intros Hv Hd. unfold gc_base. rewrite decide_True by done. eexists. split; [done|]. cbn [t_shape t_at].
  split; [unfold al_of; by rewrite fmap_length, seq_length|].
  assert ((λ c, if add_one then c + alpha else c) <$> gc_counts data v (al_of K) =
    (λ k, qn (hits data v k) + alpha_of add_one alpha) <$> seq 0 K) as ->.
  { unfold gc_counts, al_of. rewrite <-!list_fmap_compose. apply fmap_ext_in. intros k _. cbn.
    assert (filter (λ r, qz (cell r v) = qn k) data = filter (λ r, cell r v = Z.of_nat k) data) as ->.
    { apply filter_length_ext. intros r _. split; [apply qz_inj|by intros ->]. }
    fold (hits data v k). destruct add_one; cbn; ring. }
  intros k Hk. cbn. rewrite list_lookup_fmap, lookup_seq_lt by done. cbn.
  rewrite qfold_seq, qsum_add, hits_sum by done. assert (qsum K (λ _, alpha_of add_one alpha) = alpha_of add_one alpha * qn K) as ->; [|done]. clear.
  induction K as [|K IH]; cbn [qsum]; [change (qn 0) with 0; ring|]. rewrite qn_S, IH. ring.
Qed.
Lemma np_ixs_ok ks : ∀ shape rest, (∀ i k, ks !! i = Some k → ∃ n, shape !! i = Some n ∧ (k < n)%nat) → length shape = length ks →
  np_ixs (shape ++ rest) (Z.of_nat <$> ks) = Some ks.
Proof.
  induction ks as [|k ks IH]; intros [|n shape] rest H Hl; try done. cbn.
  destruct (H 0%nat k eq_refl) as (m & [= <-] & Hk). unfold np_index. rewrite decide_True by lia. cbn.
  rewrite IH; cbn; [by rewrite Nat2Z.id| |by injection Hl]. intros i j Hi. by apply (H (S i)).
Qed.

Section cond.
  Context (w : nat) (data : list row) (v : node) (K : nat) (ps : list node) (cards : list nat) (add_one : bool) (alpha : Qc).
  Context (Hv : (v < w)%nat) (Hps : Forall (λ p, (p < w)%nat) ps) (Hlen : length cards = length ps).
  Context (Hd : ∀ r, r ∈ data → (0 <= cell r v < Z.of_nat K)%Z).
  Context (Hc : ∀ r i p n, r ∈ data → ps !! i = Some p → cards !! i = Some n → (0 <= cell r p < Z.of_nat n)%Z).
  Notation sub pv := (filter (λ r : row, cell r <$> ps = pv) data).
  Notation est l k := ((qn (hits l v k) + alpha_of add_one alpha) / (qn (length l) + alpha_of add_one alpha * qn K)).

  Lemma gc_loop l c : t_shape c = cards ++ [K] → (∀ pv, pv ∈ l → sub pv ≠ []) →
    ∃ c', loopR (gc_step w data v (al_of K) ps add_one alpha) l c = Ok c' ∧ t_shape c' = cards ++ [K] ∧
      ∀ ks k, length ks = length ps → (k < K)%nat →
        ((Z.of_nat <$> ks) ∈ l → t_at c' (ks ++ [k]) = est (sub (Z.of_nat <$> ks)) k) ∧
        ((Z.of_nat <$> ks) ∉ l → t_at c' (ks ++ [k]) = t_at c (ks ++ [k])).
  Proof using Hv Hlen Hd Hc.
    revert c. induction l as [|pv l IH]; intros c Hsh Hl.
    { exists c. split; [done|]. split; [done|]. intros ks k _ _. split; [by intros ?%elem_of_nil|done]. }
    cbn. unfold gc_step at 1. rewrite decide_False by (apply Hl; by left).
    destruct (gc_base_spec w (sub pv) v K add_one alpha Hv) as (b & -> & Hb & Hat).
    { intros r [_ Hr]%elem_of_list_filter. by apply Hd. }
    cbn [res_bind]. assert (∃ ks0, pv = Z.of_nat <$> ks0 ∧ length ks0 = length ps ∧ np_ixs (t_shape c) pv = Some ks0) as (ks0 & -> & Hl0 & ->).
    { destruct (sub pv) as [|r s] eqn:E; [by destruct (Hl pv ltac:(by left))|].
      assert (r ∈ sub pv) as [Hpv Hr]%elem_of_list_filter by (rewrite E; by left).
      assert (∀ i p, ps !! i = Some p → ∃ n, cards !! i = Some n ∧ (0 <= cell r p < Z.of_nat n)%Z) as Hrp.
      { intros i p Hi. assert (is_Some (cards !! i)) as [n Hn] by (apply lookup_lt_is_Some; rewrite Hlen; by eapply lookup_lt_Some).
        exists n. split; [done|]. by eapply Hc. }
      exists ((λ p, Z.to_nat (cell r p)) <$> ps). assert (pv = Z.of_nat <$> ((λ p, Z.to_nat (cell r p)) <$> ps)) as Hp.
      { rewrite <-Hpv, <-list_fmap_compose. apply fmap_ext_in. intros p [i Hi]%elem_of_list_lookup. destruct (Hrp i p Hi) as (n & _ & ?). cbn. lia. }
      split; [done|]. split; [by rewrite fmap_length|]. rewrite Hp, Hsh. apply np_ixs_ok; [|by rewrite fmap_length].
      intros i k Hi. rewrite list_lookup_fmap in Hi. destruct (ps !! i) as [p|] eqn:Ei; [|done]. injection Hi as <-.
      destruct (Hrp i p Ei) as (n & Hn & ?). exists n. split; [done|lia]. }
    set (c1 := Tensor _ _). destruct (IH c1) as (c' & -> & Hsh' & Hc'); [done|intros pv' Hpv'; apply Hl; by right|].
    exists c'. split; [done|]. split; [done|]. intros ks k Hks Hk. destruct (Hc' ks k Hks Hk) as [H1 H2]. split.
    - intros [E|Hin]%elem_of_cons; [|by apply H1]. destruct (decide ((Z.of_nat <$> ks) ∈ l)) as [Hin|Hn]; [by apply H1|].
      rewrite H2 by done. assert (ks = ks0) as -> by (by apply (inj (fmap Z.of_nat))).
      subst c1. cbn [t_at]. rewrite take_app, decide_True, drop_app by done. by apply Hat.
    - intros [Hne Hn]%not_elem_of_cons. rewrite H2 by done. subst c1. cbn [t_at]. rewrite decide_False; [done|].
      intros E. apply Hne. f_equal. rewrite <-E, Hl0, <-Hks, take_app. done.
  Qed.
  Lemma data_conditional_spec ord al : (∀ l, ord l ≡ₚ l) → length <$> al = cards → data ≠ [] →
    ∃ c, data_conditional ord w data v (al_of K) ps al add_one alpha = Ok c ∧ t_shape c = cards ++ [K] ∧
      ∀ ks k, length ks = length ps → (k < K)%nat →
        t_at c (ks ++ [k]) = if decide (sub (Z.of_nat <$> ks) = []) then / qn K else est (sub (Z.of_nat <$> ks)) k.
  Proof using Hv Hlen Hd Hc Hps.
    intros Hord Hal Hne. unfold data_conditional. case_decide as Hp.
    - subst ps. destruct cards; [|done]. destruct (gc_base_spec w data v K add_one alpha Hv Hd) as (t & -> & Hsh & Hat).
      exists t. split; [done|]. split; [done|]. intros [|] k Hks Hk; [|done]. cbn [app fmap list_fmap].
      assert (∀ l : list row, filter (λ r : row, cell r <$> [] = []) l = l) as E.
      { clear. intros l. induction l as [|r l IH]; [done|]. rewrite filter_cons, IH. by case_decide. }
      rewrite E, decide_False by done. by apply Hat.
    - rewrite decide_True by done. assert (length (al_of K) = K) as HK by (unfold al_of; by rewrite fmap_length, seq_length). rewrite HK, Hal.
      destruct (gc_loop (ord (remove_dups ((λ r, cell r <$> ps) <$> data))) (Tensor (cards ++ [K]) (λ _, / qn K))) as (c & -> & Hsh & Hat); [done| |].
      { intros pv Hpv. rewrite Hord, elem_of_remove_dups in Hpv. apply elem_of_list_fmap in Hpv as (r & -> & Hr). intros E.
        assert (r ∈ sub (cell r <$> ps)) as Hin by (by apply elem_of_list_filter). rewrite E in Hin. by apply elem_of_nil in Hin. }
      exists c. split; [done|]. split; [done|]. intros ks k Hks Hk. destruct (Hat ks k Hks Hk) as [H1 H2]. case_decide as Hs.
      + rewrite H2; [done|]. rewrite Hord, elem_of_remove_dups. intros (r & E & Hr)%elem_of_list_fmap.
        assert (r ∈ sub (Z.of_nat <$> ks)) as Hin by (by apply elem_of_list_filter). rewrite Hs in Hin. by apply elem_of_nil in Hin.
      + apply H1. rewrite Hord, elem_of_remove_dups. destruct (sub (Z.of_nat <$> ks)) as [|r s] eqn:E; [done|].
        assert (r ∈ sub (Z.of_nat <$> ks)) as [Hr Hin]%elem_of_list_filter by (rewrite E; by left). apply elem_of_list_fmap. by exists r.
  Qed.
End cond.

(** ** Parents and alphabets that are not given *)
Lemma found_parents_listed o d : wf d → parents_listed d (found_parents o d).
Proof.
  intros Hwf. unfold found_parents. assert (∀ v ps, found_parents o d !! v = Some ps ↔ v ∈ d_nodes d ∧ on o [167; v]%nat (parents d v) = ps) as H.
  { intros v ps. unfold found_parents. rewrite lookup_set_to_map by done. naive_solver. }
  unfold found_parents in H. split.
  - intros v. split; [by intros [ps [? _]%H]|]. intros Hv. eexists. by apply H.
  - intros v ps [Hv <-]%H. split; [apply NoDup_on|]. intros p. rewrite elem_of_on. apply (wf_par d Hwf).
Qed.
Lemma col_max_spec data v : data ≠ [] → ∃ z, col_max data v = Ok z ∧ (∀ r, r ∈ data → (cell r v <= z)%Z) ∧ ∃ r, r ∈ data ∧ cell r v = z.
Proof.
  destruct data as [|r0 data]; [done|]. intros _. cbn. eexists. split; [done|]. induction data as [|r data IH].
  - cbn. split; [by intros r ->%elem_of_list_singleton|]. exists r0. split; [by left|done].
  - destruct IH as [IH1 (r1 & Hr1 & IH2)]. cbn. split.
    + intros r' [->|[->|Hr]%elem_of_cons]%elem_of_cons; [|lia|]; (etrans; [apply IH1|apply Z.le_max_r]); [by left|by right].
    + destruct (Z.max_spec (cell r v) (foldr (λ r m, Z.max (cell r v) m) (cell r0 v) data)) as [[_ ->]|[_ ->]].
      * exists r1. split; [|done]. apply elem_of_cons in Hr1 as [->|]; [by left|]. right. by right.
      * exists r. split; [|done]. right. by left.
Qed.
Lemma found_alphabets_spec o d w data : usable d w data →
  ∃ m, found_alphabets o d w data = Ok m ∧ alphabets_cover d m data ∧
    ∀ v, v ∈ d_nodes d → ∃ r z, r ∈ data ∧ r !! v = Some z ∧ length (default [] (m !! v)) = S (Z.to_nat z).
Proof.
  intros (Hne & Hw & Hr).
  assert (∀ l m0, (∀ v, v ∈ l → v ∈ d_nodes d) → ∃ m, loopR (λ v (m : gmap node (list Qc)),
      if decide (v < w)%nat then res_bind (col_max data v) (λ z, Ok (<[v := py_nat_range (z + 1)]> m)) else Raise IndexError) l m0 = Ok m ∧
    (∀ v, v ∈ l → ∃ z, col_max data v = Ok z ∧ m !! v = Some (py_nat_range (z + 1))) ∧ (∀ v, v ∉ l → m !! v = m0 !! v)) as HL.
  { induction l as [|v l IH]; intros m0 Hl; cbn.
    { exists m0. split; [done|]. split; [by intros v ?%elem_of_nil|done]. }
    rewrite decide_True by (apply Hw, Hl; by left). destruct (col_max_spec data v Hne) as (z & Ez & _). rewrite Ez. cbn.
    destruct (IH (<[v := py_nat_range (z + 1)]> m0)) as (m & -> & H1 & H2); [intros u Hu; apply Hl; by right|].
    exists m. split; [done|]. split.
    - intros u [->|Hu]%elem_of_cons; [|by apply H1]. destruct (decide (v ∈ l)) as [Hin|Hn]; [by apply H1|].
      exists z. split; [done|]. rewrite H2 by done. apply lookup_insert.
    - intros u [Hne' Hu]%not_elem_of_cons. rewrite H2 by done. by apply lookup_insert_ne. }
  destruct (HL (on o [166]%nat (d_nodes d)) ∅) as (m & E & H1 & _); [intros v; by rewrite elem_of_on|].
  exists m. split; [done|]. assert (∀ r v, r ∈ data → v ∈ d_nodes d → ∃ z, r !! v = Some z ∧ (0 <= z)%Z) as Hget.
  { intros r v Hin Hv. destruct (Hr r Hin) as [Hl Hnn]. assert (is_Some (r !! v)) as [z Hz] by (apply lookup_lt_is_Some; rewrite Hl; by apply Hw).
    exists z. split; [done|]. by eapply Hnn. }
  split.
  - intros v Hv. destruct (H1 v) as (z & Ez & Hm); [by apply elem_of_on|]. exists (Z.to_nat (z + 1)). split; [done|].
    intros r x Hin Hx. destruct (col_max_spec data v Hne) as (z' & Ez' & Hmax & _). rewrite Ez in Ez'. injection Ez' as <-.
    pose proof (Hmax r Hin) as Hle. rewrite (cell_lookup r v x Hx) in Hle. lia.
  - intros v Hv. destruct (H1 v) as (z & Ez & Hm); [by apply elem_of_on|]. destruct (col_max_spec data v Hne) as (z' & Ez' & _ & r & Hin & Hc).
    rewrite Ez in Ez'. injection Ez' as <-. destruct (Hget r v Hin Hv) as (x & Hx & Hx0). exists r, x. split; [done|]. split; [done|].
    rewrite Hm. cbn. unfold py_nat_range. rewrite fmap_length, seq_length. rewrite (cell_lookup r v x Hx) in Hc. lia.
Qed.

(** ** The fitted network *)
Section fit.
  Context (o : oracle) (ord : list (list Z) → list (list Z)) (d : dag) (w : nat) (data : list row) (add_one : bool) (alpha : Qc).
  Context (m : gmap node (list node)) (al : gmap node (list Qc)).
  Context (Hord : ∀ l, ord l ≡ₚ l) (Hwf : wf d) (Hac : acyclic (d_arcs d)) (Hu : usable d w data) (Hm : parents_listed d m) (Hal : alphabets_cover d al data).
  Notation N := (d_nodes d).

  Lemma get_cell r v : r ∈ data → v ∈ N → ∃ z, r !! v = Some z ∧ (0 <= z)%Z ∧ cell r v = z.
  Proof using Hu.
    intros Hin Hv. destruct Hu as (_ & Hw & Hr). destruct (Hr r Hin) as [Hl Hnn].
    assert (is_Some (r !! v)) as [z Hz] by (apply lookup_lt_is_Some; rewrite Hl; by apply Hw).
    exists z. split; [done|]. split; [by eapply Hnn|by apply cell_lookup].
  Qed.
  Definition size_of (v : node) : nat := length (default [] (al !! v)).
  Lemma al_at v : v ∈ N → al !! v = Some (al_of (size_of v)) ∧ ∀ r, r ∈ data → (0 <= cell r v < Z.of_nat (size_of v))%Z.
  Proof using Hal Hu.
    intros Hv. destruct (Hal v Hv) as (k & E & Hk). unfold size_of. rewrite E. cbn. rewrite fmap_length, seq_length. split; [done|].
    intros r Hr. destruct (get_cell r v Hr Hv) as (z & Hz & H0 & ->). split; [done|]. by eapply Hk.
  Qed.
  Lemma size_pos v : v ∈ N → (0 < size_of v)%nat.
  Proof using Hal Hu.
    intros Hv. pose proof Hu as (Hne & _). destruct data as [|r l] eqn:E; [done|]. rewrite <-E in *.
    destruct (al_at v Hv) as [_ H]. specialize (H r). rewrite E in H at 1. specialize (H ltac:(by left)). lia.
  Qed.
  Lemma par_in v ps p : m !! v = Some ps → p ∈ ps → p ∈ N.
  Proof using Hm Hwf. intros E Hp. destruct Hm as [_ H]. apply (H v ps E) in Hp. by destruct (wf_over _ Hwf _ _ Hp). Qed.
  Lemma node_in v ps : m !! v = Some ps → v ∈ N.
  Proof using Hm. intros E. apply Hm. by eexists. Qed.
  Notation sub pv ps := (filter (λ r : row, cell r <$> ps = pv) data).
  Lemma sub_occurs ps (a : assignment) : (∀ p, p ∈ ps → p ∈ N) →
    sub (Z.of_nat <$> vals a ps) ps = filter (λ r : row, Forall (λ v : node, r !! v = Some (Z.of_nat (a !!! v))) ps) data.
  Proof using Hu.
    intros Hps. apply filter_length_ext. intros r Hr. unfold vals. rewrite <-list_fmap_compose. rewrite Forall_forall. split.
    - intros E p Hp. destruct (get_cell r p Hr (Hps p Hp)) as (z & Hz & _ & Hc). rewrite Hz. f_equal. rewrite <-Hc.
      apply elem_of_list_lookup in Hp as [i Hi]. assert ((cell r <$> ps) !! i = Some (cell r p)) as E1 by (by rewrite list_lookup_fmap, Hi).
      rewrite E, list_lookup_fmap, Hi in E1. by injection E1.
    - intros H. apply fmap_ext_in. intros p Hp. cbn. by apply cell_lookup, H.
  Qed.
  Lemma hits_occurs ps (a : assignment) v : (∀ p, p ∈ ps → p ∈ N) → v ∈ N →
    hits (sub (Z.of_nat <$> vals a ps) ps) v (a !!! v) = occurs (ps ++ [v]) a data.
  Proof using Hu.
    intros Hps Hv. rewrite sub_occurs by done. unfold hits, occurs. f_equal. rewrite list_filter_filter. apply filter_length_ext. intros r Hr.
    rewrite Forall_app, Forall_singleton. destruct (get_cell r v Hr Hv) as (z & -> & _ & ->). naive_solver.
  Qed.

  (** The estimate for node [v]. *)
  Definition estimate (K : nat) (np nf : nat) : Qc :=
    if decide (np = 0%nat) then / qn K else (qn nf + alpha_of add_one alpha) / (qn np + alpha_of add_one alpha * qn K).
  Definition table_ok (v : node) (c : tensor) : Prop :=
    ∀ ps, m !! v = Some ps → t_shape c = size_of <$> ps ++ [v] ∧
      ∀ a : assignment, (a !!! v < size_of v)%nat → t_at c (vals a (ps ++ [v])) = estimate (size_of v) (occurs ps a data) (occurs (ps ++ [v]) a data).
  Lemma fit_node_spec v conds : v ∈ N → ∃ c, fit_node ord w data m al add_one alpha v conds = Ok (<[v := c]> conds) ∧ table_ok v c.
  Proof using Hord Hwf Hu Hm Hal.
    intros Hv. unfold fit_node. assert (is_Some (m !! v)) as [ps Eps] by (by apply Hm). rewrite Eps.
    destruct (al_at v Hv) as [Eal Hcell]. rewrite Eal. assert (∀ p, p ∈ ps → p ∈ N) as HpsN by (intros p Hp; by apply (par_in v ps)).
    rewrite decide_True.
    2:{ apply Forall_forall. intros p Hp. destruct (al_at p (HpsN p Hp)) as [-> _]. by eexists. }
    pose proof Hu as (Hne & Hw & _).
    destruct (data_conditional_spec w data v (size_of v) ps (size_of <$> ps) add_one alpha) with (ord := ord) (al := (λ p, default [] (al !! p)) <$> ps)
      as (c & -> & Hsh & Hat).
    - by apply Hw.
    - apply Forall_forall. intros p Hp. by apply Hw, HpsN.
    - by rewrite fmap_length.
    - done.
    - intros r i p n Hr Hi Hn. rewrite list_lookup_fmap, Hi in Hn. injection Hn as <-. apply al_at; [|done]. apply HpsN. by eapply elem_of_list_lookup_2.
    - done.
    - by rewrite <-list_fmap_compose.
    - done.
    - cbn [res_bind]. exists c. split; [done|]. intros ps' E'. rewrite Eps in E'. injection E' as <-.
      split; [by rewrite fmap_app|]. intros a Ha. rewrite vals_app. cbn [vals fmap list_fmap]. rewrite Hat; [|apply vals_length|done].
      rewrite hits_occurs by done. unfold estimate. rewrite sub_occurs by done.
      assert (occurs ps a data = length (filter (λ r : row, Forall (λ v : node, r !! v = Some (Z.of_nat (a !!! v))) ps) data)) as <- by done.
      destruct (decide (filter (λ r : row, Forall (λ v : node, r !! v = Some (Z.of_nat (a !!! v))) ps) data = [])) as [E|E].
      + rewrite decide_True; [done|]. unfold occurs. by rewrite E.
      + rewrite decide_False; [done|]. unfold occurs. by intros E0%nil_length_inv.
  Qed.
  Lemma fit_loop l conds : (∀ v, v ∈ l → v ∈ N) →
    ∃ conds', loopR (fit_node ord w data m al add_one alpha) l conds = Ok conds' ∧
      (∀ v, v ∈ l → ∃ c, conds' !! v = Some c ∧ table_ok v c) ∧ (∀ v, v ∉ l → conds' !! v = conds !! v).
  Proof using Hord Hwf Hu Hm Hal.
    revert conds. induction l as [|v l IH]; intros conds Hl; cbn.
    { exists conds. split; [done|]. split; [by intros v ?%elem_of_nil|done]. }
    destruct (fit_node_spec v conds) as (c & -> & Hc); [apply Hl; by left|].
    destruct (IH (<[v := c]> conds)) as (conds' & -> & H1 & H2); [intros u Hx; apply Hl; by right|].
    exists conds'. split; [done|]. split.
    - intros u [->|Hx]%elem_of_cons; [|by apply H1]. destruct (decide (v ∈ l)) as [Hin|Hn]; [by apply H1|].
      exists c. split; [|done]. rewrite H2 by done. apply lookup_insert.
    - intros u [Hne Hx]%not_elem_of_cons. rewrite H2 by done. by apply lookup_insert_ne.
  Qed.
  Lemma fit_core : ∃ D,
    res_bind (topological_sort d o) (λ t, res_bind (loopR (fit_node ord w data m al add_one alpha) t ∅) (λ conds,
      ddag_make o (on o [168]%nat (d_nodes d)) (d_arcs d) conds m al)) = Ok D ∧
    wf (dd_dag D) ∧ d_nodes (dd_dag D) = N ∧ d_arcs (dd_dag D) = d_arcs d ∧ dd_par D = m ∧ dd_alph D = al ∧
    ∀ v, v ∈ N → ∃ c, dd_cond D !! v = Some c ∧ table_ok v c.
  Proof using Hord Hwf Hac Hu Hm Hal.
    pose proof (topological_sort_spec d o Hwf) as Ht. destruct (topological_sort d o) as [t|e].
    2:{ destruct Ht as (x & _ & Hx). by apply closes_cycle_not_acyclic in Hx. }
    destruct Ht as (_ & Htn & _). cbn [res_bind]. destruct (fit_loop t ∅) as (conds & -> & H1 & H2); [intros v; apply Htn|]. cbn [res_bind].
    unfold ddag_make. assert (list_to_set (on o [168]%nat N) = N) as -> by (apply set_eq; intros x; by rewrite elem_of_list_to_set, elem_of_on).
    destruct (dag_make_ok o N (d_arcs d) Hac) as [d' Ed]. rewrite Ed. cbn [res_bind]. apply dag_make_spec in Ed as (Hwf' & _ & HA & HN).
    assert (d_nodes d' = N) as HN'.
    { rewrite HN. apply set_eq. intros x. rewrite !elem_of_union, !elem_of_map. split; [|by intros ?; left; left].
      intros [[?|([? ?] & -> & Hx)]|([? ?] & -> & Hx)]; [done| |]; by destruct (wf_over _ Hwf _ _ Hx). }
    rewrite decide_True, decide_True.
    - eexists. split; [done|]. cbn. do 5 (split; [done|]). intros v Hv. apply H1. by apply Htn.
    - intros v ps E. pose proof (node_in v ps E) as Hv. destruct (H1 v) as (c & -> & Hc); [by apply Htn|]. cbn. f_equal. by destruct (Hc ps E).
    - intros v ps E. pose proof (node_in v ps E) as Hv. split; [|destruct (H1 v) as (c & -> & Hc); [by apply Htn|by eexists]].
      apply Forall_forall. intros p [Hp| ->%elem_of_list_singleton]%elem_of_app; [apply (par_in v ps) in Hp; [|done]|]; destruct (al_at _ ltac:(eassumption)) as [-> _]; by eexists.
  Qed.
End fit.

(** ** Maximum likelihood *)
Lemma aprod_le {A} (l : list A) (f g : A → Qc) : (∀ x, x ∈ l → 0 <= f x ∧ f x <= g x) → aprod l f <= aprod l g.
Proof.
  induction l as [|x l IH]; intros H; [apply Qcle_refl|]. cbn. destruct (H x ltac:(by left)) as [H0 H1].
  assert (aprod l f <= aprod l g) as H2 by (apply IH; intros y Hy; apply H; by right).
  assert (0 <= aprod l f) as H3 by (apply aprod_nonneg; intros y Hy; apply H; by right).
  set (a := aprod l f) in *. set (b := aprod l g) in *. set (u := f x) in *. set (z := g x) in *. clearbody a b u z.
  apply Qcle_trans with (z * a); [qnra|]. assert (0 <= z) by qlra. qnra.
Qed.
Lemma foldr_aprod {A} (l : list A) (f : A → Qc) : foldr (λ v acc, f v * acc) 1 l = aprod l f.
Proof. induction l as [|x l IH]; [done|]. cbn. by rewrite IH. Qed.
Lemma likelihood_aprod D data : likelihood D data = aprod data (λ r, joint D (row_asg r)).
Proof. induction data as [|r l IH]; [done|]. cbn. by rewrite IH. Qed.
Lemma row_asg_lookup (r : list Z) v z : r !! v = Some z → row_asg r !!! v = Z.to_nat z.
Proof.
  intros H. unfold row_asg, lookup_total, map_lookup_total. assert ((list_to_map (zip (seq 0 (length r)) (Z.to_nat <$> r)) : gmap node nat) !! v = Some (Z.to_nat z)) as ->; [|done].
  apply elem_of_list_to_map_1.
  - rewrite fst_zip by (rewrite fmap_length, seq_length; lia). apply NoDup_seq.
  - apply elem_of_list_lookup. exists v. rewrite lookup_zip_with, list_lookup_fmap, H. rewrite lookup_seq_lt by (by eapply lookup_lt_Some). done.
Qed.

Section mle.
  Context (N : nset) (data : list row) (D E : ddag).
  Context (HN : d_nodes (dd_dag E) = N) (Hwf : ddag_wf E) (Hnn : nonneg E) (Hst : stochastic E).
  Context (Hrow : ∀ r v, r ∈ data → v ∈ N → ∃ z, r !! v = Some z ∧ (0 <= z < Z.of_nat (card E v))%Z).
  Context (par : node → list node) (Hpar : ∀ v p, v ∈ N → p ∈ par v ↔ (p, v) ∈ d_arcs (dd_dag E)).
  Context (HD : ∀ r v, r ∈ data → v ∈ N → prob D (row_asg r) v = qn (occurs (par v ++ [v]) (row_asg r) data) / qn (occurs (par v) (row_asg r) data)).

  Lemma asg_row r v : r ∈ data → v ∈ N → r !! v = Some (Z.of_nat (row_asg r !!! v)) ∧ (row_asg r !!! v < card E v)%nat.
  Proof using Hrow. intros Hr Hv. destruct (Hrow r v Hr Hv) as (z & Hz & Hb). rewrite (row_asg_lookup r v z Hz), Hz. split; [f_equal|]; lia. Qed.
  Lemma par_N v p : v ∈ N → p ∈ par v → p ∈ N.
  Proof using Hpar Hwf HN. intros Hv Hp. apply Hpar in Hp; [|done]. destruct Hwf as ((_ & _ & _ & Ho) & _). rewrite <-HN. by destruct (Ho _ _ Hp). Qed.
  (** Rows with the values of [s] in the columns of [l]. *)
  Definition alike (l : list node) (s r : row) : Prop := Forall (λ p, r !! p = s !! p) l.
  #[local] Instance alike_dec l s r : Decision (alike l s r).
  Proof. unfold alike. apply _. Defined.
  Lemma occurs_alike l s : s ∈ data → (∀ p, p ∈ l → p ∈ N) → occurs l (row_asg s) data = length (filter (alike l s) data).
  Proof using Hrow.
    intros Hs Hl. unfold occurs. f_equal. apply filter_length_ext. intros r Hr. unfold alike. rewrite !Forall_forall. split; intros H p Hp.
    - rewrite (H p Hp). by destruct (asg_row s p Hs (Hl p Hp)) as [<- _].
    - rewrite (H p Hp). by destruct (asg_row s p Hs (Hl p Hp)) as [<- _].
  Qed.
  Lemma prob_alike v s r : v ∈ N → s ∈ data → r ∈ data → alike (par v) s r → prob E (row_asg r) v = prob E (<[v := row_asg r !!! v]> (row_asg s)) v.
  Proof using Hrow Hpar Hwf HN.
    intros Hv Hs Hr Ha. pose proof Hwf as (_ & Hac & Hw). destruct (Hw v) as (al & ps & c & _ & E2 & E3 & _ & Hps & _); [by rewrite HN|].
    unfold prob. rewrite E2, E3. f_equal. rewrite !vals_app. f_equal.
    - apply vals_ext. intros p Hp. assert (p ∈ par v) as Hpv by (apply Hpar; [done|by apply Hps]). rewrite ins_other.
      + unfold alike in Ha. rewrite Forall_forall in Ha. specialize (Ha p Hpv). destruct (asg_row r p Hr (par_N v p Hv Hpv)) as [H1 _].
        destruct (asg_row s p Hs (par_N v p Hv Hpv)) as [H2 _]. rewrite H1, H2 in Ha. injection Ha as Ha. lia.
      + intros ->. apply Hps in Hp. apply (Hac p). by apply tc_once.
    - cbn [vals fmap list_fmap]. by rewrite ins_same.
  Qed.
  Lemma alike_len_pos l s : s ∈ data → (0 < length (filter (alike l s) data))%nat.
  Proof using.
    intros Hs. assert (s ∈ filter (alike l s) data) as Hin by (apply elem_of_list_filter; split; [apply Forall_forall|]; done).
    destruct (filter (alike l s) data); [by apply elem_of_nil in Hin|cbn; lia].
  Qed.
  Notation nf v r := (length (filter (alike (par v ++ [v]) r) data)).
  Lemma ratio_sum v s : v ∈ N → s ∈ data →
    asum data (λ r, if decide (alike (par v) s r) then prob E (row_asg r) v / qn (nf v r) else 0) <= 1.
  Proof using Hrow Hpar Hwf HN Hst Hnn.
    intros Hv Hs. set (c k := prob E (<[v := k]> (row_asg s)) v).
    set (P k r := alike (par v) s r ∧ r !! v = Some (Z.of_nat k)).
    set (n k := length (filter (P k) data)).
    pose proof Hwf as (_ & Hac & Hw). destruct (Hw v) as (al & ps & c0 & _ & E2 & E3 & _ & Hps & _); [by rewrite HN|].
    assert (∀ p, p ∈ ps → p ∈ par v) as Hpsp by (intros p Hp; apply Hpar; [done|by apply Hps]).
    assert (in_range E ps (row_asg s)) as Hir by (intros p Hp; apply asg_row; [done|by apply (par_N v), Hpsp]).
    assert (∀ k, (k < card E v)%nat → 0 <= c k) as Hc0.
    { intros k Hk. apply (Hnn v ps); [by rewrite HN|done|]. intros p [Hp| ->%elem_of_list_singleton]%elem_of_app.
      - rewrite ins_other; [by apply Hir|]. intros ->. apply Hps in Hp. apply (Hac p). by apply tc_once.
      - by rewrite ins_same. }
    assert (qsum (card E v) c = 1) as Hc1 by (apply (Hst v ps); [by rewrite HN|done|done]).
    assert (∀ k r, r ∈ data → P k r → nf v r = n k ∧ row_asg r !!! v = k) as HP.
    { intros k r Hr [Ha Hk]. split; [|rewrite (row_asg_lookup r v _ Hk); lia]. unfold n. f_equal. apply filter_length_ext. intros r' _. unfold P, alike.
      rewrite Forall_app, Forall_singleton, Hk, !Forall_forall. unfold alike in Ha. rewrite Forall_forall in Ha. split; intros [H1 H2]; (split; [|done]); intros p Hp.
      - by rewrite H1, Ha.
      - by rewrite H1, Ha. }
    apply Qcle_trans with (qsum (card E v) c); [|rewrite Hc1; apply Qcle_refl].
    transitivity (asum data (λ r, qsum (card E v) (λ k, if decide (P k r) then c k / qn (n k) else 0))).
    { apply asum_le. intros r Hr. destruct (asg_row r v Hr Hv) as [H1 H2]. rewrite (qsum_one _ _ (row_asg r !!! v)); [|done|].
      - case_decide as Ha.
        + assert (P (row_asg r !!! v) r) as HPr by done. rewrite decide_True by done. destruct (HP _ r Hr HPr) as [-> _].
          rewrite (prob_alike v s r) by done. apply Qcle_refl.
        + rewrite decide_False; [apply Qcle_refl|]. by intros [? _].
      - intros k _ Hk. apply decide_False. intros [_ E1]. rewrite H1 in E1. injection E1 as E1. lia. }
    rewrite asum_qsum. assert (∀ K, (K <= card E v)%nat → qsum K (λ k, asum data (λ r, if decide (P k r) then c k / qn (n k) else 0)) <= qsum K c) as HK.
    { induction K as [|K IH]; intros HKl; [apply Qcle_refl|]. cbn [qsum]. apply Qcplus_le_compat; [apply IH; lia|].
      rewrite (asum_if data (P K)). fold (n K). destruct (decide (n K = 0%nat)) as [->|Hn].
      - specialize (Hc0 K ltac:(lia)). transitivity 0; [|done]. change (qn 0) with 0. rewrite Qcmult_0_l. apply Qcle_refl.
      - assert (qn (n K) * (c K / qn (n K)) = c K) as ->; [|apply Qcle_refl]. field. apply qn_ne. lia. }
    by apply HK.
  Qed.
  Lemma node_likelihood v : v ∈ N → aprod data (λ r, prob E (row_asg r) v) <= aprod data (λ r, prob D (row_asg r) v).
  Proof using Hrow Hpar Hwf HN Hst Hnn HD.
    intros Hv. set (np r := length (filter (alike (par v) r) data)).
    assert (∀ p, p ∈ par v ++ [v] → p ∈ N) as HpN.
    { intros p [Hp| ->%elem_of_list_singleton]%elem_of_app; [by apply (par_N v)|done]. }
    assert (∀ r, r ∈ data → prob D (row_asg r) v = qn (nf v r) / qn (np r) ∧ 0 < prob D (row_asg r) v) as HD'.
    { intros r Hr. rewrite HD by done. rewrite !occurs_alike by (try done; intros p Hp; apply HpN, elem_of_app; by left). fold (np r). split; [done|].
      assert (0 < qn (nf v r)) as H1 by (by apply qn_pos, alike_len_pos). assert (0 < / qn (np r)) as H2 by (by apply Qc_inv_pos', qn_pos, alike_len_pos).
      unfold Qcdiv. set (a := qn (nf v r)) in *. set (b := / qn (np r)) in *. clearbody a b. qnra. }
    assert (∀ r, r ∈ data → 0 <= prob E (row_asg r) v) as HE.
    { intros r Hr. pose proof Hwf as (_ & _ & Hw). destruct (Hw v) as (al & ps & c0 & _ & E2 & E3 & _ & Hps & _); [by rewrite HN|].
      apply (Hnn v ps); [by rewrite HN|done|]. intros p [Hp| ->%elem_of_list_singleton]%elem_of_app; apply asg_row; try done.
      apply (par_N v), Hpar; try done. by apply Hps. }
    set (x r := prob E (row_asg r) v / prob D (row_asg r) v).
    assert (aprod data (λ r, prob E (row_asg r) v) = aprod data (λ r, prob D (row_asg r) v) * aprod data x) as ->.
    { rewrite <-aprod_mul. apply aprod_ext. intros r Hr. unfold x. field. destruct (HD' r Hr) as [_ H]. intros E0. rewrite E0 in H. by destruct (Qclt_not_eq _ _ H). }
    assert (∀ r, r ∈ data → 0 <= x r) as Hx0.
    { intros r Hr. unfold x, Qcdiv. destruct (HD' r Hr) as [_ H%Qc_inv_pos']. specialize (HE r Hr).
      set (a := prob E (row_asg r) v) in *. set (b := / prob D (row_asg r) v) in *. clearbody a b. qnra. }
    assert (aprod data x <= 1) as Hle.
    { assert (aprod data x = aprod (x <$> data) id) as ->.
      { clear. induction data as [|r l IH]; [done|]. cbn. by rewrite IH. }
      apply (mean_prod (length data)); [apply fmap_length|intros y (r & -> & Hr)%elem_of_list_fmap; by apply Hx0|].
      assert (asum (x <$> data) id = asum data x) as ->.
      { clear. induction data as [|r l IH]; [done|]. cbn. by rewrite IH. }
      transitivity (asum data (λ s, asum data (λ r, if decide (alike (par v) s r) then prob E (row_asg r) v / qn (nf v r) else 0))).
      - rewrite asum_swap. apply asum_le. intros r Hr. unfold x. destruct (HD' r Hr) as [-> _].
        transitivity (qn (length (filter (λ s, alike (par v) s r) data)) * (prob E (row_asg r) v / qn (nf v r))).
        + assert (filter (λ s, alike (par v) s r) data = filter (alike (par v) r) data) as ->.
          { apply filter_length_ext. intros s _. unfold alike. rewrite !Forall_forall. split; intros H p Hp; symmetry; by apply H. }
          fold (np r). assert (prob E (row_asg r) v / (qn (nf v r) / qn (np r)) = qn (np r) * (prob E (row_asg r) v / qn (nf v r))) as ->; [|apply Qcle_refl].
          field. split; apply qn_ne; by apply alike_len_pos.
        + rewrite <-(asum_if data (λ s, alike (par v) s r)). apply Qcle_refl.
      - transitivity (asum data (λ _, 1)); [apply asum_le; intros s Hs; by apply ratio_sum|]. rewrite asum_const, Qcmult_1_r. apply Qcle_refl. }
    assert (0 <= aprod data (λ r, prob D (row_asg r) v)) as Hp.
    { apply aprod_nonneg. intros r Hr. apply Qclt_le_weak. by apply HD'. }
    set (a := aprod data (λ r, prob D (row_asg r) v)) in *. set (b := aprod data x) in *. clearbody a b. qnra.
  Qed.
  Lemma max_likelihood : d_nodes (dd_dag D) = N → likelihood E data <= likelihood D data.
  Proof using Hrow Hpar Hwf HN Hst Hnn HD.
    intros HDN. rewrite !likelihood_aprod. unfold joint. rewrite HDN, HN.
    rewrite (aprod_ext _ _ (λ r, aprod (elements N) (λ v, prob E (row_asg r) v))) by (intros; apply foldr_aprod).
    rewrite (aprod_ext _ (λ r, foldr (λ v acc, prob D (row_asg r) v * acc) 1 (elements N)) (λ r, aprod (elements N) (λ v, prob D (row_asg r) v))) by (intros; apply foldr_aprod).
    rewrite !(aprod_swap data). apply aprod_le. intros v Hv%elem_of_elements. split; [|by apply node_likelihood].
    apply aprod_nonneg. intros r Hr. pose proof Hwf as (_ & _ & Hw). destruct (Hw v) as (al & ps & c0 & _ & E2 & E3 & _ & Hps & _); [by rewrite HN|].
    apply (Hnn v ps); [by rewrite HN|done|]. intros p [Hp| ->%elem_of_list_singleton]%elem_of_app; apply asg_row; try done.
    apply (par_N v), Hpar; try done. by apply Hps.
  Qed.
End mle.
