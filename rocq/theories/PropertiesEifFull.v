(** Final theorems about [get_efficient_influence_function_conditionals]: C127. *)
From Coq Require Import QArith.Qcanon Field.
From Verif Require Import Py Spec SpecEnum DagModel QMatModel DiscreteModel DiscreteSampleModel EnumModel SpecDiscrete SpecFit TopoProofs StateProofs ReachProofs QueryProofs CoreProofs MarkovProofs QMatProofs SemProofs PropertiesDag DiscreteProofs DiscreteElim PropertiesDiscrete PropertiesDiscrete2 ImsetProofs FitProofs QcTac SpecEif EifProofs.
From Verif Require Import DiscreteFitModel EifModel EifRun PropertiesEif PgmModel ClfModel PgmArrayModel PropertiesPgm ClfProofs PropertiesPgmArray EifFullModel.
#[local] Open Scope Qc_scope.

Section full.
  Context (D : ddag) (Hwf : ddag_wf D) (Hst : stochastic D) (Hti : no_tiny D).
  Context (t c : node) (Htc : c ≠ t) (Ht : t ∈ d_nodes (dd_dag D)) (Hc : c ∈ d_nodes (dd_dag D)) (z : Z).
  Context (o : oracle) (query : pgm_query) (Hq : exact_query D query).
  Notation N := (d_nodes (dd_dag D)).
  Notation h := (target_if D t c z).
  Notation alc := (default [] (dd_alph D !! c)).
  Notation alt := (default [] (dd_alph D !! t)).
  Let Hnn : nonneg D := tiny_nonneg D Hti.

  Lemma full_split S V a : S ⊆ N → NoDup V → (∀ v, v ∈ V → v ∈ N ∧ v ∉ S) → c ∈ S ∪ list_to_set V → t ∈ S ∪ list_to_set V →
    sum_over D V (λ b, marginal D (S ∪ list_to_set V) b * h b) a = num D S h a.
  Proof using All.
    exact (num_split D Hwf Hst Hnn Hti t c Htc Ht Hc z o id (λ l, reflexivity l) query Hq S V a).
  Qed.
  Lemma full_mean_ok key : NoDup key → (∀ v, v ∈ key → v ∈ N) → ¬ (c ∈ key ∧ t ∈ key) → (∀ v, v ∈ key → plain D v) →
    (∀ a, in_range D key a → marginal D (list_to_set key) a ≠ 0) →
    ∃ T, full_mean o query D t c alc alt z key = Ok T ∧ t_shape T = card D <$> key ∧
      ∀ a, in_range D key a → t_at T (vals a key) = cexp D (list_to_set key) h a.
  Proof using All.
    intros Hnd HN Hboth Hpl Hpos. unfold full_mean. case_decide as Hk.
    { subst key. destruct (constant_mean D Hwf Hst Hnn Hti t c Htc Ht Hc z o id (λ l, reflexivity l) query Hq ∅) as (T & HT & HE).
      rewrite HT. cbn [res_bind]. rewrite HE. cbn [res_bind]. eexists. split; [done|]. split; [done|].
      intros a _. cbn [t_at]. change (list_to_set [] : nset) with (∅ : nset). apply (depends_cexp D Hwf Hst Hnn ∅ h); [set_solver| |set_solver].
      by apply h_local. }
    set (S := list_to_set key : nset) in *.
    assert (S ⊆ N) as HS by (intros v Hv%elem_of_list_to_set; by apply HN).
    assert (NoDup [c; t]) as Hndm by (apply NoDup_cons; split; [by rewrite elem_of_list_singleton|apply NoDup_singleton]).
    assert (∀ v, v ∈ S ↔ v ∈ key) as HSk by (intros v; apply elem_of_list_to_set).
    assert (∀ v, v ∈ [c; t] ↔ v = c ∨ v = t) as Hct by (intros v; rewrite !elem_of_cons, elem_of_nil; tauto).
    destruct (C124_array query D [c; t] key Hwf Hq Hndm Hnd) as (P & HP & Hsh & Hat); [| | |done|done|].
    { intros v Hv. apply elem_of_app in Hv as [Hv|Hv]; [|by apply HN]. apply Hct in Hv as [->| ->]; done. }
    { destruct (decide (c ∈ key)); [exists t|exists c]; rewrite Hct; tauto. }
    { intros v w Hv Hw H1 H2. apply Hct in Hv, Hw. destruct Hv as [->| ->], Hw as [->| ->]; tauto. }
    rewrite HP. cbn [res_bind]. unfold sum_out. rewrite Hsh. cbn [app fmap list_fmap].
    rewrite decide_True by (rewrite fmap_length; done). eexists. split; [done|]. split; [done|].
    intros a Ha. cbn [t_at]. rewrite cexp_num. set (m := marginal D S a) in *.
    change (length alc) with (card D c). change (length alt) with (card D t).
    assert (∀ i j b, (i < card D c)%nat → (j < card D t)%nat → (∀ v, v ∈ key → b !!! v = a !!! v) →
      (c ∉ key → b !!! c = i) → (t ∉ key → b !!! t = j) → (c ∈ key → a !!! c = i) → (t ∈ key → a !!! t = j) →
      t_at P (i :: j :: vals a key) = marginal D (S ∪ {[c; t]}) b / m) as Hyes.
    { intros i j b Hi Hj Hb H1 H2 H3 H4.
      destruct (Hat b b) as [_ H]; [|done|].
      { intros v Hv. apply elem_of_app in Hv as [Hv|Hv]; [|rewrite Hb by done; by apply Ha].
        apply Hct in Hv as [->| ->]; [destruct (decide (c ∈ key))|destruct (decide (t ∈ key))]; try (rewrite Hb by done; by apply Ha); [by rewrite H1|by rewrite H2]. }
      assert (vals b [c; t] = [i; j]) as E1.
      { cbn. f_equal; [|f_equal].
        - destruct (decide (c ∈ key)); [rewrite Hb by done; by apply H3|by apply H1].
        - destruct (decide (t ∈ key)); [rewrite Hb by done; by apply H4|by apply H2]. }
      assert (vals b key = vals a key) as E2 by (unfold vals; apply fmap_ext_in; intros v Hv; by apply Hb).
      rewrite E1, E2 in H. cbn [app] in H. rewrite H by done.
      replace (list_to_set (c :: t :: key) : nset) with (S ∪ {[c; t]}) by (cbn; unfold S; clear; set_solver).
      unfold m. f_equal. apply marginal_agree; [done|]. by intros v Hv; apply Hb. }
    assert (∀ i j, (i < card D c)%nat → (j < card D t)%nat → (c ∈ key ∧ a !!! c ≠ i ∨ t ∈ key ∧ a !!! t ≠ j) → t_at P (i :: j :: vals a key) = 0) as Hzero.
    { intros i j Hi Hj Hne. set (b := <[t := j]> (<[c := i]> a)).
      assert (b !!! t = j) as Hbt by (unfold b; by rewrite ins_same).
      assert (b !!! c = i) as Hbc by (unfold b; rewrite ins_other by congruence; by rewrite ins_same).
      set (b' := if decide (c ∈ key) then (<[t := j]> a) else (<[c := i]> a)).
      assert (∀ v, v ∈ key → b' !!! v = a !!! v) as Hb'.
      { intros v Hv. unfold b'. case_decide as H0; apply ins_other; [|congruence]. intros <-. tauto. }
      assert (c ∉ key → b' !!! c = i) as H1 by (intros H0; unfold b'; rewrite decide_False by done; by rewrite ins_same).
      assert (t ∉ key → b' !!! t = j) as H2.
      { intros H0. unfold b'. rewrite decide_True; [by rewrite ins_same|]. destruct Hne as [[? _]|[? _]]; done. }
      destruct (Hat b b') as [H _].
      { intros v Hv. apply elem_of_app in Hv as [Hv|Hv]; [|rewrite Hb' by done; by apply Ha].
        apply Hct in Hv as [->| ->]; [destruct (decide (c ∈ key))|destruct (decide (t ∈ key))]; try (rewrite Hb' by done; by apply Ha); [by rewrite H1|by rewrite H2]. }
      { intros v Hv Hk'. apply Hct in Hv as [->| ->]; [by rewrite H1|by rewrite H2]. }
      assert (vals b [c; t] = [i; j]) as E1 by (cbn; by rewrite Hbc, Hbt).
      assert (vals b' key = vals a key) as E2 by (unfold vals; apply fmap_ext_in; intros v Hv; by apply Hb').
      rewrite E1, E2 in H. apply H. destruct Hne as [[H3 H4]|[H3 H4]]; [exists c|exists t]; rewrite Hct, Hb' by done; [rewrite Hbc|rewrite Hbt]; split_and!; auto. }
    transitivity (qsum (card D c) (λ i, qsum (card D t) (λ j, h (<[t := j]> (<[c := i]> a)) * t_at P (i :: j :: vals a key)))).
    { apply qsum_ext. intros i Hi. apply qsum_ext. intros j Hj. rewrite (h_ins D t c Htc z). f_equal. by apply weight_h. }
    destruct (decide (c ∈ key)) as [Hck|Hck]; [|destruct (decide (t ∈ key)) as [Htk|Htk]].
    - assert (t ∉ key) as Htk by tauto. rewrite (qsum_one _ _ (a !!! c)).
      + rewrite <-(full_split S [t] a HS) by (try apply NoDup_singleton; try (intros v ->%elem_of_list_singleton; rewrite HSk; done); cbn; set_solver).
        cbn [sum_over]. unfold Qcdiv. rewrite <-qsum_mul_r. apply qsum_ext. intros j Hj.
        rewrite (Hyes (a !!! c) j (<[t := j]> a)); [|by apply Ha|done| |done|intros _; by rewrite ins_same|done|done].
        2:{ intros v Hv. apply ins_other. by intros ->. }
        assert (h (<[t := j]> (<[c := a !!! c]> a)) = h (<[t := j]> a)) as ->.
        { apply (h_local D t c z {[c; t]}); [set_solver..|]. intros v Hv. destruct (decide (v = t)) as [->|Hvt]; [by rewrite !ins_same|].
          rewrite !(ins_other _ t v) by congruence. assert (v = c) as -> by set_solver. by rewrite ins_same. }
        replace (S ∪ list_to_set [t]) with (S ∪ {[c; t]} : nset) by (cbn; assert (c ∈ S) by (by apply HSk); clear -H; set_solver). unfold Qcdiv. ring.
      + by apply Ha.
      + intros i Hi Hne. apply qsum_zero. intros j Hj. rewrite Hzero by (auto). ring.
    - rewrite <-(full_split S [c] a HS) by (try apply NoDup_singleton; try (intros v ->%elem_of_list_singleton; rewrite HSk; done); cbn; set_solver).
      cbn [sum_over]. unfold Qcdiv. rewrite <-qsum_mul_r. apply qsum_ext. intros i Hi.
      rewrite (qsum_one _ _ (a !!! t)).
      + rewrite (Hyes i (a !!! t) (<[c := i]> a)); [|done|by apply Ha| |intros _; by rewrite ins_same|done|done|done].
        2:{ intros v Hv. apply ins_other. by intros ->. }
        assert (h (<[t := a !!! t]> (<[c := i]> a)) = h (<[c := i]> a)) as ->.
        { apply (h_local D t c z {[c; t]}); [set_solver..|]. intros v Hv. destruct (decide (v = t)) as [->|Hvt]; [by rewrite ins_same, ins_other|].
          assert (v = c) as -> by set_solver. rewrite ins_other by congruence. by rewrite !ins_same. }
        replace (S ∪ list_to_set [c]) with (S ∪ {[c; t]} : nset) by (cbn; assert (t ∈ S) by (by apply HSk); clear -H; set_solver). unfold Qcdiv. ring.
      + by apply Ha.
      + intros j Hj Hne. rewrite Hzero by (auto). ring.
    - rewrite <-(full_split S [c; t] a HS); [|done| |cbn; set_solver..].
      2:{ intros v Hv. rewrite HSk. apply Hct in Hv. naive_solver. }
      cbn [sum_over]. unfold Qcdiv. rewrite <-qsum_mul_r. apply qsum_ext. intros i Hi. rewrite <-qsum_mul_r. apply qsum_ext. intros j Hj.
      rewrite (Hyes i j (<[t := j]> (<[c := i]> a))); [|done|done| |intros _; rewrite ins_other by congruence; by rewrite ins_same|intros _; by rewrite ins_same|done|done].
      2:{ intros v Hv. rewrite !ins_other; [done|by intros ->|by intros ->]. }
      replace (S ∪ list_to_set [c; t]) with (S ∪ {[c; t]} : nset) by (cbn; clear; set_solver). unfold Qcdiv. ring.
  Qed.
End full.

(** ** C127: [get_efficient_influence_function_conditionals] *)
(** The counts are those of the imset, and the table of each of its tuples holds the conditional expectations of the target
    (0 where [c] has another value than [z]) given the nodes of the tuple, with an axis for each of them in this order. *)
Theorem C127_means (o : oracle) (query : pgm_query) (D : ddag) (t c : node) (z : Z) (I : nset) :
  ddag_wf D → stochastic D → no_tiny D → exact_query D query → c ≠ t → c ∈ d_nodes (dd_dag D) → t ∈ d_nodes (dd_dag D) →
  (∀ v, v ∈ d_nodes (dd_dag D) → v ∉ I → ¬ (c ∈ fam D v ∧ t ∈ fam D v)) →
  (∀ v u, v ∈ d_nodes (dd_dag D) → v ∉ I → u ∈ fam D v → plain D u) →
  (∀ v S a, v ∈ d_nodes (dd_dag D) → v ∉ I → S = pa D v ∨ S = fam D v → in_range D (elements S) a → marginal D S a ≠ 0) →
  ∃ counts means, full_conditionals o query D t c z I = Ok (counts, means) ∧ counts = standard_imset (dd_dag D) o I ∧ dom means = dom counts ∧
    ∀ key T, means !! key = Some T → t_shape T = card D <$> key ∧
      ∀ a, in_range D key a → t_at T (vals a key) = cexp D (list_to_set key) (target_if D t c z) a.
Proof.
  intros Hwf Hst Hti Hq Hct Hc Ht HI Hpl Hpos. unfold full_conditionals.
  pose proof (full_mean_ok D Hwf Hst Hti t c Hct Ht Hc z o query Hq) as Hmo.
  destruct Hwf as (Hva & Hac & Hw). pose proof (conj Hva (conj Hac Hw)) as Hwf.
  destruct (Hw t Ht) as (al1 & _ & _ & E1 & _), (Hw c Hc) as (al2 & _ & _ & E2 & _). rewrite E1, E2 in *. cbn [default from_option id] in Hmo.
  set (counts := standard_imset (dd_dag D) o I).
  assert (∀ kv, kv ∈ map_to_list counts → ∃ T, full_mean o query D t c al2 al1 z kv.1 = Ok T ∧ t_shape T = card D <$> kv.1 ∧
      ∀ a, in_range D kv.1 a → t_at T (vals a kv.1) = cexp D (list_to_set kv.1) (target_if D t c z) a) as Hkey.
  { intros [key k] Hk. destruct (key_fam _ _ _ _ _ (proj2 (wf_views_agree _) Hva) Hk) as (R & -> & v & Hv & HvI & HS). cbn [fst].
    assert (R = pa D v ∨ R = fam D v) as HS' by (unfold fam, pa; tauto).
    assert (R ⊆ fam D v) as Hsub by (unfold fam in *; destruct HS' as [->| ->]; set_solver).
    assert (fam D v ⊆ d_nodes (dd_dag D)) as HfN by (apply (fam_N D Hwf Hst (tiny_nonneg D Hti) v Hv)).
    assert (list_to_set (on o [57%nat] R) = R :> nset) as HR by (apply set_eq; intros x; by rewrite elem_of_list_to_set, elem_of_on).
    apply Hmo.
    - apply NoDup_on.
    - intros u Hu%elem_of_on. by apply HfN, Hsub.
    - rewrite !elem_of_on. intros [H1 H2]. apply (HI v Hv HvI). split; by apply Hsub.
    - intros u Hu%elem_of_on. apply (Hpl v u Hv HvI). by apply Hsub.
    - intros a Ha. rewrite HR. apply (Hpos v R a Hv HvI HS'). intros u Hu%elem_of_elements. apply Ha. by apply elem_of_on. }
  destruct (loop_map fst (λ kv : list node * Z, full_mean o query D t c al2 al1 z kv.1) (map_to_list counts)) with (m0 := ∅ : gmap (list node) tensor) as (ms & Hms & H1 & H2).
  { intros kv Hkv. destruct (Hkey kv Hkv) as (T & HT & _). by exists T. }
  rewrite Hms. cbn [res_bind]. exists counts, ms. split; [done|]. split; [done|]. split.
  - apply set_eq. intros key. rewrite !elem_of_dom. split.
    + intros [T HT]. destruct (counts !! key) as [k|] eqn:Ek; [by eexists|]. rewrite H1, lookup_empty in HT; [done|].
      intros [key' k] Hin%elem_of_map_to_list. cbn. intros ->. congruence.
    + intros [k Hk]. destruct (H2 (key, k)) as (x & T & _ & _ & _ & HT); [by apply elem_of_map_to_list|]. by exists T.
  - intros key T HT. destruct (counts !! key) as [k|] eqn:Ek.
    + destruct (H2 (key, k)) as ([key' k'] & T' & Hin & Hid & HT' & Hl); [by apply elem_of_map_to_list|]. cbn in Hid, HT', Hl. subst key'.
      assert (T' = T) as -> by congruence. destruct (Hkey _ Hin) as (T' & HT'' & H). cbn in *. assert (T' = T) as -> by congruence. done.
    + rewrite H1, lookup_empty in HT; [done|]. intros [key' k] Hin%elem_of_map_to_list. cbn. intros ->. congruence.
Qed.
(** The means multiplied with their counts add up to the projection, so divided by [p] to the influence. *)
Theorem C127_influence (o : oracle) (query : pgm_query) (D : ddag) (t c : node) (z : Z) (p : Qc) (I : nset) (a : assignment) :
  ddag_wf D → stochastic D → no_tiny D → exact_query D query → c ≠ t → c ∈ d_nodes (dd_dag D) → t ∈ d_nodes (dd_dag D) →
  (∀ v, v ∈ d_nodes (dd_dag D) → v ∉ I → ¬ (c ∈ fam D v ∧ t ∈ fam D v)) →
  (∀ v u, v ∈ d_nodes (dd_dag D) → v ∉ I → u ∈ fam D v → plain D u) →
  (∀ v S a, v ∈ d_nodes (dd_dag D) → v ∉ I → S = pa D v ∨ S = fam D v → in_range D (elements S) a → marginal D S a ≠ 0) →
  in_range D (elements (d_nodes (dd_dag D))) a →
  ∃ counts means, full_conditionals o query D t c z I = Ok (counts, means) ∧
    lsum_of (λ kv : list node * Z, from_option (λ T, t_at T (vals a kv.1)) 0 (means !! kv.1) * qz kv.2) (map_to_list counts) / p =
      influence D I (target_if D t c z) p a.
Proof.
  intros Hwf Hst Hti Hq Hct Hc Ht HI Hpl Hpos Ha.
  destruct (C127_means o query D t c z I Hwf Hst Hti Hq Hct Hc Ht HI Hpl Hpos) as (counts & ms & E & Hcs & Hdom & Hall).
  exists counts, ms. split; [done|]. unfold influence. f_equal.
  transitivity (lsum_of (λ kv : list node * Z, cexp D (list_to_set kv.1) (target_if D t c z) a * qz kv.2) (map_to_list counts)).
  - assert (∀ l : list (list node * Z), (∀ kv, kv ∈ l → counts !! kv.1 = Some kv.2) →
      lsum_of (λ kv : list node * Z, from_option (λ T, t_at T (vals a kv.1)) 0 (ms !! kv.1) * qz kv.2) l =
      lsum_of (λ kv : list node * Z, cexp D (list_to_set kv.1) (target_if D t c z) a * qz kv.2) l) as Hl.
    { induction l as [|[key k] l IH]; intros Hin; [done|]. unfold lsum_of in *. cbn [foldr fst snd]. f_equal; [|apply IH; intros kv Hkv; apply Hin; by right].
      f_equal. pose proof (Hin (key, k) (elem_of_list_here _ _)) as Hk. cbn in Hk.
      assert (is_Some (ms !! key)) as [T HT] by (apply elem_of_dom; rewrite Hdom; apply elem_of_dom; by eexists). rewrite HT. cbn [from_option].
      destruct (Hall key T HT) as [_ H]. apply H. intros v Hv. apply Ha, elem_of_elements.
      rewrite Hcs in Hk. apply elem_of_map_to_list in Hk.
      destruct (key_fam _ _ _ _ _ (proj2 (wf_views_agree _) (proj1 Hwf)) Hk) as (R & -> & w & Hw & _ & HR). apply elem_of_on in Hv.
      apply (fam_N D Hwf Hst (tiny_nonneg D Hti) w Hw). unfold fam, pa. destruct HR as [->| ->]; set_solver. }
    apply Hl. intros [key k] Hin%elem_of_map_to_list. done.
  - rewrite Hcs. rewrite (imset_sum (λ S, cexp D S (target_if D t c z) a)). done.
Qed.
Lemma sum_over_positive (D : ddag) l (X : nset) f a : depends X f → (∀ b, upd_of D l a b → 0 <= f b) → in_range D l a → 0 < f a → 0 < sum_over D l f a.
Proof.
  intros Hf. revert a. induction l as [|v l IH]; intros a H0 Ha Hp; [done|]. cbn [sum_over].
  assert (∀ k b, (k < card D v)%nat → upd_of D l (<[v := k]> a) b → 0 <= f b) as H1.
  { intros k b Hk [Hb1 Hb2]. apply H0. split.
    + intros x Hx. apply not_elem_of_cons in Hx as [Hx1 Hx2]. rewrite Hb1 by done. by apply ins_other.
    + intros x [->|Hx]%elem_of_cons; [|by apply Hb2]. destruct (decide (v ∈ l)) as [Hv|Hv]; [by apply Hb2|]. by rewrite Hb1, ins_same. }
  assert (a !!! v < card D v)%nat as Hav by (apply Ha; by left).
  apply (qsum_pos _ _ (a !!! v)); [|done|].
  - intros k Hk. apply (sum_over_nonneg D). intros b. by apply H1.
  - apply IH; [intros b; by apply H1| |].
    + intros x Hx. rewrite ins_id. apply Ha. by right.
    + by rewrite (Hf _ a) by (intros x _; apply ins_id).
Qed.
(** Distributions in which everything has positive probability. *)
Lemma C127_positive (D : ddag) (v : node) (R : nset) (a : assignment) : ddag_wf D → stochastic D → no_tiny D →
  (∀ u, u ∈ d_nodes (dd_dag D) → (0 < card D u)%nat) → (∀ a, in_range D (elements (d_nodes (dd_dag D))) a → joint D a ≠ 0) →
  v ∈ d_nodes (dd_dag D) → R = pa D v ∨ R = fam D v → in_range D (elements R) a → marginal D R a ≠ 0.
Proof.
  intros Hwf Hst Hti Hcard Hj Hv HR Ha. pose proof (tiny_nonneg D Hti) as Hnn.
  assert (R ⊆ d_nodes (dd_dag D)) as HS.
  { transitivity (fam D v); [unfold fam; destruct HR as [->| ->]; set_solver|]. apply (fam_N D Hwf Hst Hnn v Hv). }
  set (b := foldr (λ u m, <[u := 0%nat]> m) a (elements (d_nodes (dd_dag D) ∖ R)) : assignment).
  assert (∀ l (m : assignment) u, foldr (λ u m, <[u := 0%nat]> m) m l !!! u = if decide (u ∈ l) then 0%nat else m !!! u) as Hlook.
  { induction l as [|x l IH]; intros m u; cbn [foldr]; [rewrite decide_False by apply not_elem_of_nil; done|].
    destruct (decide (u = x)) as [->|Hne]; [rewrite decide_True by (by left); by rewrite ins_same|].
    rewrite ins_other by done. rewrite IH. repeat case_decide; try done; rewrite elem_of_cons in *; tauto. }
  assert (∀ u, u ∈ R → b !!! u = a !!! u) as Hb1.
  { intros u Hu. unfold b. rewrite Hlook, decide_False; [done|]. rewrite elem_of_elements. set_solver. }
  assert (in_range D (elements (d_nodes (dd_dag D))) b) as Hb2.
  { intros u Hu%elem_of_elements. destruct (decide (u ∈ R)) as [Hr|Hr]; [rewrite Hb1 by done; apply Ha; by apply elem_of_elements|].
    unfold b. rewrite Hlook, decide_True by (apply elem_of_elements; set_solver). by apply Hcard. }
  rewrite <-(list_to_set_elements_L R). rewrite <-(marginal_agree D (elements R) b a) by (try done; intros u Hu%elem_of_elements; by apply Hb1).
  rewrite list_to_set_elements_L. apply not_eq_sym, Qclt_not_eq. unfold marginal.
  apply (sum_over_positive D _ (d_nodes (dd_dag D))); [by apply depends_joint| | |].
  - intros x Hx. apply (joint_nonneg D Hwf Hst Hnn). apply (upd_range D Hwf Hst Hnn R b); [|done]. intros u Hu%elem_of_elements. apply Hb2, elem_of_elements. by apply HS.
  - intros u Hu%elem_of_elements. apply Hb2, elem_of_elements. by apply elem_of_difference in Hu as [? _].
  - destruct (Qcle_lt_or_eq _ _ (joint_nonneg D Hwf Hst Hnn b Hb2)) as [H|H]; [done|]. by destruct (Hj b Hb2).
Qed.
(** If the family of a node that is not ignored contains both nodes then nothing is returned. *)
Theorem C127_adjacent (o : oracle) (query : pgm_query) (D : ddag) (t c v : node) (z : Z) (I : nset) :
  ddag_wf D → c ≠ t → v ∈ d_nodes (dd_dag D) → v ∉ I → c ∈ fam D v → t ∈ fam D v →
  ∃ e, full_conditionals o query D t c z I = Raise e.
Proof.
  intros Hwf Hct Hv HvI Hc Ht. unfold full_conditionals.
  destruct (dd_alph D !! t) as [alt|]; [|by eexists]. destruct (dd_alph D !! c) as [alc|]; [|by eexists].
  destruct (key_exists (dd_dag D) o I v) as (key & k & Hkey & Hfam); [apply wf_views_agree, Hwf|apply Hwf|done|done|].
  assert (c ∈ key) as Hck by (by apply Hfam). assert (t ∈ key) as Htk by (by apply Hfam).
  set (body := λ (kv : list node * Z) (ms : gmap (list node) tensor), _).
  assert (∃ e, loopR body (map_to_list (standard_imset (dd_dag D) o I)) ∅ = Raise e) as [e ->]; [|by exists e].
  apply (loopR_raise _ _ (key, k) Hkey). intros s. unfold body. cbn [fst snd]. unfold full_mean.
  rewrite decide_False by (intros ->; by apply elem_of_nil in Hck).
  destruct (C124_twice query D [c; t] key c t) as [e ->]; [by left|by right; left|done|done|done|]. by exists e.
Qed.

(** *** Examples *)
(** The network [0 -> 1 -> 2] with the values 0 and 1: the conditional means of node 2 where node 0 is 1. *)
Definition ex_bits : gmap node (list Qc) := list_to_map [(0%nat, [qz 0; qz 1]); (1%nat, [qz 0; qz 1]); (2%nat, [qz 0; qz 1])].
Definition ex_chain01 : ddag := DDag (dd_dag ex_chain) (dd_list ex_chain) (dd_cond ex_chain) (dd_par ex_chain) ex_bits.
Definition mean_at (r : res (gmap (list node) Z * gmap (list node) tensor)) (key : list node) (ix : list nat) : option Qc :=
  match r with Ok (_, ms) => (λ T, t_at T ix) <$> ms !! key | Raise _ => None end.
Example C127_example :
  (ddag_wf ex_chain01 ∧ stochastic ex_chain01 ∧ no_tiny ex_chain01) ∧ exact_query ex_chain01 (table_query oracle0 ex_chain01) ∧
  (∀ v, v ∈ d_nodes (dd_dag ex_chain01) → v ∉ (∅ : nset) → ¬ (0%nat ∈ fam ex_chain01 v ∧ 2%nat ∈ fam ex_chain01 v)) ∧
  (∀ v u, v ∈ d_nodes (dd_dag ex_chain01) → v ∉ (∅ : nset) → u ∈ fam ex_chain01 v → plain ex_chain01 u) ∧
  (∀ v S a, v ∈ d_nodes (dd_dag ex_chain01) → v ∉ (∅ : nset) → S = pa ex_chain01 v ∨ S = fam ex_chain01 v →
    in_range ex_chain01 (elements S) a → marginal ex_chain01 S a ≠ 0) ∧
  (let r := full_conditionals oracle0 (table_query oracle0 ex_chain01) ex_chain01 2 0 1 ∅ in
    match r with Ok (cs, ms) => bool_decide (map_to_list cs ≡ₚ [([], -1); ([1%nat], -1); ([0; 1]%nat, 1); ([1; 2]%nat, 1)]%Z ∧ size ms = 4%nat) | Raise _ => false end = true ∧
    mean_at r [] [] = Some (qz 249 / qz 500) ∧ mean_at r [0; 1]%nat [1; 1]%nat = Some (q10 2) ∧ mean_at r [0; 1]%nat [0; 1]%nat = Some 0).
Proof.
  assert (ddag_wf ex_chain01 ∧ stochastic ex_chain01 ∧ no_tiny ex_chain01) as (H1 & H2 & H3).
  { destruct (check_rows_sound ex_chain01) as [? ?]; [apply dag_of_wf|by_vm|by_vm|]. split; [done|]. split; [done|]. apply check_small_sound. by_vm. }
  assert (∀ u, u ∈ d_nodes (dd_dag ex_chain01) → u = 0 ∨ u = 1 ∨ u = 2)%nat as HN.
  { intros u Hu. change (u ∈ ({[0; 1; 2]}%nat : nset)) in Hu. rewrite !elem_of_union, !elem_of_singleton in Hu. tauto. }
  split; [done|]. split; [by apply C111_query|]. split; [|split; [|split]].
  - assert (set_Forall (λ v, ¬ (0%nat ∈ fam ex_chain01 v ∧ 2%nat ∈ fam ex_chain01 v)) (d_nodes (dd_dag ex_chain01))) as H by by_vm. intros v Hv _. by apply H.
  - intros v u Hv _ Hu. assert (u ∈ d_nodes (dd_dag ex_chain01)) as Hu' by (by apply (fam_N ex_chain01 H1 H2 (tiny_nonneg _ H3) v Hv)).
    destruct (HN u Hu') as [->|[->| ->]]; unfold plain; by_vm.
  - intros v R a Hv _. apply C127_positive; [done..| | |done].
    + intros u Hu. destruct (HN u Hu) as [->|[->| ->]]; by_vm.
    + intros x Hx. rewrite (depends_joint ex_chain01 H1 H2 (tiny_nonneg _ H3) x (<[0 := x !!! 0]> (<[1 := x !!! 1]> (<[2 := x !!! 2]> ∅)))%nat).
      * assert (x !!! 0 < 2 ∧ x !!! 1 < 2 ∧ x !!! 2 < 2)%nat as (B0 & B1 & B2).
        { split_and!; [apply (Hx 0%nat)|apply (Hx 1%nat)|apply (Hx 2%nat)]; apply elem_of_elements; by_vm. }
        destruct (x !!! 0)%nat as [|[|?]]; [| |lia]; (destruct (x !!! 1)%nat as [|[|?]]; [| |lia]); (destruct (x !!! 2)%nat as [|[|?]]; [| |lia]);
          intros H; apply (f_equal (λ q, bool_decide (q = 0))) in H; vm_compute in H; done.
      * intros u Hu. destruct (HN u Hu) as [->|[->| ->]]; [by rewrite ins_same|by rewrite ins_other, ins_same by done|by rewrite !ins_other, ins_same by done].
  - cbn zeta. split; [by_vm|]. split; [by_vm|]. split; by_vm.
Qed.
(** An inference that knows the states of the tables, and no others. *)
Definition strict_query (o : oracle) (D : ddag) (vars : list node) (ev : list (node * Z)) : res tensor :=
  if decide (Forall (λ p : node * Z, 0 <= p.2 < Z.of_nat (card D p.1))%Z ev) then table_query o D vars ev else Raise KeyError.
Lemma strict_exact (o : oracle) (D : ddag) : ddag_wf D → stochastic D → no_tiny D → exact_query D (strict_query o D).
Proof.
  intros Hwf Hst Hti vars evs a Hne Hnd HN Ha Hm. unfold strict_query. rewrite decide_True; [by apply C111_query|].
  apply Forall_forall. intros p Hp. apply elem_of_list_fmap in Hp as (v & -> & Hv). cbn. pose proof (Ha v Hv). lia.
Qed.
(** With the values 0 and 3 the function of [get_efficient_influence_function] is returned but not these tables: 3 is not the name of a state. *)
Theorem C127_values_refuted : ∃ D, ddag_wf D ∧ stochastic D ∧ no_tiny D ∧ exact_query D (strict_query oracle0 D) ∧
  (∃ f, get_eif oracle0 id (strict_query oracle0 D) D 2 0 1 None ∅ 3 (Some ex_eif_rows) true = Ok f) ∧
  full_conditionals oracle0 (strict_query oracle0 D) D 2 0 1 ∅ = Raise KeyError.
Proof.
  exists ex_chain. destruct C111_example as ((H1 & H2 & H3) & _). split; [done|]. split; [done|]. split; [done|]. split; [by apply strict_exact|]. split.
  - assert (match get_eif oracle0 id (strict_query oracle0 ex_chain) ex_chain 2 0 1 None ∅ 3 (Some ex_eif_rows) true with Ok _ => true | Raise _ => false end = true) as H by by_vm.
    destruct (get_eif _ _ _ _ _ _ _ _ _ _ _ _) as [f|e]; [by exists f|discriminate H].
  - assert (match full_conditionals oracle0 (strict_query oracle0 ex_chain) ex_chain 2 0 1 ∅ with Raise KeyError => true | _ => false end = true) as H by by_vm.
    destruct (full_conditionals _ _ _ _ _ _ _) as [r|[]]; try discriminate H. done.
Qed.
(** If the values 0 and 1 of node 1 are listed in the other order, then the means given this node are exchanged. *)
Definition ex_chain10 : ddag := DDag (dd_dag ex_chain) (dd_list ex_chain) (dd_cond ex_chain) (dd_par ex_chain) (<[1%nat := [qz 1; qz 0]]> ex_bits).
Theorem C127_order_refuted : ∃ D a, ddag_wf D ∧ stochastic D ∧ no_tiny D ∧ exact_query D (table_query oracle0 D) ∧ in_range D [0; 1]%nat a ∧
  mean_at (full_conditionals oracle0 (table_query oracle0 D) D 2 0 1 ∅) [0; 1]%nat (vals a [0; 1]%nat) = Some (q10 9) ∧
  cexp D (list_to_set [0; 1]%nat) (target_if D 2 0 1) a = q10 2.
Proof.
  assert (ddag_wf ex_chain10 ∧ stochastic ex_chain10 ∧ no_tiny ex_chain10) as (H1 & H2 & H3).
  { destruct (check_rows_sound ex_chain10) as [? ?]; [apply dag_of_wf|by_vm|by_vm|]. split; [done|]. split; [done|]. apply check_small_sound. by_vm. }
  exists ex_chain10, (<[0%nat := 1%nat]> (<[1%nat := 1%nat]> ∅)). split; [done|]. split; [done|]. split; [done|]. split; [by apply C111_query|].
  split; [|split; by_vm]. intros v Hv. rewrite !elem_of_cons, elem_of_nil in Hv. destruct Hv as [->|[->|[]]]; by_vm.
Qed.

Print Assumptions C127_means.
Print Assumptions C127_influence.
Print Assumptions C127_adjacent.
Print Assumptions C127_values_refuted.
Print Assumptions C127_order_refuted.
