(** What [get_efficient_influence_function] computes. *)
From Coq Require Import QArith.Qcanon Field.
From Verif Require Import Py Spec SpecEnum DagModel QMatModel DiscreteModel DiscreteSampleModel EnumModel SpecDiscrete SpecFit TopoProofs StateProofs ReachProofs QueryProofs CoreProofs MarkovProofs QMatProofs SemProofs PropertiesDag DiscreteProofs DiscreteElim PropertiesDiscrete PropertiesDiscrete2 ImsetProofs FitProofs QcTac SpecEif EifProofs.
From Verif Require Import DiscreteFitModel EifModel.
#[local] Open Scope Qc_scope.

(** ** Loops *)
Lemma loopR_raise {A X} (f : X → A → res A) l x : x ∈ l → (∀ s, ∃ e, f x s = Raise e) → ∀ s, ∃ e, loopR f l s = Raise e.
Proof.
  intros Hx Hf. induction l as [|y l IH]; [by apply elem_of_nil in Hx|]. intros s. cbn [loopR]. apply elem_of_cons in Hx as [<-|Hx].
  - destruct (Hf s) as [e ->]. by exists e.
  - destruct (f y s) as [s'|e]; [by apply IH|by exists e].
Qed.
Lemma loop_map {X K Y} `{Countable K} (k : X → K) (f : X → res Y) (l : list X) :
  (∀ x, x ∈ l → ∃ y, f x = Ok y) → ∀ m0 : gmap K Y,
  ∃ m, loopR (λ x m, res_bind (f x) (λ y, Ok (<[k x := y]> m))) l m0 = Ok m ∧
    (∀ κ, (∀ x, x ∈ l → k x ≠ κ) → m !! κ = m0 !! κ) ∧
    (∀ x, x ∈ l → ∃ x' y, x' ∈ l ∧ k x' = k x ∧ f x' = Ok y ∧ m !! k x = Some y).
Proof.
  induction l as [|x l IH]; intros Hf m0.
  { exists m0. split; [done|]. split; [done|]. intros x Hx. by apply elem_of_nil in Hx. }
  destruct (Hf x) as [y Hy]; [by left|]. cbn [loopR]. rewrite Hy. cbn [res_bind].
  destruct (IH (λ x' Hx', Hf x' ltac:(by right)) (<[k x := y]> m0)) as (m & Hm & H1 & H2). exists m. split; [done|]. split.
  - intros κ Hκ. rewrite H1; [|intros x' Hx'; apply Hκ; by right]. apply lookup_insert_ne. apply Hκ. by left.
  - assert (∀ x', x' ∈ l → ∃ x'' y'', x'' ∈ x :: l ∧ k x'' = k x' ∧ f x'' = Ok y'' ∧ m !! k x' = Some y'') as H3.
    { intros x' Hx'. destruct (H2 x' Hx') as (x'' & y'' & Hin & ?). exists x'', y''. split; [by right|done]. }
    intros x' [->|Hx']%elem_of_cons; [|by apply H3].
    destruct (decide (Exists (λ x', k x' = k x) l)) as [He|He].
    + apply Exists_exists in He as (x' & Hx' & Hk). destruct (H3 x' Hx') as (x'' & y'' & Hin & Hk' & Hf' & Hm'). exists x'', y''. rewrite <-Hk. done.
    + exists x, y. split; [by left|]. split; [done|]. split; [done|]. rewrite H1; [apply lookup_insert|].
      intros x' Hx' Hk. apply He, Exists_exists. by exists x'.
Qed.

(** ** Sums over the counts *)
Section counts.
  Context (G : nset → Qc).
  Definition msum (m : gmap nset Z) : Qc := lsum_of (λ p : nset * Z, G p.1 * qz p.2) (map_to_list m).
  Lemma msum_insert m S k : m !! S = None → msum (<[S := k]> m) = G S * qz k + msum m.
  Proof. intros H. unfold msum. rewrite (lsum_of_perm _ _ _ (map_to_list_insert m S k H)). done. Qed.
  Lemma msum_bump m S k : msum (bump S k m) = msum m + G S * qz k.
  Proof.
    unfold bump. destruct (m !! S) as [j|] eqn:E; [change (default 0%Z (Some j)) with j|change (default 0%Z None) with 0%Z].
    - assert (msum m = G S * qz j + msum (delete S m)) as ->. { rewrite <-msum_insert by apply lookup_delete. by rewrite insert_delete. }
      rewrite <-(insert_delete_insert m). rewrite msum_insert by apply lookup_delete. rewrite qz_add. ring.
    - rewrite msum_insert by done. rewrite Z.add_0_l. ring.
  Qed.
  Lemma msum_counts d o I : msum (imset_counts d o I) = lsum_of (λ v, G (parents d v ∪ {[v]}) - G (parents d v)) (elements (d_nodes d ∖ I)).
  Proof.
    rewrite <-(lsum_of_perm _ _ _ (on_perm o [58%nat] (d_nodes d ∖ I))). unfold imset_counts. generalize (on o [58%nat] (d_nodes d ∖ I)). intros l.
    assert (∀ m, msum (foldl (λ m n, bump (parents d n) (-1) (bump (parents d n ∪ {[n]}) 1 m)) m l) =
      msum m + lsum_of (λ v, G (parents d v ∪ {[v]}) - G (parents d v)) l) as H.
    { induction l as [|v l IH]; intros m; cbn [foldl]; [unfold lsum_of; cbn; ring|]. rewrite IH, !msum_bump. unfold lsum_of at 2. cbn [foldr].
      fold (lsum_of (λ v, G (parents d v ∪ {[v]}) - G (parents d v)) l). replace (qz (-1)) with (- (1)) by (by apply (bool_decide_unpack _)).
      replace (qz 1) with 1 by (by apply (bool_decide_unpack _)). ring. }
    rewrite H. unfold msum at 1. rewrite map_to_list_empty. unfold lsum_of at 1. cbn. ring.
  Qed.
  Lemma lsum_of_fmap {A B} (g : A → B) (f : B → Qc) l : lsum_of f (g <$> l) = lsum_of (λ x, f (g x)) l.
  Proof. unfold lsum_of. induction l as [|x l IH]; cbn; [done|]. by rewrite IH. Qed.
  Lemma lsum_of_filter {A} (f : A → Qc) (P : A → Prop) `{∀ x, Decision (P x)} l : (∀ x, x ∈ l → ¬ P x → f x = 0) → lsum_of f (filter P l) = lsum_of f l.
  Proof.
    unfold lsum_of. induction l as [|x l IH]; intros Hz; [done|]. rewrite filter_cons. case_decide as Hp; cbn [foldr].
    - f_equal. apply IH. intros y Hy. apply Hz. by right.
    - rewrite (Hz x (elem_of_list_here x l) Hp). rewrite IH; [ring|]. intros y Hy. apply Hz. by right.
  Qed.
  Lemma imset_sum d o I : lsum_of (λ kv : list node * Z, G (list_to_set kv.1) * qz kv.2) (map_to_list (standard_imset d o I)) =
    lsum_of (λ v, G (parents d v ∪ {[v]}) - G (parents d v)) (elements (d_nodes d ∖ I)).
  Proof.
    rewrite <-(msum_counts d o I). unfold standard_imset. set (l := filter _ (map_to_list _)).
    assert (NoDup ((λ p : nset * Z, (on o [57%nat] p.1, p.2)) <$> l).*1) as Hnd.
    { rewrite <-list_fmap_compose. assert (NoDup l.*1) as Hn.
      { unfold l. pose proof (NoDup_fst_map_to_list (imset_counts d o I)) as Hn. clear -Hn.
        induction (map_to_list (imset_counts d o I)) as [|[S v] l' IH]; [constructor|]. cbn in Hn. apply NoDup_cons in Hn as [H1 H2].
        rewrite filter_cons. case_decide; [|by apply IH]. cbn. apply NoDup_cons. split; [|by apply IH].
        intros Hin. apply H1. apply elem_of_list_fmap in Hin as ([S' v'] & -> & Hin). apply elem_of_list_filter in Hin as [_ Hin].
        apply elem_of_list_fmap. by exists (S', v'). }
      change (NoDup ((on o [57%nat] ∘ fst) <$> l)). rewrite list_fmap_compose. apply NoDup_fmap_2_strong; [|done]. intros X Y _ _. apply on_inj. }
    rewrite (lsum_of_perm _ _ _ (map_to_list_to_map _ Hnd)), lsum_of_fmap. cbn.
    rewrite (lsum_of_ext _ (λ p : nset * Z, G p.1 * qz p.2)). 2:{ intros [X k] _. cbn. do 2 f_equal. apply set_eq. intros x. by rewrite elem_of_list_to_set, elem_of_on. }
    unfold l. rewrite lsum_of_filter; [done|]. intros [X k] _ Hk. cbn in *. assert (k = 0%Z) as -> by (destruct (decide (k = 0%Z)); tauto).
    replace (qz 0) with 0 by (by apply (bool_decide_unpack _)). ring.
  Qed.
End counts.

(** ** Which tuples are keys *)
Lemma key_exists d o I v : wf d → acyclic (d_arcs d) → v ∈ d_nodes d → v ∉ I →
  ∃ key k, (key, k) ∈ map_to_list (standard_imset d o I) ∧ (∀ u, u ∈ parents d v ∪ {[v]} → u ∈ key).
Proof.
  intros Hwf Hac Hv HI.
  assert (∃ S, parents d v ∪ {[v]} ⊆ S ∧ imset_value (d_nodes d ∖ I) (d_arcs d) S ≠ 0%Z) as (S & HS & Hval).
  { set (f := λ u, parents d u ∪ {[u]}).
    assert (∀ u, u ∉ parents d u) as Hno. { intros u Hu. apply (wf_par d Hwf) in Hu. apply (Hac u). by apply tc_once. }
    assert (∀ u, u ∈ d_nodes d → f u ⊆ d_nodes d) as Hf.
    { intros u Hu x [Hx| ->%elem_of_singleton]%elem_of_union; [|done]. apply (wf_par d Hwf) in Hx. by apply (wf_over d Hwf x u). }
    assert (∀ n u, (size (d_nodes d) - size (f u) <= n)%nat → u ∈ d_nodes d → u ∉ I → ∃ S, f u ⊆ S ∧ imset_value (d_nodes d ∖ I) (d_arcs d) S ≠ 0%Z) as Hrec; [|by eapply Hrec].
    induction n as [n IH] using lt_wf_ind. intros u Hn Hu HuI.
    destruct (decide (Exists (λ x, parents d x = f u) (elements (d_nodes d ∖ I)))) as [He|He].
    - apply Exists_exists in He as (x & Hx%elem_of_elements & Hpx). apply elem_of_difference in Hx as [Hx HxI].
      assert (f u ⊂ f x) as Hlt. { unfold f at 2. rewrite Hpx. split; [set_solver|]. intros Hsub. apply (Hno x). rewrite Hpx. set_solver. }
      apply subset_size in Hlt. pose proof (subseteq_size _ _ (Hf x Hx)).
      destruct (IH (size (d_nodes d) - size (f x))%nat ltac:(lia) x ltac:(lia) Hx HxI) as (S & HS & Hval). exists S. split; [|done]. unfold f in HS at 1. rewrite Hpx in HS. set_solver.
    - exists (f u). split; [done|]. unfold imset_value.
      assert (filter (λ x, pa_set (d_arcs d) x = f u) (d_nodes d ∖ I) = ∅) as ->.
      { apply set_eq. intros x. rewrite elem_of_filter. split; [|set_solver]. intros [Hx Hxn]. destruct He. apply Exists_exists. exists x. rewrite elem_of_elements. split; [done|]. by rewrite (parents_pa_set d x Hwf). }
      rewrite size_empty. assert (size (filter (λ x, pa_set (d_arcs d) x ∪ {[x]} = f u) (d_nodes d ∖ I)) ≠ 0%nat); [|lia].
      intros H%size_empty_inv%leibniz_equiv. apply (not_elem_of_empty (C := nset) u). rewrite <-H. apply elem_of_filter. split; [|set_solver]. unfold f. by rewrite (parents_pa_set d u Hwf). }
  exists (on o [57%nat] S), (imset_value (d_nodes d ∖ I) (d_arcs d) S). split.
  - apply elem_of_map_to_list. apply standard_imset_lookup; [done|]. split; [done|]. by exists S.
  - intros u Hu. apply elem_of_on. by apply HS.
Qed.
Lemma key_fam d o I key k : wf d → (key, k) ∈ map_to_list (standard_imset d o I) →
  ∃ S, key = on o [57%nat] S ∧ ∃ v, v ∈ d_nodes d ∧ v ∉ I ∧ (S = parents d v ∨ S = parents d v ∪ {[v]}).
Proof.
  intros Hwf H. apply elem_of_map_to_list, standard_imset_lookup in H as (Hk & S & -> & Hv); [|done]. exists S. split; [done|].
  unfold imset_value in Hv.
  destruct (decide (filter (λ x, pa_set (d_arcs d) x ∪ {[x]} = S) (d_nodes d ∖ I) = ∅)) as [E1|E1].
  - destruct (decide (filter (λ x, pa_set (d_arcs d) x = S) (d_nodes d ∖ I) = ∅)) as [E2|E2].
    + rewrite E1, E2 in Hv. by destruct Hk.
    + apply set_choose_L in E2 as (x & [Hx Hxn]%elem_of_filter). exists x. rewrite (parents_pa_set d x Hwf). apply elem_of_difference in Hxn as [??]. split; [done|]. split; [done|]. by left.
  - apply set_choose_L in E1 as (x & [Hx Hxn]%elem_of_filter). exists x. rewrite (parents_pa_set d x Hwf). apply elem_of_difference in Hxn as [??]. split; [done|]. split; [done|]. by right.
Qed.

(** ** Repeated nodes *)
Lemma add_repeated_at D t marg cond zs u v z : NoDup marg → filter (λ x, x ∉ cond) marg = [u] → filter (λ x, x ∈ cond) marg = [v] →
  t_shape t = [card D u] → zs !! pos cond v = Some z → dd_dims D !! u = Some (card D u) → dd_dims D !! v = Some (card D v) →
  ∃ t', add_repeated_marginal D t marg cond zs = Ok t' ∧ t_shape t' = card D <$> marg ∧
    ∀ f : node → nat, t_at t' (f <$> marg) = t_at t [f u] * (if decide (Z.of_nat (f v) = z) then 1 else 0).
Proof.
  intros Hnd Ho Hd Hsh Hz Hdu Hdv. unfold add_repeated_marginal. rewrite Ho, Hd. cbn [fmap list_fmap].
  set (right := (λ v, _) <$> marg).
  assert (∀ x, x ∈ marg ↔ x = u ∨ x = v) as Hm.
  { intros x. split.
    - intros Hx. destruct (decide (x ∈ cond)) as [Hc|Hc].
      + right. assert (x ∈ filter (λ x, x ∈ cond) marg) as H by (by apply elem_of_list_filter). rewrite Hd in H. by apply elem_of_list_singleton in H.
      + left. assert (x ∈ filter (λ x, x ∉ cond) marg) as H by (by apply elem_of_list_filter). rewrite Ho in H. by apply elem_of_list_singleton in H.
    - intros [->| ->].
      + assert (u ∈ filter (λ x, x ∉ cond) marg) as H by (rewrite Ho; by left). by apply elem_of_list_filter in H as [_ ?].
      + assert (v ∈ filter (λ x, x ∈ cond) marg) as H by (rewrite Hd; by left). by apply elem_of_list_filter in H as [_ ?]. }
  assert (u ≠ v) as Huv.
  { intros ->. assert (v ∈ filter (λ x, x ∉ cond) marg) as H by (rewrite Ho; by left). assert (v ∈ filter (λ x, x ∈ cond) marg) as H' by (rewrite Hd; by left).
    apply elem_of_list_filter in H as [H _], H' as [H' _]. done. }
  assert (∀ a, a ∈ right ↔ a = ax_d u ∨ a = ax_r v) as Hr.
  { intros a. unfold right. rewrite elem_of_list_fmap. split.
    - intros (x & -> & Hx). apply Hm in Hx as [->| ->]; [left; by rewrite decide_True by (by left)|right]. rewrite decide_False; [done|]. rewrite elem_of_list_singleton. congruence.
    - intros [->| ->]; [exists u|exists v]; (split; [|apply Hm; tauto]); [by rewrite decide_True by (by left)|]. rewrite decide_False; [done|]. rewrite elem_of_list_singleton. congruence. }
  assert (NoDup right) as Hndr.
  { unfold right. apply NoDup_fmap_2_strong; [|done]. intros x y _ _. repeat case_decide; unfold ax_d, ax_r; congruence. }
  assert (∀ (f : node → nat), (λ a : axis, f a.2) <$> right = f <$> marg) as Hf.
  { intros f. unfold right. rewrite <-list_fmap_compose. apply fmap_ext_in. intros x _. cbn. by case_decide. }
  rewrite decide_True by (apply Forall_singleton; rewrite Hdv; by eexists).
  destruct (einops_repeat_ok t [ax_d u] right (λ a, if decide (a.1 = 1%nat ∧ a.2 ∈ [v]) then dd_dims D !! a.2 else None)) as [t1 Ht1].
  { apply NoDup_singleton. } { done. } { intros a ->%elem_of_list_singleton. apply Hr. by left. } { by rewrite Hsh. }
  { intros a Ha Hna. apply Hr in Ha as [->| ->]; [destruct Hna; by left|]. rewrite decide_True by (split; [done|by left]). cbn. rewrite Hdv. by eexists. }
  rewrite Ht1. cbn [res_bind]. rewrite Hz, Hdv. cbn [default].
  set (ones := Tensor _ _).
  destruct (einops_repeat_ok ones [ax_r v] right (λ a, if decide (a.1 = 0%nat ∧ a.2 ∈ marg ∧ a.2 ≠ v) then dd_dims D !! a.2 else None)) as [t2 Ht2].
  { apply NoDup_singleton. } { done. } { intros a ->%elem_of_list_singleton. apply Hr. by right. } { done. }
  { intros a Ha Hna. apply Hr in Ha as [->| ->]; [|destruct Hna; by left]. rewrite decide_True by (split_and!; [done|apply Hm; by left|done]). cbn. rewrite Hdu. by eexists. }
  rewrite Ht2. cbn [res_bind].
  assert (t_shape t1 = card D <$> marg) as Hs1.
  { rewrite <-(Hf (card D)). eapply (einops_repeat_shape _ _ _ _ _ (λ a : axis, card D a.2) Ht1); [done|].
    intros a Ha Hna. apply Hr in Ha as [->| ->]; [destruct Hna; by left|]. rewrite decide_True by (split; [done|by left]). done. }
  assert (t_shape t2 = card D <$> marg) as Hs2.
  { rewrite <-(Hf (card D)). eapply (einops_repeat_shape _ _ _ _ _ (λ a : axis, card D a.2) Ht2); [done|].
    intros a Ha Hna. apply Hr in Ha as [->| ->]; [|destruct Hna; by left]. rewrite decide_True by (split_and!; [done|apply Hm; by left|done]). done. }
  rewrite decide_True by congruence. eexists. split; [done|]. split; [done|]. intros f. cbn [t_at].
  rewrite <-(Hf f). rewrite (einops_repeat_at _ _ _ _ _ (λ a : axis, f a.2) Ht1), (einops_repeat_at _ _ _ _ _ (λ a : axis, f a.2) Ht2). done.
Qed.

(** ** Means *)
Section run.
  Context (D : ddag) (Hwf : ddag_wf D) (Hst : stochastic D) (Hnn : nonneg D) (Hti : no_tiny D).
  Context (t c : node) (Htc : c ≠ t) (Ht : t ∈ d_nodes (dd_dag D)) (Hc : c ∈ d_nodes (dd_dag D)) (z : Z).
  Context (o : oracle) (ord : list (list Z) → list (list Z)) (Hord : ∀ l, ord l ≡ₚ l) (query : pgm_query) (Hq : exact_query D query).
  Notation N := (d_nodes (dd_dag D)).
  Notation h := (target_if D t c z).
  Notation alc := (default [] (dd_alph D !! c)).
  Notation alt := (default [] (dd_alph D !! t)).

  Lemma h_local S : c ∈ S → t ∈ S → depends S h.
  Proof. intros H1 H2 a b Hab. unfold target_if, value. by rewrite (Hab c H1), (Hab t H2). Qed.
  Lemma num_split S V a : S ⊆ N → NoDup V → (∀ v, v ∈ V → v ∈ N ∧ v ∉ S) → c ∈ S ∪ list_to_set V → t ∈ S ∪ list_to_set V →
    sum_over D V (λ b, marginal D (S ∪ list_to_set V) b * h b) a = num D S h a.
  Proof using All.
    intros HS Hnd HV H1 H2. unfold num. set (S' := S ∪ list_to_set V) in *.
    rewrite (sum_over_perm D (elements (N ∖ S)) (V ++ elements (N ∖ S'))); [|apply NoDup_elements|].
    - rewrite sum_over_app. apply sum_over_ext. intros b _. change (marginal D S' b * h b = num D S' h b).
      transitivity (num D S' (λ x, 1 * h x) b); [|unfold num; apply sum_over_ext; intros; ring].
      rewrite (num_local D Hwf Hst Hnn) by (by apply h_local). by rewrite marginal_num.
    - apply NoDup_Permutation; [apply NoDup_elements| |].
      + apply NoDup_app. split; [done|]. split; [|apply NoDup_elements]. intros v Hv. unfold S'. rewrite elem_of_elements. set_solver.
      + intros v. rewrite elem_of_app, !elem_of_elements, !elem_of_difference. unfold S'. rewrite elem_of_union, elem_of_list_to_set.
        destruct (decide (v ∈ V)) as [Hv|Hv]; [destruct (HV v Hv)|]; tauto.
  Qed.
  Lemma weight_h i j : (i < card D c)%nat → (if decide (alc !! i = Some (qz z)) then 1 else 0) * default 0 (alt !! j) =
    (if decide (default 0 (alc !! i) = qz z) then default 0 (alt !! j) else 0).
  Proof.
    intros Hi. unfold card in Hi. destruct (lookup_lt_is_Some_2 _ _ Hi) as [x Hx]. rewrite Hx. cbn [default from_option id].
    repeat case_decide; try congruence; ring.
  Qed.
  Lemma h_ins i j a : h (<[t := j]> (<[c := i]> a)) = (if decide (default 0 (alc !! i) = qz z) then default 0 (alt !! j) else 0).
  Proof. unfold target_if, value. rewrite ins_same, (ins_other _ t c j) by congruence. by rewrite ins_same. Qed.
  Lemma expval_ok T : t_shape T = [card D c; card D t] →
    expval alc alt z T = Ok (qsum (card D c) (λ i, qsum (card D t) (λ j, h (<[t := j]> (<[c := i]> ∅)) * t_at T [i; j]))).
  Proof.
    intros HT. unfold expval. rewrite decide_True by done. f_equal. unfold card. apply qsum_ext. intros i Hi. apply qsum_ext. intros j Hj.
    by rewrite weight_h, h_ins.
  Qed.
  Lemma dims_ok v : v ∈ N → dd_dims D !! v = Some (card D v).
  Proof using All. intros Hv. by apply (dims_card D Hwf). Qed.

  Lemma zip_vals (key : list node) (a : assignment) : zip key ((λ v, Z.of_nat (a !!! v)) <$> key) = (λ v, (v, Z.of_nat (a !!! v))) <$> key.
  Proof. induction key as [|v key IH]; cbn; [done|]. by rewrite IH. Qed.

  Lemma conditional_mean key a : NoDup key → (∀ v, v ∈ key → v ∈ N) → in_range D key a → marginal D (list_to_set key) a ≠ 0 →
    ¬ (c ∈ key ∧ t ∈ key) →
    ∃ T, conditional_pgmpy query D [c; t] key ((λ v, Z.of_nat (a !!! v)) <$> key) = Ok T ∧
      expval alc alt z T = Ok (cexp D (list_to_set key) h a).
  Proof using All.
    intros Hnd HN Ha Hm Hboth. set (S := list_to_set key : nset) in *. set (m := marginal D S a) in *.
    assert (S ⊆ N) as HS by (intros v Hv%elem_of_list_to_set; by apply HN).
    assert (NoDup [c; t]) as Hndm by (apply NoDup_cons; split; [by rewrite elem_of_list_singleton|apply NoDup_singleton]).
    assert (∀ v, v ∈ S ↔ v ∈ key) as HSk by (intros v; apply elem_of_list_to_set).
    unfold conditional_pgmpy. rewrite zip_vals.
    destruct (decide (c ∈ key)) as [Hck|Hck]; [|destruct (decide (t ∈ key)) as [Htk|Htk]].
    - assert (t ∉ key) as Htk by tauto.
      assert (filter (λ v, v ∉ key) [c; t] = [t]) as Ho by (rewrite filter_cons_False by tauto; rewrite filter_cons_True by done; done).
      assert (filter (λ v, v ∈ key) [c; t] = [c]) as Hd by (rewrite filter_cons_True by done; rewrite filter_cons_False by done; done).
      rewrite Ho. destruct (Hq [t] key a) as (T0 & HT0 & Hsh & Hat); [done|by apply NoDup_cons| |done|done|].
      { intros v [->|Hv]%elem_of_cons; [done|by apply HN]. }
      rewrite HT0. cbn [res_bind]. rewrite decide_False by (cbn; lia).
      destruct (add_repeated_at D T0 [c; t] key ((λ v, Z.of_nat (a !!! v)) <$> key) t c (Z.of_nat (a !!! c)) Hndm Ho Hd Hsh) as (T & HT & HshT & HatT).
      { rewrite list_lookup_fmap, pos_lookup by done. done. } { by apply dims_ok. } { by apply dims_ok. }
      exists T. split; [done|]. rewrite expval_ok by done. f_equal. rewrite cexp_num. fold m.
      rewrite (qsum_one _ _ (a !!! c)).
      + rewrite <-(num_split S [t] a HS) by (try apply NoDup_singleton; try (intros v ->%elem_of_list_singleton; rewrite HSk; done); cbn; set_solver).
        cbn [sum_over]. unfold Qcdiv. rewrite <-qsum_mul_r. apply qsum_ext. intros j Hj.
        pose proof (HatT (λ v, if decide (v = c) then a !!! c else j)) as HatT'. cbn in HatT'. rewrite (decide_True (P := c = c)), (decide_False (P := t = c)) in HatT' by congruence.
        rewrite HatT', decide_True by done.
        pose proof (Hat (<[t := j]> a)) as Hat'. cbn [vals fmap list_fmap] in Hat'. rewrite ins_same in Hat'. rewrite Hat'.
        * assert (h (<[t := j]> (<[c := a !!! c]> ∅)) = h (<[t := j]> a)) as ->.
          { apply (h_local {[c; t]}); [set_solver..|]. intros v Hv. destruct (decide (v = t)) as [->|Hvt]; [by rewrite !ins_same|].
            rewrite !(ins_other _ t v) by congruence. assert (v = c) as -> by set_solver. by rewrite ins_same. }
          replace (S ∪ list_to_set [t]) with (list_to_set ([t] ++ key) : nset) by (cbn; unfold S; clear; set_solver). fold S m. unfold Qcdiv. ring.
        * intros v ->%elem_of_list_singleton. by rewrite ins_same.
        * intros v Hv. apply ins_other. by intros ->.
      + by apply Ha.
      + intros i Hi Hne. apply qsum_zero. intros j Hj.
        pose proof (HatT (λ v, if decide (v = c) then i else j)) as HatT'. cbn in HatT'. rewrite (decide_True (P := c = c)), (decide_False (P := t = c)) in HatT' by congruence.
        rewrite HatT', decide_False by lia. ring.
    - assert (filter (λ v, v ∉ key) [c; t] = [c]) as Ho by (rewrite filter_cons_True by tauto; rewrite filter_cons_False by tauto; done).
      assert (filter (λ v, v ∈ key) [c; t] = [t]) as Hd by (rewrite filter_cons_False by done; rewrite filter_cons_True by done; done).
      rewrite Ho. destruct (Hq [c] key a) as (T0 & HT0 & Hsh & Hat); [done|by apply NoDup_cons| |done|done|].
      { intros v [->|Hv]%elem_of_cons; [done|by apply HN]. }
      rewrite HT0. cbn [res_bind]. rewrite decide_False by (cbn; lia).
      destruct (add_repeated_at D T0 [c; t] key ((λ v, Z.of_nat (a !!! v)) <$> key) c t (Z.of_nat (a !!! t)) Hndm Ho Hd Hsh) as (T & HT & HshT & HatT).
      { rewrite list_lookup_fmap, pos_lookup by done. done. } { by apply dims_ok. } { by apply dims_ok. }
      exists T. split; [done|]. rewrite expval_ok by done. f_equal. rewrite cexp_num. fold m.
      rewrite <-(num_split S [c] a HS) by (try apply NoDup_singleton; try (intros v ->%elem_of_list_singleton; rewrite HSk; done); cbn; set_solver).
      cbn [sum_over]. unfold Qcdiv. rewrite <-qsum_mul_r. apply qsum_ext. intros i Hi.
      rewrite (qsum_one _ _ (a !!! t)).
      + pose proof (HatT (λ v, if decide (v = c) then i else a !!! t)) as HatT'. cbn in HatT'. rewrite (decide_True (P := c = c)), (decide_False (P := t = c)) in HatT' by congruence.
        rewrite HatT', decide_True by done.
        pose proof (Hat (<[c := i]> a)) as Hat'. cbn [vals fmap list_fmap] in Hat'. rewrite ins_same in Hat'. rewrite Hat'.
        * assert (h (<[t := a !!! t]> (<[c := i]> ∅)) = h (<[c := i]> a)) as ->.
          { apply (h_local {[c; t]}); [set_solver..|]. intros v Hv. destruct (decide (v = t)) as [->|Hvt]; [by rewrite ins_same, ins_other|].
            assert (v = c) as -> by set_solver. rewrite ins_other by congruence. by rewrite !ins_same. }
          replace (S ∪ list_to_set [c]) with (list_to_set ([c] ++ key) : nset) by (cbn; unfold S; clear; set_solver). fold S m. unfold Qcdiv. ring.
        * intros v ->%elem_of_list_singleton. by rewrite ins_same.
        * intros v Hv. apply ins_other. by intros ->.
      + by apply Ha.
      + intros j Hj Hne.
        pose proof (HatT (λ v, if decide (v = c) then i else j)) as HatT'. cbn in HatT'. rewrite (decide_True (P := c = c)), (decide_False (P := t = c)) in HatT' by congruence.
        rewrite HatT', decide_False by lia. ring.
    - assert (filter (λ v, v ∉ key) [c; t] = [c; t]) as Ho by (rewrite filter_cons_True by tauto; rewrite filter_cons_True by tauto; done).
      rewrite Ho. destruct (Hq [c; t] key a) as (T & HT & Hsh & Hat); [done| | |done|done|].
      { apply NoDup_cons. split; [|by apply NoDup_cons]. rewrite elem_of_cons. tauto. }
      { intros v Hv. apply elem_of_app in Hv as [Hv|Hv]; [|by apply HN]. rewrite !elem_of_cons, elem_of_nil in Hv. naive_solver. }
      rewrite HT. cbn [res_bind]. rewrite decide_True by done. exists T. split; [done|]. rewrite expval_ok by done. f_equal. rewrite cexp_num. fold m.
      rewrite <-(num_split S [c; t] a HS); [|done| |cbn; set_solver..].
      2:{ intros v Hv. rewrite HSk. rewrite !elem_of_cons, elem_of_nil in Hv. naive_solver. }
      cbn [sum_over]. unfold Qcdiv. rewrite <-qsum_mul_r. apply qsum_ext. intros i Hi. rewrite <-qsum_mul_r. apply qsum_ext. intros j Hj.
      pose proof (Hat (<[t := j]> (<[c := i]> a))) as Hat'. cbn [vals fmap list_fmap] in Hat'. rewrite ins_same, (ins_other _ t c) in Hat' by congruence. rewrite ins_same in Hat'. rewrite Hat'.
      * assert (h (<[t := j]> (<[c := i]> ∅)) = h (<[t := j]> (<[c := i]> a))) as -> by (by rewrite !h_ins).
        replace (S ∪ list_to_set [c; t]) with (list_to_set ([c; t] ++ key) : nset) by (cbn; unfold S; clear; set_solver). fold S m. unfold Qcdiv. ring.
      * intros v Hv. rewrite !elem_of_cons, elem_of_nil in Hv. destruct Hv as [->|[->|[]]]; [rewrite ins_other by congruence|]; by rewrite ins_same.
      * intros v Hv. rewrite !ins_other; [done|by intros ->|by intros ->].
  Qed.

  Lemma marginal_empty a : marginal D ∅ a = 1.
  Proof using All.
    rewrite <-(marginal_ancestral D Hwf Hst ∅ [] [] []); [done|set_solver|set_solver|constructor| |done|].
    - intros v. rewrite elem_of_nil. set_solver.
    - intros v Hv. by apply elem_of_nil in Hv.
  Qed.
  Lemma constant_mean a : ∃ T, get_marginals o D [c; t] = Ok T ∧ expval alc alt z T = Ok (cexp D ∅ h a).
  Proof using All.
    destruct (C49_get_marginals o D [c; t]) as (T & HT & Hsh & Hat); [done..| | |].
    { apply NoDup_cons. split; [by rewrite elem_of_list_singleton|apply NoDup_singleton]. }
    { intros v Hv. rewrite !elem_of_cons, elem_of_nil in Hv. naive_solver. }
    exists T. split; [done|]. rewrite expval_ok by done. f_equal. rewrite cexp_num, marginal_empty.
    rewrite <-(num_split ∅ [c; t] a); [|set_solver| | |cbn; set_solver..].
    2:{ apply NoDup_cons. split; [by rewrite elem_of_list_singleton|apply NoDup_singleton]. }
    2:{ intros v Hv. rewrite !elem_of_cons, elem_of_nil in Hv. split; [naive_solver|set_solver]. }
    cbn [sum_over]. unfold Qcdiv. rewrite <-qsum_mul_r. apply qsum_ext. intros i Hi. rewrite <-qsum_mul_r. apply qsum_ext. intros j Hj.
    pose proof (Hat (<[t := j]> (<[c := i]> a))) as Hat'. cbn [vals fmap list_fmap] in Hat'. rewrite ins_same, (ins_other _ t c) in Hat' by congruence. rewrite ins_same in Hat'. rewrite Hat'.
    - rewrite !h_ins. replace (∅ ∪ list_to_set [c; t]) with (list_to_set [c; t] : nset) by set_solver. replace (/ 1) with 1 by (by apply (bool_decide_unpack _)). ring.
    - intros v Hv. rewrite !elem_of_cons, elem_of_nil in Hv. destruct Hv as [->|[->|[]]]; [rewrite ins_other by congruence|]; by rewrite ins_same.
  Qed.

  (** ** Rows *)
  Context (w : nat) (rows : list row) (Hrows : possible_rows D w rows).
  Lemma ins_id (a : assignment) v x : <[v := a !!! v]> a !!! x = a !!! x.
  Proof. destruct (decide (v = x)) as [->|Hne]; [by rewrite ins_same|by rewrite ins_other]. Qed.
  Lemma sum_over_pos l X f a : depends X f → (∀ b, upd_of D l a b → 0 <= f b) → in_range D l a → 0 < f a → 0 < sum_over D l f a.
  Proof using All.
    intros Hf. revert a. induction l as [|v l IH]; intros a H0 Ha Hp; [done|]. cbn [sum_over].
    assert (∀ k b, (k < card D v)%nat → upd_of D l (<[v := k]> a) b → 0 <= f b) as H1.
    { intros k b Hk [Hb1 Hb2]. apply H0. split.
      + intros x Hx. apply not_elem_of_cons in Hx as [Hx1 Hx2]. rewrite Hb1 by done. by apply ins_other.
      + intros x [->|Hx]%elem_of_cons; [|by apply Hb2]. destruct (decide (v ∈ l)) as [Hv|Hv]; [by apply Hb2|]. by rewrite Hb1, ins_same. }
    assert (a !!! v < card D v)%nat as Hav by (apply Ha; by left).
    apply (qsum_pos _ _ (a !!! v)); [|done|].
    - intros k Hk. apply (sum_over_nonneg D). intros b. by apply H1.
    - apply IH; [intros b; by apply H1| |].
      + intros x Hx. rewrite ins_id. apply Ha. by right.
      + by rewrite (Hf _ a) by (intros x _; apply ins_id).
  Qed.
  Lemma row_facts r : r ∈ rows → length r = w ∧ in_range D (elements N) (row_asg r) ∧ 0 < joint D (row_asg r) ∧
    ∀ v, v ∈ N → cell r v = Z.of_nat (row_asg r !!! v) ∧ r !! v = Some (Z.of_nat (row_asg r !!! v)).
  Proof using All.
    intros Hr. destruct Hrows as [_ H]. destruct (H r Hr) as (Hl & a & Ha & Hj & Hv).
    assert (∀ v, v ∈ N → row_asg r !!! v = a !!! v) as Heq.
    { intros v Hvn. rewrite (row_asg_lookup r v _ (Hv v Hvn)). by rewrite Nat2Z.id. }
    assert (in_range D (elements N) (row_asg r)) as Hin. { intros v Hvn. rewrite Heq by (by apply elem_of_elements). by apply Ha. }
    split; [done|]. split; [done|]. split.
    - pose proof (joint_nonneg D Hwf Hst Hnn _ Hin) as Hge. rewrite (depends_joint D Hwf Hst Hnn (row_asg r) a Heq) in *.
      apply Qcle_lt_or_eq in Hge as [?|?]; [done|congruence].
    - intros v Hvn. rewrite (Heq v Hvn). split; [|by apply Hv]. unfold cell. by rewrite (Hv v Hvn).
  Qed.
  Lemma row_marginal r (S : nset) : r ∈ rows → S ⊆ N → marginal D S (row_asg r) ≠ 0.
  Proof using All.
    intros Hr HS. destruct (row_facts r Hr) as (_ & Hin & Hj & _). apply not_eq_sym, Qclt_not_eq. unfold marginal.
    apply (sum_over_pos _ N); [by apply depends_joint| | |done].
    - intros b Hb. apply (joint_nonneg D Hwf Hst Hnn). apply (upd_range D Hwf Hst Hnn S (row_asg r)); [|done]. intros v Hv%elem_of_elements. apply Hin, elem_of_elements. by apply HS.
    - intros v Hv%elem_of_elements. apply Hin, elem_of_elements. by apply elem_of_difference in Hv as [? _].
  Qed.
  Lemma row_cells (r : row) (key : list node) : r ∈ rows → (∀ v, v ∈ key → v ∈ N) → cell r <$> key = (λ v, Z.of_nat (row_asg r !!! v)) <$> key.
  Proof using All. intros Hr Hk. apply fmap_ext_in. intros v Hv. by apply (row_facts r Hr), Hk. Qed.

  (** What the terms hold. *)
  Definition good_mean (key : list node) (m : cond_mean) : Prop :=
    match m with
    | Const q => ∀ a, cexp D (list_to_set key) h a = q
    | Table m => ∀ zs, (∀ r, r ∈ rows → zs = cell r <$> key → m !! zs = Some (cexp D (list_to_set key) h (row_asg r))) ∧
        ((∀ r, r ∈ rows → zs ≠ cell r <$> key) → m !! zs = None)
    end.
  Lemma eif_mean_ok key : NoDup key → (∀ v, v ∈ key → v ∈ N) → ¬ (c ∈ key ∧ t ∈ key) →
    ∃ m, eif_mean o ord query D t c alc alt z w (Some rows) key = Ok m ∧ good_mean key m ∧ (key ≠ [] → ∃ tb, m = Table tb).
  Proof using All.
    intros Hnd HN Hboth. unfold eif_mean. case_decide as Hk.
    { destruct (constant_mean ∅) as (T & HT & HE). rewrite HT. cbn [res_bind]. rewrite HE. cbn [res_bind]. eexists. split; [done|]. split; [|done].
      intros a. rewrite Hk. change (list_to_set [] : nset) with (∅ : nset). apply (depends_cexp D Hwf Hst Hnn ∅ h); [set_solver| |set_solver].
      by apply h_local. }
    rewrite decide_True by (apply Forall_forall; intros v Hv; apply Hrows; by apply HN).
    set (vs := ord _). assert (∀ zs, zs ∈ vs ↔ ∃ r, r ∈ rows ∧ zs = cell r <$> key) as Hvs.
    { intros zs. unfold vs. rewrite (Hord _), elem_of_remove_dups, elem_of_list_fmap. naive_solver. }
    assert (∀ zs, zs ∈ vs → ∀ r, r ∈ rows → zs = cell r <$> key → ∃ T, conditional_pgmpy query D [c; t] key zs = Ok T ∧
      expval alc alt z T = Ok (cexp D (list_to_set key) h (row_asg r))) as Hex.
    { intros zs _ r Hr ->. rewrite row_cells by done. apply conditional_mean; [done|done| | |done].
      - intros v Hv. apply (row_facts r Hr), elem_of_elements. by apply HN.
      - apply row_marginal; [done|]. intros v Hv%elem_of_list_to_set. by apply HN. }
    unfold conditionals_pgmpy.
    destruct (loop_map id (conditional_pgmpy query D [c; t] key) vs) with (m0 := ∅ : gmap (list Z) tensor) as (probs & Hprobs & Hp1 & Hp2).
    { intros zs Hzs. pose proof Hzs as (r & Hr & Heq)%Hvs. destruct (Hex zs Hzs r Hr Heq) as (T & HT & _). by exists T. }
    unfold id in Hprobs. rewrite Hprobs. cbn [res_bind].
    assert (∀ zs T, probs !! zs = Some T → zs ∈ vs ∧ conditional_pgmpy query D [c; t] key zs = Ok T) as Hpr.
    { intros zs T HT. destruct (decide (zs ∈ vs)) as [Hin|Hin].
      - split; [done|]. destruct (Hp2 zs Hin) as (zs' & T' & _ & Hid & HT' & Hl). cbn in *. subst zs'. congruence.
      - rewrite Hp1 in HT; [by rewrite lookup_empty in HT|]. intros x Hx <-. done. }
    destruct (loop_map fst (λ p : list Z * tensor, expval alc alt z p.2) (map_to_list probs)) with (m0 := ∅ : gmap (list Z) Qc) as (m & Hm & Hm1 & Hm2).
    { intros [zs T] Hin%elem_of_map_to_list. destruct (Hpr _ _ Hin) as [Hzs HT]. pose proof Hzs as (r & Hr & Heq)%Hvs.
      destruct (Hex zs Hzs r Hr Heq) as (T' & HT' & HE). cbn. assert (T' = T) as -> by congruence. by eexists. }
    rewrite Hm. cbn [res_bind]. eexists. split; [done|]. split; [|by eexists]. intros zs. split.
    - intros r Hr Heq. assert (zs ∈ vs) as Hzs by (apply Hvs; by exists r). destruct (Hp2 zs Hzs) as (zs' & T & _ & Hid & HT & Hl). cbn in *. subst zs'.
      assert ((zs, T) ∈ map_to_list probs) as Hin by (by apply elem_of_map_to_list).
      destruct (Hm2 _ Hin) as ([zs' T'] & y & Hin' & Hid & Hy & Hl'). cbn in *. subst zs'. apply elem_of_map_to_list in Hin'. assert (T' = T) as -> by congruence.
      destruct (Hex zs Hzs r Hr Heq) as (T'' & HT'' & HE). assert (T'' = T) as -> by congruence. congruence.
    - intros Hno. rewrite Hm1; [apply lookup_empty|]. intros [zs' T] Hin%elem_of_map_to_list. cbn. intros ->. destruct (Hpr _ _ Hin) as [(r & Hr & Heq)%Hvs _].
      by apply (Hno r Hr).
  Qed.

  Context (I : nset) (HI : ∀ v, v ∈ N → v ∉ I → ¬ (c ∈ fam D v ∧ t ∈ fam D v)).
  Notation keys := (map_to_list (standard_imset (dd_dag D) o I)).
  Definition good_term (kv : list node * Z) (tm : eif_term) : Prop :=
    tm.1 = kv ∧ good_mean kv.1 tm.2 ∧ (kv.1 ≠ [] → ∃ tb, tm.2 = Table tb).
  Lemma wf_D : wf (dd_dag D).
  Proof using All. apply wf_views_agree. apply Hwf. Qed.
  Lemma key_facts kv : kv ∈ keys → NoDup kv.1 ∧ (∀ v, v ∈ kv.1 → v ∈ N) ∧ ¬ (c ∈ kv.1 ∧ t ∈ kv.1).
  Proof using All.
    destruct kv as [key k]. intros Hk. destruct (key_fam _ _ _ _ _ wf_D Hk) as (S & -> & v & Hv & HvI & HS). cbn.
    assert (S ⊆ fam D v) as Hsub by (unfold fam, pa; destruct HS as [->| ->]; set_solver).
    split; [apply NoDup_on|]. split.
    - intros u Hu%elem_of_on. apply (fam_N D Hwf Hst Hnn v Hv). by apply Hsub.
    - rewrite !elem_of_on. intros [H1 H2]. apply (HI v Hv HvI). split; by apply Hsub.
  Qed.
  Lemma eif_conditionals_ok : ∃ ts, eif_conditionals o ord query D t c z I w (Some rows) = Ok ts ∧ Forall2 good_term keys ts.
  Proof using All.
    unfold eif_conditionals. destruct Hwf as (_ & _ & Hw). destruct (Hw t Ht) as (al1 & _ & _ & E1 & _), (Hw c Hc) as (al2 & _ & _ & E2 & _).
    pose proof key_facts as Hkf. pose proof eif_mean_ok as Hmo. rewrite E1, E2 in *. cbn [default from_option id] in Hmo.
    set (l := keys) in *. clearbody l.
    assert (∀ l ts0, (∀ kv, kv ∈ l → NoDup kv.1 ∧ (∀ v, v ∈ kv.1 → v ∈ N) ∧ ¬ (c ∈ kv.1 ∧ t ∈ kv.1)) →
      ∃ ts, loopR (λ (kv : list node * Z) ts, res_bind (eif_mean o ord query D t c al2 al1 z w (Some rows) kv.1) (λ m, Ok (ts ++ [(kv.1, kv.2, m)]))) l ts0 = Ok (ts0 ++ ts) ∧
        Forall2 good_term l ts) as Hloop.
    { clear l Hkf. induction l as [|kv l IH]; intros ts0 Hkf; [exists []; rewrite app_nil_r; by split; [|constructor]|].
      cbn [loopR]. destruct (Hkf kv ltac:(by left)) as (H1 & H2 & H3). destruct (Hmo kv.1 H1 H2 H3) as (m & Hm & Hg & Ht'). rewrite Hm. cbn [res_bind].
      destruct (IH (ts0 ++ [(kv.1, kv.2, m)])) as (ts & Hts & Hall); [intros kv' Hkv'; apply Hkf; by right|].
      exists ((kv.1, kv.2, m) :: ts). rewrite Hts, <-app_assoc. split; [done|]. constructor; [|done]. split; [by destruct kv|done]. }
    destruct (Hloop l [] Hkf) as (ts & Hts & Hall). exists ts. by split.
  Qed.

  Lemma eif_column_ok samples kv tm : (∀ r, r ∈ samples → r ∈ rows) → kv ∈ keys → good_term kv tm →
    eif_column w samples tm = Ok ((λ r, cexp D (list_to_set kv.1) h (row_asg r) * qz kv.2) <$> samples).
  Proof using All.
    intros Hs Hkv (Heq & Hg & _). destruct tm as [[key k] m]. cbn in Heq. subst kv. cbn in *. destruct (key_facts _ Hkv) as (_ & HN & _). cbn in HN.
    destruct m as [q|m].
    - f_equal. apply fmap_ext_in. intros r _. by rewrite <-(Hg (row_asg r)).
    - rewrite decide_True by (apply Forall_forall; intros v Hv; apply Hrows; by apply HN).
      assert (∀ col, loopR (λ r col, match m !! (cell r <$> key) with Some q => Ok (col ++ [q * qz k]) | None => Raise KeyError end) samples col =
        Ok (col ++ ((λ r, cexp D (list_to_set key) h (row_asg r) * qz k) <$> samples))) as Hl; [|by apply Hl].
      clear Hkv. induction samples as [|r samples IH]; intros col; cbn [loopR fmap list_fmap]; [by rewrite app_nil_r|].
      destruct (Hg (cell r <$> key)) as [Hg1 _]. rewrite (Hg1 r); [|apply Hs; by left|done]. rewrite IH by (intros x Hx; apply Hs; by right). by rewrite <-app_assoc.
  Qed.
  Lemma eif_eval_ok p ts samples : (∀ r, r ∈ samples → r ∈ rows) → Forall2 good_term keys ts →
    eif_eval p ts w samples = Ok ((λ r, projection D (elements (N ∖ I)) h (row_asg r) / p) <$> samples).
  Proof using All.
    intros Hs Hall. unfold eif_eval.
    assert (∀ l ts, (∀ kv, kv ∈ l → kv ∈ keys) → Forall2 good_term l ts → ∀ g : row → Qc,
      loopR (λ tm acc, res_bind (eif_column w samples tm) (λ col, Ok (zip_with Qcplus acc col))) ts (g <$> samples) =
      Ok ((λ r, g r + lsum_of (λ kv : list node * Z, cexp D (list_to_set kv.1) h (row_asg r) * qz kv.2) l) <$> samples)) as Hloop.
    { intros l ts' Hl Hall'. induction Hall' as [|kv tm l ts' Hg _ IH]; intros g; cbn [loopR].
      - f_equal. apply fmap_ext_in. intros r _. unfold lsum_of. cbn. ring.
      - rewrite (eif_column_ok samples kv tm Hs (Hl kv ltac:(by left)) Hg). cbn [res_bind].
        assert (zip_with Qcplus (g <$> samples) ((λ r, cexp D (list_to_set kv.1) h (row_asg r) * qz kv.2) <$> samples) =
          (λ r, g r + cexp D (list_to_set kv.1) h (row_asg r) * qz kv.2) <$> samples) as ->.
        { clear. induction samples as [|r samples IH]; [done|]. cbn. f_equal. apply IH. }
        rewrite IH by (intros kv' Hkv'; apply Hl; by right). f_equal. apply fmap_ext_in. intros r _. unfold lsum_of. cbn [foldr]. ring. }
    rewrite (Hloop keys ts (λ _ H, H) Hall (λ _, 0)). cbn [res_bind]. f_equal. rewrite <-list_fmap_compose. apply fmap_ext_in. intros r _. cbn.
    f_equal. rewrite (imset_sum (λ S, cexp D S h (row_asg r))). unfold projection, fam, pa. ring.
  Qed.
  (** A row that agrees with no given row on some family. *)
  Lemma eif_eval_unseen p ts samples r v : Forall2 good_term keys ts → r ∈ samples → v ∈ N → v ∉ I →
    length r = w → (∀ s, s ∈ rows → ¬ agree_on (fam D v) r s) → ∃ e, eif_eval p ts w samples = Raise e ∧ e = KeyError.
  Proof using All.
    intros Hall Hr Hv HvI Hlen Hno. unfold eif_eval.
    destruct (key_exists (dd_dag D) o I v wf_D (proj1 (proj2 Hwf)) Hv HvI) as (key & k & Hkey & Hfam).
    assert (∀ kv tm, kv ∈ keys → good_term kv tm → (∃ col, eif_column w samples tm = Ok col) ∨ eif_column w samples tm = Raise KeyError) as Hcol.
    { intros kv [[key' k'] m] Hkv (Heq & _). cbn in Heq. subst kv. destruct (key_facts _ Hkv) as (_ & HN & _). cbn in *. destruct m as [q|m]; [left; by eexists|].
      rewrite decide_True by (apply Forall_forall; intros u Hu; apply Hrows; by apply HN). clear.
      assert (∀ col0 : list Qc, let L := loopR (λ r col, match m !! (cell r <$> key') with Some q => Ok (col ++ [q * qz k']) | None => Raise KeyError end) samples col0 in
        (∃ col, L = Ok col) ∨ L = Raise KeyError) as Hl; [|by apply Hl].
      induction samples as [|x samples IH]; intros col; cbn [loopR]; [left; by eexists|]. destruct (m !! _); [apply IH|by right]. }
    assert (∀ tm, good_term (key, k) tm → eif_column w samples tm = Raise KeyError) as Hbad.
    { intros tm Hg. destruct (Hcol (key, k) tm Hkey Hg) as [[col Hc']|]; [exfalso|done]. destruct Hg as (Heq & Hg & Hne). destruct tm as [[key' k'] m]. cbn in Heq. injection Heq as -> ->. cbn in *.
      destruct Hne as [tb ->]. { intros ->. assert (v ∈ []) as Habs by (apply Hfam; set_solver). by apply elem_of_nil in Habs. }
      case_decide; [|done]. destruct (Hg (cell r <$> key)) as [_ Hnone]. assert (tb !! (cell r <$> key) = None) as Hn.
      { apply Hnone. intros s Hs Heq. apply (Hno s Hs). intros u Hu. destruct (key_facts _ Hkey) as (_ & HN & _). cbn in HN.
        assert (u ∈ key) as Huk by (by apply Hfam). pose proof Huk as [i Hi]%elem_of_list_lookup.
        assert ((cell r <$> key) !! i = (cell s <$> key) !! i) as Heqi by (by rewrite Heq). rewrite !list_lookup_fmap, Hi in Heqi. cbn in Heqi. injection Heqi as Heqi.
        destruct (row_facts s Hs) as (Hls & _). assert (u < w)%nat as Huw by (apply Hrows; by apply HN). unfold cell in Heqi.
        destruct (lookup_lt_is_Some_2 r u ltac:(lia)) as [x Hx], (lookup_lt_is_Some_2 s u ltac:(lia)) as [y Hy]. rewrite Hx, Hy in *. cbn in Heqi. congruence. }
      clear -Hr Hn Hc'.
      assert (∀ col0 : list Qc, loopR (λ r col, match tb !! (cell r <$> key) with Some q => Ok (col ++ [q * qz k]) | None => Raise KeyError end) samples col0 ≠ Ok col) as Hl; [|by apply Hl in Hc'].
      clear Hc'. induction samples as [|x samples IH]; [by apply elem_of_nil in Hr|]. intros l. cbn [loopR].
      apply elem_of_cons in Hr as [<-|Hr]; [by rewrite Hn|]. destruct (tb !! (cell x <$> key)); [by apply IH|done]. }
    assert (∀ l ts, (∀ kv, kv ∈ l → kv ∈ keys) → (key, k) ∈ l → Forall2 good_term l ts → ∀ acc,
      loopR (λ tm acc, res_bind (eif_column w samples tm) (λ col, Ok (zip_with Qcplus acc col))) ts acc = Raise KeyError) as Hloop.
    { intros l ts' Hl Hin Hall'. induction Hall' as [|kv tm l ts' Hg _ IH]; [by apply elem_of_nil in Hin|]. intros acc. cbn [loopR]. apply elem_of_cons in Hin as [<-|Hin].
      - by rewrite (Hbad tm Hg).
      - destruct (Hcol kv tm (Hl kv ltac:(by left)) Hg) as [[col ->]| ->]; [|done]. cbn [res_bind]. apply IH; [|done]. intros kv' Hkv'. apply Hl. by right. }
    rewrite (Hloop keys ts (λ _ H, H) Hkey Hall). by exists KeyError.
  Qed.
End run.
