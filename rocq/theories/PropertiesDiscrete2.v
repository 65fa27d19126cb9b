(** [get_marginals_new], conditionals, moments and interventions of discrete Bayesian networks. *)
From Coq Require Import QArith.Qcanon.
From Verif Require Import Py Spec DagModel QMatModel DiscreteModel SpecDiscrete TopoProofs StateProofs ReachProofs QueryProofs CoreProofs MarkovProofs QMatProofs PropertiesDag DiscreteProofs DiscreteElim PropertiesDiscrete DiscreteNew.
#[local] Open Scope Qc_scope.

(** ** C80: [get_marginals_new] *)
(** Whenever it returns a table, the table holds the marginals. *)
Theorem C80_sound (o : oracle) (D : ddag) (S : list node) (t : tensor) :
  ddag_wf D → stochastic D → no_tiny D → (∀ v, v ∈ S → v ∈ d_nodes (dd_dag D)) →
  get_marginals_new o D S = Ok t →
  NoDup S ∧ t_shape t = card D <$> S ∧ ∀ a, in_range D S a → t_at t (vals a S) = marginal D (list_to_set S) a.
Proof.
  intros Hwf Hst Hti HS. destruct (decide (S = [])) as [->|Hne].
  - unfold get_marginals_new. rewrite decide_True by done. intros [= <-]. split; [constructor|]. split; [done|]. intros a Ha. cbn [t_at].
    rewrite <-(marginal_ancestral D Hwf Hst ∅ [] [] []); [done|set_solver|set_solver|constructor| |done|done].
    intros v. rewrite elem_of_nil. set_solver.
  - intros Ht. destruct (new_main o D S Hwf Hst Hti Hne HS) as [H _]. destruct (H t Ht) as (H1 & H2 & H3 & _). done.
Qed.
(** It only returns when the ancestors of the queried nodes have a single source ... *)
Theorem C80_one_source (o : oracle) (D : ddag) (S : list node) (x y : node) :
  ddag_wf D → stochastic D → no_tiny D → (∀ v, v ∈ S → v ∈ d_nodes (dd_dag D)) →
  (∃ s, s ∈ S ∧ rtc (edge (d_arcs (dd_dag D))) x s) → (∃ s, s ∈ S ∧ rtc (edge (d_arcs (dd_dag D))) y s) →
  (∀ u, (u, x) ∉ d_arcs (dd_dag D)) → (∀ u, (u, y) ∉ d_arcs (dd_dag D)) → x ≠ y →
  ∃ e, get_marginals_new o D S = Raise e.
Proof.
  intros Hwf Hst Hti HS Hx Hy Hsx Hsy Hxy. assert (S ≠ []) as Hne by (intros ->; destruct Hx as (s & Hs & _); by apply elem_of_nil in Hs).
  destruct (get_marginals_new o D S) as [t|e] eqn:E; [|by exists e]. destruct (new_main o D S Hwf Hst Hti Hne HS) as [H _].
  destruct (H t E) as (_ & _ & _ & H'). destruct Hxy. by apply H'.
Qed.
(** ... and it does return when they form a tree. *)
Theorem C80_tree (o : oracle) (D : ddag) (S : list node) :
  ddag_wf D → stochastic D → no_tiny D → NoDup S → (∀ v, v ∈ S → v ∈ d_nodes (dd_dag D)) →
  (∀ c u u', (∃ s, s ∈ S ∧ rtc (edge (d_arcs (dd_dag D))) c s) → (u, c) ∈ d_arcs (dd_dag D) → (u', c) ∈ d_arcs (dd_dag D) → u = u') →
  (∀ x y, (∃ s, s ∈ S ∧ rtc (edge (d_arcs (dd_dag D))) x s) → (∃ s, s ∈ S ∧ rtc (edge (d_arcs (dd_dag D))) y s) →
    (∀ u, (u, x) ∉ d_arcs (dd_dag D)) → (∀ u, (u, y) ∉ d_arcs (dd_dag D)) → x = y) →
  ∃ t, get_marginals_new o D S = Ok t.
Proof.
  intros Hwf Hst Hti Hnd HS H1 H2. destruct (decide (S = [])) as [->|Hne]; [by eexists|].
  destruct (new_main o D S Hwf Hst Hti Hne HS) as [_ H]. by apply H.
Qed.
(** A network [0 -> 2 <- 1]: [get_marginals] answers, [get_marginals_new] does not. *)
Definition ex_coll : ddag := DDag (dag_of {[0; 1; 2]}%nat {[(0, 2); (1, 2)]}%nat) [0; 1; 2]%nat
  (list_to_map [(0%nat, ex_tab [5; 5]%Z [2]%nat); (1%nat, ex_tab [1; 9]%Z [2]%nat); (2%nat, ex_tab [1; 9; 9; 1; 8; 2; 2; 8]%Z [2; 2; 2]%nat)])
  (list_to_map [(0, []); (1, []); (2, [1; 0])]%nat) ex_alph.
Definition ex_tree : ddag := DDag (dag_of {[0; 1; 2]}%nat {[(0, 1); (0, 2)]}%nat) [0; 1; 2]%nat
  (list_to_map [(0%nat, ex_tab [5; 5]%Z [2]%nat); (1%nat, ex_tab [1; 9; 9; 1]%Z [2; 2]%nat); (2%nat, ex_tab [1; 9; 8; 2]%Z [2; 2]%nat)])
  (list_to_map [(0, []); (1, [0]); (2, [0])]%nat) ex_alph.
Example C80_example :
  (ddag_wf ex_coll ∧ stochastic ex_coll ∧ no_tiny ex_coll) ∧ (ddag_wf ex_tree ∧ stochastic ex_tree ∧ no_tiny ex_tree) ∧
  match get_marginals oracle0 ex_coll [2]%nat, get_marginals_new oracle0 ex_coll [2]%nat with
  | Ok t, Raise RuntimeError => bool_decide (t_shape t = [2]%nat) | _, _ => false end = true ∧
  match get_marginals_new oracle0 ex_tree [2; 1]%nat with
  | Ok t => bool_decide (t_shape t = [2; 2]%nat ∧ t_at t [0; 1]%nat = qz 85 / qz 1000) | _ => false end = true.
Proof.
  split; [|split; [|split; vm_compute; reflexivity]].
  - destruct (check_rows_sound ex_coll) as [? ?]; [apply dag_of_wf|by_vm|by_vm|]. split; [done|]. split; [done|]. apply check_small_sound. by_vm.
  - destruct (check_rows_sound ex_tree) as [? ?]; [apply dag_of_wf|by_vm|by_vm|]. split; [done|]. split; [done|]. apply check_small_sound. by_vm.
Qed.

(** ** C81: [get_conditional] *)
Lemma marginal_sum D (only cond : list node) a : NoDup (only ++ cond) → (∀ v, v ∈ only → v ∈ d_nodes (dd_dag D)) →
  sum_over D only (marginal D (list_to_set (only ++ cond))) a = marginal D (list_to_set cond) a.
Proof.
  intros Hnd HN. unfold marginal at 2. apply NoDup_app in Hnd as (Hno & Hd & Hnc).
  rewrite (sum_over_perm D (elements (d_nodes (dd_dag D) ∖ list_to_set cond)) (only ++ elements (d_nodes (dd_dag D) ∖ list_to_set (only ++ cond)))); [by rewrite sum_over_app|apply NoDup_elements|].
  apply NoDup_Permutation; [apply NoDup_elements| |].
  - apply NoDup_app. split; [done|]. split; [|apply NoDup_elements]. intros v Hv. rewrite elem_of_elements, elem_of_difference, elem_of_list_to_set, elem_of_app. tauto.
  - intros v. rewrite elem_of_app, !elem_of_elements, !elem_of_difference, !elem_of_list_to_set, elem_of_app. split.
    + intros [H1 H2]. destruct (decide (v ∈ only)); [by left|right]. split; [done|]. tauto.
    + intros [H|[H1 H2]]; [|tauto]. split; [by apply HN|]. by apply Hd.
Qed.
(** Values of axes: [b] for the repeated ones. *)
Definition axv2 {A} (f h : node → A) (x : axis) : A := match x.1 with 0%nat => f x.2 | _ => h x.2 end.
Lemma axv2_d {A} (f h : node → A) (l : list node) : axv2 f h <$> (ax_d <$> l) = f <$> l.
Proof. rewrite <-list_fmap_compose. done. Qed.
Lemma filter_all {A} (P : A → Prop) `{!∀ x, Decision (P x)} (l : list A) : (∀ x, x ∈ l → P x) → filter P l = l.
Proof.
  induction l as [|x l IH]; intros Hl; [done|]. rewrite filter_cons, decide_True by (apply Hl; by left). f_equal. apply IH. intros y Hy. apply Hl. by right.
Qed.
Lemma filter_no {A} (P : A → Prop) `{!∀ x, Decision (P x)} (l : list A) : (∀ x, x ∈ l → ¬ P x) → filter P l = [].
Proof.
  induction l as [|x l IH]; intros Hl; [done|]. rewrite filter_cons, decide_False by (apply Hl; by left). apply IH. intros y Hy. apply Hl. by right.
Qed.

Lemma cond_main (o : oracle) (D : ddag) (new : bool) (marg cond : list node) full :
  let only := filter (λ v, v ∉ cond) marg in
  ddag_wf D → NoDup marg → NoDup cond → (∀ v, v ∈ marg ++ cond → v ∈ d_nodes (dd_dag D)) →
  (if new then get_marginals_new else get_marginals) o D (only ++ cond) = Ok full →
  rep D full (only ++ cond) (marginal D (list_to_set (only ++ cond))) →
  (length (filter (λ v, v ∈ cond) marg) ≤ 1)%nat →
  ∃ t, get_conditional o D new marg cond = Ok t ∧ t_shape t = card D <$> marg ++ cond ∧
  ∀ b c, in_range D (only ++ cond) c → (∀ v, v ∈ marg → v ∉ cond → b !!! v = c !!! v) →
    t_at t (vals b marg ++ vals c cond) =
    if decide (Forall (λ v, v ∈ cond → b !!! v = c !!! v) marg) then
      if decide (marginal D (list_to_set cond) c = 0) then 1 / foldr (λ v acc, qz (Z.of_nat (card D v)) * acc) 1 only
      else marginal D (list_to_set (only ++ cond)) c / marginal D (list_to_set cond) c
    else 0.
Proof.
  intros only Hwf Hnm Hnc HN Hfull Hrep Hdup. unfold get_conditional. fold only. rewrite Hfull. cbn [res_bind].
  set (k := length only). set (C := marginalize full (seq 0 k)).
  set (size := foldr (λ v acc, qz (Z.of_nat (default 0%nat (dd_dims D !! v))) * acc) 1 only).
  set (base := Tensor _ _).
  assert (∀ v, v ∈ only ↔ v ∈ marg ∧ v ∉ cond) as Honly by (intros v; unfold only; rewrite elem_of_list_filter; tauto).
  assert (NoDup (only ++ cond)) as Hnoc.
  { apply NoDup_app. split; [by apply NoDup_filter|]. split; [|done]. intros v Hv. by apply Honly in Hv as [_ ?]. }
  assert (rep D C cond (marginal D (list_to_set cond))) as HC.
  { pose proof (marginalize_rep D full (only ++ cond) only (seq 0 k) _ Hrep Hnoc) as H. rewrite !filter_app in H.
    rewrite (filter_no (λ v, v ∉ only) only), (filter_all (λ v, v ∉ only) cond), (filter_all (λ v, v ∈ only) only), (filter_no (λ v, v ∈ only) cond) in H.
    - cbn [app] in H. rewrite app_nil_r in H. eapply rep_ext; [apply H|].
      + intros i v Hi. rewrite elem_of_seq. split.
        * intros [_ Hlt]. cbn in Hlt. rewrite lookup_app_l in Hi by done. by eapply elem_of_list_lookup_2.
        * intros Hv. split; [lia|]. cbn. apply elem_of_list_lookup in Hv as [j Hj]. assert (i = j) as ->.
          { eapply NoDup_lookup; [exact Hnoc|done|]. by apply lookup_app_l_Some. } by eapply lookup_lt_Some.
      + intros a _. apply marginal_sum; [done|]. intros v Hv%Honly. apply HN, elem_of_app. left. apply Hv.
    - intros x Hx Hx'. by apply Honly in Hx' as [_ ?].
    - done.
    - intros x Hx Hx'. by apply Honly in Hx' as [_ ?].
    - intros x Hx H'. done. }
  assert (size = foldr (λ v acc, qz (Z.of_nat (card D v)) * acc) 1 only) as Hsize.
  { unfold size. assert (∀ v, v ∈ only → v ∈ d_nodes (dd_dag D)) as H by (intros v Hv%Honly; apply HN, elem_of_app; left; apply Hv). clear -H Hwf.
    induction only as [|v l IH]; [done|]. cbn. rewrite (dims_card D Hwf v) by (apply H; by left). cbn. f_equal. apply IH. intros w Hw. apply H. by right. }
  set (F := λ c, if decide (marginal D (list_to_set cond) c = 0) then 1 / size else marginal D (list_to_set (only ++ cond)) c / marginal D (list_to_set cond) c).
  assert (rep D base (only ++ cond) F) as Hbase.
  { destruct Hrep as [Hsh Hat]. split; [done|]. intros c Hc. cbn. rewrite vals_app, drop_app_alt by (by rewrite vals_length).
    destruct HC as [_ HC]. rewrite HC by (intros v Hv; apply Hc, elem_of_app; by right). rewrite <-vals_app, Hat by done. done. }
  rewrite <-Hsize.
  case_decide as Hlen.
  { (* no repeated node *)
    assert (∀ v, v ∈ marg → v ∉ cond) as Hno.
    { intros v Hv. unfold k, only in Hlen. clear -Hlen Hv. induction marg as [|x l IH]; [by apply elem_of_nil in Hv|]. rewrite filter_cons in Hlen.
      pose proof (filter_length (λ v, v ∉ cond) l). case_decide; cbn in Hlen; [|lia]. apply elem_of_cons in Hv as [->|Hv]; [done|]. apply IH; [lia|done]. }
    assert (only = marg) as Hom by (by apply filter_all). exists base. split; [done|]. destruct Hbase as [Hsh Hat]. rewrite Hom in *. split; [done|].
    intros b c Hc Hbc. rewrite decide_True.
    2:{ apply Forall_forall. intros v Hv Hv'. by apply Hno in Hv. }
    rewrite (vals_ext b c marg) by (intros v Hv; apply Hbc; [done|by apply Hno]). rewrite <-vals_app. rewrite (Hat c Hc). unfold F. by rewrite Hom. }
  set (dup := filter (λ v, v ∈ cond) marg) in *.
  assert (∃ v, dup = [v]) as [v Hdupv].
  { destruct dup as [|v [|w l]] eqn:Ed; [|by exists v|cbn in Hdup; lia]. exfalso. apply Hlen. unfold k, only. symmetry. rewrite filter_all; [done|].
    intros x Hx Hxc. assert (x ∈ dup) as H by (by apply elem_of_list_filter). rewrite Ed in H. by apply elem_of_nil in H. }
  assert (∀ x, x ∈ marg → x ∈ cond ↔ x = v) as Hcv.
  { intros x Hx. transitivity (x ∈ dup); [unfold dup; rewrite elem_of_list_filter; tauto|]. rewrite Hdupv. apply elem_of_list_singleton. }
  assert (v ∈ marg ∧ v ∈ cond) as [Hvm Hvc].
  { assert (v ∈ dup) as H by (rewrite Hdupv; by left). apply elem_of_list_filter in H. tauto. }
  set (right := ((λ v, if decide (v ∈ only) then ax_d v else ax_r v) <$> marg) ++ (ax_d <$> cond)).
  assert (∀ a, a ∈ right ↔ a ∈ ax_d <$> (only ++ cond) ∨ a = ax_r v) as Hright.
  { intros a. unfold right. rewrite elem_of_app, elem_of_list_fmap, fmap_app, elem_of_app, !ax_d_in. split.
    - intros [(x & -> & Hx)|?]; [|tauto]. case_decide as Ho; [by left; left|right]. f_equal. apply Hcv; [done|].
      destruct (decide (x ∈ cond)); [done|]. destruct Ho. by apply Honly.
    - intros [[[H1 H2]|H]| ->]; [|by right|].
      + left. exists a.2. rewrite decide_True by done. split; [by destruct a as [? ?]; cbn in *; subst|]. by apply Honly in H2 as [? _].
      + left. exists v. rewrite decide_False; [done|]. intros H%Honly. tauto. }
  assert (NoDup right) as Hndr.
  { unfold right. apply NoDup_app. split; [|split; [|by apply (NoDup_fmap_2 ax_d)]].
    - clear -Hnm. apply NoDup_fmap_2_strong; [|done]. intros x y _ _. by repeat case_decide; intros [=].
    - intros a Ha [H1 H2]%ax_d_in. apply elem_of_list_fmap in Ha as (x & -> & Hx). case_decide as H; [|done]. cbn in H2. by apply Honly in H as [_ ?]. }
  match goal with |- context [einops_repeat base ?l ?r ?s] => destruct (einops_repeat_ok base l r s) as [t1 E1] end.
  { by apply (NoDup_fmap_2 ax_d). } { done. }
  { intros a Ha. apply Hright. by left. }
  { destruct Hbase as [-> _]. by rewrite !fmap_length. }
  { intros a [Ha| ->]%Hright Hna; [done|]. cbn. rewrite decide_True; [rewrite (dims_card D Hwf); [done|apply HN, elem_of_app; by left]|]. split; [done|]. rewrite Hdupv. by left. }
  rewrite E1. cbn [res_bind]. rewrite Hdupv.
  rewrite (dims_card D Hwf v) by (apply HN, elem_of_app; by left). cbn [default].
  set (eye := Tensor _ _).
  match goal with |- context [einops_repeat eye ?l ?r ?s] => destruct (einops_repeat_ok eye l r s) as [t2 E2] end.
  { apply NoDup_cons. split; [by intros ?%elem_of_list_singleton|apply NoDup_singleton]. } { done. }
  { intros a [->|[->|Ha]%elem_of_cons]%elem_of_cons; [| |by apply elem_of_nil in Ha]; apply Hright; [left|by right]. apply ax_d_in. split; [done|]. apply elem_of_app. by right. }
  { done. }
  { intros a [[H1 H2]%ax_d_in| ->]%Hright Hna.
    - rewrite decide_True; [rewrite (dims_card D Hwf); [done|]|].
      + apply HN. apply elem_of_app in H2 as [[? _]%Honly|?]; apply elem_of_app; tauto.
      + split; [done|]. split; [done|]. intros Heq. apply Hna. destruct a as [i n]. cbn in *. subst. by left.
    - destruct Hna. right. by left. }
  rewrite E2. cbn [res_bind].
  assert (t_shape t1 = axv2 (card D) (card D) <$> right) as S1.
  { eapply einops_repeat_shape; [exact E1| |].
    - destruct Hbase as [-> _]. by rewrite axv2_d.
    - intros a [Ha| ->]%Hright Hna; [done|]. cbn. rewrite decide_True; [apply (dims_card D Hwf), HN, elem_of_app; by left|]. split; [done|]. rewrite Hdupv. by left. }
  assert (t_shape t2 = axv2 (card D) (card D) <$> right) as S2.
  { eapply einops_repeat_shape; [exact E2|done|].
    intros a [[H1 H2]%ax_d_in| ->]%Hright Hna.
    - rewrite decide_True.
      + rewrite (dims_card D Hwf); [destruct a as [i n]; cbn in *; by subst|]. apply HN. apply elem_of_app in H2 as [[? _]%Honly|?]; apply elem_of_app; tauto.
      + split; [done|]. split; [done|]. intros Heq. apply Hna. destruct a as [i n]. cbn in *. subst. by left.
    - destruct Hna. right. by left. }
  rewrite decide_True by congruence. eexists. split; [done|]. cbn [t_shape t_at]. split.
  { rewrite S1. unfold right. rewrite !fmap_app, axv2_d. f_equal. rewrite <-list_fmap_compose. apply fmap_ext_in. intros x Hx. cbn. by case_decide. }
  intros b c Hc Hbc.
  assert (vals b marg ++ vals c cond = axv2 (λ v, c !!! v) (λ v, b !!! v) <$> right) as Hval.
  { unfold right. rewrite fmap_app, axv2_d. f_equal. rewrite <-list_fmap_compose. apply fmap_ext_in. intros x Hx. cbn.
    case_decide as H; [|done]. cbn. apply Hbc; [done|]. by apply Honly in H as [_ ?]. }
  rewrite Hval, (einops_repeat_at _ _ _ _ _ _ E1), (einops_repeat_at _ _ _ _ _ _ E2), axv2_d. destruct Hbase as [_ Hat].
  change ((λ v, c !!! v) <$> only ++ cond) with (vals c (only ++ cond)). rewrite Hat by done. cbn [fmap list_fmap eye t_at]. cbn [axv2 ax_d ax_r fst snd lookup list_lookup].
  change (if decide (marginal D (list_to_set cond) c = 0) then 1 / size else marginal D (list_to_set (only ++ cond)) c / marginal D (list_to_set cond) c) with (F c).
  destruct (decide (Forall (λ v, v ∈ cond → b !!! v = c !!! v) marg)) as [H|H].
  - rewrite decide_True; [ring|]. rewrite Forall_forall in H. by rewrite (H v).
  - rewrite decide_False; [ring|]. intros [= Heq]. apply H, Forall_forall. intros x Hx Hxc. apply Hcv in Hxc; [|done]. by subst x.
Qed.

(** With [get_marginals]: the entry for the values [b] of [marg] and [c] of [cond] is the conditional probability, 0 when
    a node asked for twice has two values, uniform when the condition has probability 0. *)
Theorem C81_get_conditional (o : oracle) (D : ddag) (marg cond : list node) :
  ddag_wf D → stochastic D → no_tiny D → NoDup marg → NoDup cond → marg ++ cond ≠ [] →
  (∀ v, v ∈ marg ++ cond → v ∈ d_nodes (dd_dag D)) →
  (∀ v w, v ∈ marg → w ∈ marg → v ∈ cond → w ∈ cond → v = w) →
  let only := filter (λ v, v ∉ cond) marg in
  ∃ t, get_conditional o D false marg cond = Ok t ∧ t_shape t = card D <$> marg ++ cond ∧
  ∀ b c, in_range D (only ++ cond) c → (∀ v, v ∈ marg → v ∉ cond → b !!! v = c !!! v) →
    let pc := marginal D (list_to_set cond) c in
    ((∃ v, v ∈ marg ∧ v ∈ cond ∧ b !!! v ≠ c !!! v) → t_at t (vals b marg ++ vals c cond) = 0) ∧
    ((∀ v, v ∈ marg → v ∈ cond → b !!! v = c !!! v) → pc ≠ 0 →
      t_at t (vals b marg ++ vals c cond) = marginal D (list_to_set (marg ++ cond)) c / pc) ∧
    ((∀ v, v ∈ marg → v ∈ cond → b !!! v = c !!! v) → pc = 0 →
      t_at t (vals b marg ++ vals c cond) = 1 / foldr (λ v acc, qz (Z.of_nat (card D v)) * acc) 1 only).
Proof.
  intros Hwf Hst Hti Hnm Hnc Hne HN Hone only.
  assert (∀ v, v ∈ only ↔ v ∈ marg ∧ v ∉ cond) as Honly by (intros v; unfold only; rewrite elem_of_list_filter; tauto).
  assert (NoDup (only ++ cond)) as Hnoc.
  { apply NoDup_app. split; [by apply NoDup_filter|]. split; [|done]. intros v Hv. by apply Honly in Hv as [_ ?]. }
  assert (∀ v, v ∈ only ++ cond ↔ v ∈ marg ++ cond) as Hoc.
  { intros v. rewrite !elem_of_app, Honly. destruct (decide (v ∈ cond)); tauto. }
  destruct (C49_get_marginals o D (only ++ cond) Hwf Hst Hti) as (full & E & Hrep).
  { intros H. destruct (marg ++ cond) as [|v l] eqn:El; [done|]. assert (v ∈ only ++ cond) as Hv by (apply Hoc; by left). rewrite H in Hv. by apply elem_of_nil in Hv. }
  { done. } { intros v Hv%Hoc. by apply HN. }
  destruct (cond_main o D false marg cond full Hwf Hnm Hnc HN E Hrep) as (t & Et & Hsh & Hat).
  { assert (NoDup (filter (λ v, v ∈ cond) marg)) as Hnd by (by apply NoDup_filter). destruct (filter (λ v, v ∈ cond) marg) as [|x [|y l]] eqn:Ef; [cbn; lia..|].
    assert (x ∈ filter (λ v, v ∈ cond) marg) as [Hx1 Hx2]%elem_of_list_filter by (rewrite Ef; by left).
    assert (y ∈ filter (λ v, v ∈ cond) marg) as [Hy1 Hy2]%elem_of_list_filter by (rewrite Ef; right; by left).
    assert (x = y) as -> by auto. apply NoDup_cons in Hnd as [Hnd _]. destruct Hnd. by left. }
  exists t. split; [done|]. split; [done|]. intros b c Hc Hbc pc. rewrite (Hat b c Hc Hbc).
  assert (list_to_set (only ++ cond) = list_to_set (marg ++ cond) :> nset) as <-.
  { apply set_eq. intros v. rewrite !elem_of_list_to_set. apply Hoc. }
  split; [|split].
  - intros (v & H1 & H2 & H3). rewrite decide_False; [done|]. rewrite Forall_forall. intros H. apply H3. by apply H.
  - intros H1 H2. rewrite decide_True by (by apply Forall_forall). by rewrite decide_False.
  - intros H1 H2. rewrite decide_True by (by apply Forall_forall). by rewrite decide_True.
Qed.
(** Two nodes asked for twice are refused. *)
Theorem C81_twice (o : oracle) (D : ddag) (new : bool) (marg cond : list node) (v w : node) :
  v ∈ marg → w ∈ marg → v ∈ cond → w ∈ cond → v ≠ w → ∃ e, get_conditional o D new marg cond = Raise e.
Proof.
  intros H1 H2 H3 H4 Hne. unfold get_conditional.
  destruct ((if new then get_marginals_new else get_marginals) _ _ _) as [full|e]; [|by eexists]. cbn [res_bind].
  rewrite decide_False.
  2:{ assert (length (filter (λ v, v ∉ cond) marg) < length marg)%nat; [|lia]. clear -H1 H3. induction marg as [|x l IH]; [by apply elem_of_nil in H1|].
    rewrite filter_cons. pose proof (filter_length (λ v, v ∉ cond) l). case_decide; cbn; [|lia].
    apply elem_of_cons in H1 as [->|H1]; [done|]. specialize (IH H1). lia. }
  destruct (einops_repeat _ _ _ _) as [t|e]; [|by eexists]. cbn [res_bind].
  assert (v ∈ filter (λ v, v ∈ cond) marg) as Hv by (by apply elem_of_list_filter).
  assert (w ∈ filter (λ v, v ∈ cond) marg) as Hw by (by apply elem_of_list_filter).
  destruct (filter (λ v, v ∈ cond) marg) as [|x [|y l]]; [by eexists| |by eexists].
  apply elem_of_list_singleton in Hv, Hw. congruence.
Qed.
(** With [get_marginals_new], the default, an answer is the same answer, but with two sources there is none. *)
Theorem C81_default_sound (o : oracle) (D : ddag) (marg cond : list node) (t : tensor) :
  ddag_wf D → stochastic D → no_tiny D → NoDup marg → NoDup cond → (∀ v, v ∈ marg ++ cond → v ∈ d_nodes (dd_dag D)) →
  get_conditional o D true marg cond = Ok t →
  let only := filter (λ v, v ∉ cond) marg in
  t_shape t = card D <$> marg ++ cond ∧
  ∀ b c, in_range D (only ++ cond) c → (∀ v, v ∈ marg → v ∉ cond → b !!! v = c !!! v) →
    let pc := marginal D (list_to_set cond) c in
    ((∃ v, v ∈ marg ∧ v ∈ cond ∧ b !!! v ≠ c !!! v) → t_at t (vals b marg ++ vals c cond) = 0) ∧
    ((∀ v, v ∈ marg → v ∈ cond → b !!! v = c !!! v) → pc ≠ 0 →
      t_at t (vals b marg ++ vals c cond) = marginal D (list_to_set (marg ++ cond)) c / pc) ∧
    ((∀ v, v ∈ marg → v ∈ cond → b !!! v = c !!! v) → pc = 0 →
      t_at t (vals b marg ++ vals c cond) = 1 / foldr (λ v acc, qz (Z.of_nat (card D v)) * acc) 1 only).
Proof.
  intros Hwf Hst Hti Hnm Hnc HN Et only.
  assert (∀ v, v ∈ only ↔ v ∈ marg ∧ v ∉ cond) as Honly by (intros v; unfold only; rewrite elem_of_list_filter; tauto).
  assert (∀ v, v ∈ only ++ cond ↔ v ∈ marg ++ cond) as Hoc.
  { intros v. rewrite !elem_of_app, Honly. destruct (decide (v ∈ cond)); tauto. }
  destruct (get_marginals_new o D (only ++ cond)) as [full|e] eqn:E.
  2:{ unfold get_conditional in Et. fold only in Et. by rewrite E in Et. }
  destruct (C80_sound o D (only ++ cond) full Hwf Hst Hti) as (_ & Hrep); [intros v Hv%Hoc; by apply HN|done|].
  destruct (cond_main o D true marg cond full Hwf Hnm Hnc HN E Hrep) as (t' & Et' & Hsh & Hat).
  { assert (NoDup (filter (λ v, v ∈ cond) marg)) as Hnd by (by apply NoDup_filter). destruct (filter (λ v, v ∈ cond) marg) as [|x [|y l]] eqn:Ef; [cbn; lia..|].
    assert (x ∈ filter (λ v, v ∈ cond) marg) as [Hx1 Hx2]%elem_of_list_filter by (rewrite Ef; by left).
    assert (y ∈ filter (λ v, v ∈ cond) marg) as [Hy1 Hy2]%elem_of_list_filter by (rewrite Ef; right; by left).
    destruct (C81_twice o D true marg cond x y) as [e He]; [done..| |congruence].
    intros ->. apply NoDup_cons in Hnd as [Hnd _]. destruct Hnd. by left. }
  rewrite Et in Et'. injection Et' as <-. split; [done|]. intros b c Hc Hbc pc. rewrite (Hat b c Hc Hbc).
  assert (list_to_set (only ++ cond) = list_to_set (marg ++ cond) :> nset) as <-.
  { apply set_eq. intros v. rewrite !elem_of_list_to_set. apply Hoc. }
  split; [|split].
  - intros (v & H1 & H2 & H3). rewrite decide_False; [done|]. rewrite Forall_forall. intros H. apply H3. by apply H.
  - intros H1 H2. rewrite decide_True by (by apply Forall_forall). by rewrite decide_False.
  - intros H1 H2. rewrite decide_True by (by apply Forall_forall). by rewrite decide_True.
Qed.
Theorem C81_default_two_sources_refuted :
  ∃ D marg cond, ddag_wf D ∧ stochastic D ∧ no_tiny D ∧ get_conditional oracle0 D true marg cond = Raise RuntimeError ∧
    ∃ t, get_conditional oracle0 D false marg cond = Ok t ∧ t_at t [1; 0; 1]%nat = q10 1.
Proof.
  exists ex_coll, [2]%nat, [1; 0]%nat. destruct (proj1 C80_example) as (H1 & H2 & H3). split; [done|]. split; [done|]. split; [done|].
  assert (match get_conditional oracle0 ex_coll true [2]%nat [1; 0]%nat, get_conditional oracle0 ex_coll false [2]%nat [1; 0]%nat with
    | Raise RuntimeError, Ok t => bool_decide (t_at t [1; 0; 1]%nat = q10 1) | _, _ => false end = true) as H by (vm_compute; reflexivity).
  revert H. generalize (get_conditional oracle0 ex_coll true [2]%nat [1; 0]%nat), (get_conditional oracle0 ex_coll false [2]%nat [1; 0]%nat).
  intros [|[]] [t|]; try done. intros H%bool_decide_eq_true. split; [done|]. by exists t.
Qed.
Example C81_example :
  match get_conditional oracle0 ex_ddag false [2; 0]%nat [0]%nat with
  | Ok t => bool_decide (t_shape t = [2; 2; 2]%nat ∧ t_at t [0; 1; 0]%nat = 0 ∧ t_at t [0; 1; 1]%nat = qz 83 / qz 100) | _ => false end = true.
Proof. vm_compute. reflexivity. Qed.

Print Assumptions C80_sound.
Print Assumptions C80_one_source.
Print Assumptions C80_tree.
Print Assumptions C81_get_conditional.
Print Assumptions C81_twice.
Print Assumptions C81_default_sound.
Print Assumptions C81_default_two_sources_refuted.
