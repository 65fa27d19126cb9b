(** Marginal networks of discrete Bayesian networks. *)
From Coq Require Import QArith.Qcanon.
From Verif Require Import Py Spec DagModel QMatModel DiscreteModel SpecDiscrete TopoProofs StateProofs ReachProofs QueryProofs CoreProofs MarkovProofs QMatProofs PropertiesDag DiscreteProofs DiscreteElim PropertiesDiscrete.
#[local] Open Scope Qc_scope.

Lemma acyclic_tc_mono (E E' : arcset) : (∀ x y, (x, y) ∈ E' → tc (edge E) x y) → acyclic E → acyclic E'.
Proof.
  intros H Hac x Hx. apply (Hac x). assert (∀ y z, tc (edge E') y z → tc (edge E) y z) as Ht; [|by apply Ht].
  induction 1 as [y z Hyz|y z w Hyz _ IH]; [by apply H|]. eapply tc_transitive; [by apply H|done].
Qed.
Lemma NoDup_single {A} (l : list A) (x : A) : NoDup l → (∀ y, y ∈ l ↔ y = x) → l = [x].
Proof.
  intros Hnd Hl. destruct l as [|y [|z l]].
  - assert (x ∈ []) as H by (by apply Hl). by apply elem_of_nil in H.
  - f_equal. apply Hl. by left.
  - assert (y = x) as -> by (apply Hl; by left). assert (z = x) as -> by (apply Hl; right; by left). apply NoDup_cons in Hnd as [Hnd _]. destruct Hnd. by left.
Qed.
(** When the constructor accepts its arguments. *)
Lemma make_ok (o : oracle) (nodes : list node) (N : nset) (E : arcset) conds par alph :
  (∀ v, v ∈ nodes ↔ v ∈ N) → over N E → acyclic E → (∀ v, is_Some (par !! v) → v ∈ N) →
  (∀ v, v ∈ N → ∃ al ps c, alph !! v = Some al ∧ par !! v = Some ps ∧ conds !! v = Some c ∧ NoDup ps ∧ (∀ p, p ∈ ps ↔ (p, v) ∈ E) ∧
    t_shape c = shape_of alph (ps ++ [v])) →
  ∃ D, ddag_make o nodes E conds par alph = Ok D ∧ ddag_wf D ∧ d_nodes (dd_dag D) = N ∧ d_arcs (dd_dag D) = E ∧
    dd_cond D = conds ∧ dd_par D = par ∧ dd_alph D = alph ∧ dd_list D = nodes.
Proof.
  intros Hn Hov Hac Hpar Hw. unfold ddag_make. destruct (dag_make_ok o (list_to_set nodes) E Hac) as [d Ed]. rewrite Ed. cbn [res_bind].
  destruct (dag_make_spec _ _ _ _ Ed) as (Hwd & Hacd & Hard & HNd).
  assert (d_nodes d = N) as HN.
  { rewrite HNd. apply set_eq. intros v. rewrite !elem_of_union, elem_of_list_to_set, !elem_of_map, Hn. split; [|by left; left].
    intros [[?|((p & q) & -> & He)]|((p & q) & -> & He)]; [done|..]; apply Hov in He as [? ?]; done. }
  rewrite decide_True.
  2:{ intros v ps Hps. assert (v ∈ N) as Hv by (apply Hpar; by eexists). destruct (Hw v Hv) as (al & ps' & c & E1 & E2 & E3 & _ & Hp & _).
    assert (ps' = ps) as -> by congruence. split; [|by eexists]. apply Forall_forall. intros p [Hp'%Hp| ->%elem_of_list_singleton]%elem_of_app; [|by eexists].
    apply Hov in Hp' as [Hp' _]. destruct (Hw p Hp') as (? & _ & _ & ? & _). by eexists. }
  rewrite decide_True.
  2:{ intros v ps Hps. assert (v ∈ N) as Hv by (apply Hpar; by eexists). destruct (Hw v Hv) as (al & ps' & c & E1 & E2 & E3 & _ & _ & Hsh).
    assert (ps' = ps) as -> by congruence. rewrite E3. cbn. by f_equal. }
  eexists. split; [done|]. cbn. split; [|done]. split; [by apply wf_views_agree|]. split; [done|]. cbn. rewrite HN, Hard. done.
Qed.
Lemma sum_over_card D D' l f a : (∀ v, v ∈ l → card D' v = card D v) → sum_over D' l f a = sum_over D l f a.
Proof.
  revert a. induction l as [|v l IH]; intros a H; [done|]. cbn. rewrite H by (by left). apply qsum_ext. intros k _. apply IH. intros w Hw. apply H. by right.
Qed.

(** The network has at most one child below [v]. *)
Definition one_child (D : ddag) (v : node) : Prop := ∀ c c', (v, c) ∈ d_arcs (dd_dag D) → (v, c') ∈ d_arcs (dd_dag D) → c = c'.

Section marg.
  Context (D : ddag) (Hwf : ddag_wf D) (Hst : stochastic D) (Hpar : ∀ v, is_Some (dd_par D !! v) → v ∈ d_nodes (dd_dag D)).
  Notation N := (d_nodes (dd_dag D)).
  Notation Ar := (d_arcs (dd_dag D)).
  Context (o : oracle) (m : node) (Hm : m ∈ N) (Hone : one_child D m).

  Lemma agree_ins a v k : v ∈ N → v ≠ m → (m, v) ∉ Ar → prob D (<[m := k]> a) v = prob D a v.
  Proof using Hwf.
    intros Hv Hne He. apply (prob_agree D Hwf); [done|by rewrite ins_other|]. intros u Hu. rewrite ins_other; [done|]. by intros <-.
  Qed.
  Lemma irr v : (v, v) ∉ Ar.
  Proof using Hwf. intros H. destruct Hwf as (_ & Hac & _). apply (Hac v). by apply tc_once. Qed.

  Lemma marg_main : ∃ D', marginal_dag_node o D m = Ok D' ∧ ddag_wf D' ∧ stochastic D' ∧ d_nodes (dd_dag D') = N ∖ {[m]} ∧
    (∀ v, is_Some (dd_par D' !! v) → v ∈ N ∖ {[m]}) ∧ (∀ v, v ≠ m → card D' v = card D v) ∧
    (∀ u v, (u, v) ∈ d_arcs (dd_dag D') ↔ u ≠ m ∧ v ≠ m ∧ ((u, v) ∈ Ar ∨ (u, m) ∈ Ar ∧ (m, v) ∈ Ar)) ∧
    (∀ a, (∀ v, v ∈ N → v ≠ m → (a !!! v < card D v)%nat) → joint D' a = qsum (card D m) (λ k, joint D (<[m := k]> a))).
  Proof using Hwf Hst Hpar Hm Hone.
    pose proof Hwf as (Hv & Hac & Hw). apply wf_views_agree in Hv as Hwd. pose proof (D_over D Hwf) as Hov.
    destruct (Hw m Hm) as (alm & mps & mc & Eam & Epm & Ecm & Hndm & Hpm & Hshm).
    unfold marginal_dag_node. rewrite Epm, Ecm. set (ch := children (dd_dag D) m).
    assert (∀ v, v ∈ ch ↔ (m, v) ∈ Ar) as Hch by (intros v; by apply (wf_chi _ Hwd)).
    assert (∀ k, k ∈ d_nodes (dd_dag D) → ∀ l, shape_of (dd_alph D) l = card D <$> l) as Hshape by done.
    assert (∀ (l : list node), m ∉ l → shape_of (delete m (dd_alph D)) l = card D <$> l) as Hshape'.
    { intros l Hl. apply fmap_ext_in. intros v Hv'. rewrite lookup_delete_ne; [done|]. by intros ->. }
    assert (m ∉ mps) as Hmm by (intros H%Hpm; by apply irr in H).
    (* every factor but those of m and its child stays *)
    destruct (decide (ch = ∅)) as [Hnone|Hsome].
    - (* no child *)
      assert (on o [140%nat; m] ch = []) as -> by (apply Permutation_nil; rewrite on_perm, Hnone, elements_empty; done).
      cbn [loopR res_bind fst snd]. rewrite decide_True by (intros v Hv'; destruct (Hw v) as (? & ? & ? & _ & _ & ? & _); [set_solver|by eexists]).
      assert (∀ v, (m, v) ∉ Ar) as Hno. { intros v Hv'. apply Hch in Hv'. set_solver. }
      set (conds := filter _ (dd_cond D)). set (E' := filter _ Ar).
      assert (∀ v, v ∈ N → v ≠ m → conds !! v = dd_cond D !! v) as Hconds.
      { intros v Hv' Hne. destruct (Hw v Hv') as (_ & _ & c & _ & _ & Ec & _). rewrite Ec. apply map_filter_lookup_Some. split; [done|]. cbn. set_solver. }
      destruct (make_ok o (on o [141%nat] (N ∖ {[m]})) (N ∖ {[m]}) E' conds (delete m (dd_par D)) (delete m (dd_alph D))) as (D' & ED & Hwf' & HN' & HA' & HC' & HP' & HL' & _).
      + intros v. apply elem_of_on.
      + intros x y [[H1 H2] H3]%elem_of_filter. cbn in *. destruct (Hov _ _ H3). set_solver.
      + eapply acyclic_mono; [|exact Hac]. intros e [_ ?]%elem_of_filter. done.
      + intros v [ps Hps]. apply lookup_delete_Some in Hps as [Hne Hps]. assert (v ∈ N) by (apply Hpar; by eexists). set_solver.
      + intros v [HvN Hne]%elem_of_difference. rewrite elem_of_singleton in Hne. destruct (Hw v HvN) as (al & ps & c & E1 & E2 & E3 & Hnd & Hps & Hsh).
        exists al, ps, c. rewrite !lookup_delete_ne by done. rewrite Hconds by done. do 4 (split; [done|]). split.
        * intros p. rewrite Hps. unfold E'. rewrite elem_of_filter. cbn. split; [|tauto]. intros He. split; [|done]. split; [|done]. intros ->. by apply Hno in He.
        * rewrite Hshape'; [done|]. intros [H%Hps|H%elem_of_list_singleton]%elem_of_app; [by apply Hno in H|by apply Hne].
      + exists D'. assert (∀ v, v ≠ m → card D' v = card D v) as Hcard by (intros v Hne; unfold card; by rewrite HL', lookup_delete_ne).
        assert (∀ v a, v ∈ N → v ≠ m → prob D' a v = prob D a v) as Hprob.
        { intros v a HvN Hne. unfold prob. rewrite HC', HP', lookup_delete_ne, Hconds by done. done. }
        split; [done|]. split; [done|]. split; [|split; [done|split; [|split; [done|split]]]].
        * intros v ps a HvN Hps Ha. rewrite HN' in HvN. apply elem_of_difference in HvN as [HvN Hne]. rewrite elem_of_singleton in Hne.
          rewrite Hcard by done. rewrite HP', lookup_delete_ne in Hps by done. rewrite <-(Hst v ps a HvN Hps).
          -- apply qsum_ext. intros k _. by apply Hprob.
          -- intros p Hp. rewrite <-Hcard; [by apply Ha|]. intros ->. destruct (Hw v HvN) as (_ & ps' & _ & _ & E2 & _ & _ & Hps' & _).
             assert (ps' = ps) as -> by congruence. apply Hps' in Hp. by apply Hno in Hp.
        * intros v. rewrite HP'. intros [ps Hps]. apply lookup_delete_Some in Hps as [Hne Hps]. assert (v ∈ N) by (apply Hpar; by eexists). set_solver.
        * intros x y. rewrite HA'. unfold E'. rewrite elem_of_filter. cbn. split; [tauto|]. intros (H1 & H2 & [H3|[_ H3]]); [done|by apply Hno in H3].
        * intros a Ha. unfold joint. rewrite HN'.
          transitivity (qsum (card D m) (λ k, prob D (<[m := k]> a) m * plist D' (elements (N ∖ {[m]})) a)).
          -- rewrite qsum_mul_r, (Hst m mps); [|done|done|].
             ++ unfold plist. ring.
             ++ intros p Hp. apply Ha; [apply Hpm in Hp; by apply Hov in Hp as [? _]|]. by intros ->.
          -- apply qsum_ext. intros k _. symmetry. etrans; [apply (plist_perm D _ (m :: elements (N ∖ {[m]})))|].
             ++ rewrite <-elements_union_singleton by set_solver. by rewrite <-union_difference_L by set_solver.
             ++ cbn. f_equal. assert (∀ l, (∀ v, v ∈ l → v ∈ N ∖ {[m]}) → plist D l (<[m := k]> a) = plist D' l a) as H; [|apply H; set_solver].
                induction l as [|v l IH]; intros Hl; [done|]. cbn. assert (v ∈ N ∖ {[m]}) as Hv' by (apply Hl; by left). f_equal.
                ** rewrite elem_of_difference, elem_of_singleton in Hv'. destruct Hv' as [? ?]. rewrite Hprob by done. apply agree_ins; [done|done|apply Hno].
                ** apply IH. intros w Hw'. apply Hl. by right.
    - (* one child *)
      apply set_choose_L in Hsome as [c Hc]. apply Hch in Hc as Hmc. assert (ch = {[c]}) as Hsing.
      { apply set_eq. intros v. rewrite elem_of_singleton, Hch. split; [intros H; by apply (Hone v c)|by intros ->]. }
      assert (on o [140%nat; m] ch = [c]) as -> by (apply Permutation_singleton_r; rewrite on_perm, Hsing, elements_singleton; done).
      assert (c ∈ N) as HcN by (by apply Hov in Hmc as [_ ?]). assert (c ≠ m) as Hcm by (intros ->; by apply irr in Hmc).
      destruct (Hw c HcN) as (alc & ps & cc & Eac & Epc & Ecc & Hndc & Hpc & Hshc).
      assert (m ∈ ps) as Hmps by (by apply Hpc). assert (c ∉ ps) as Hcps by (intros H%Hpc; by apply irr in H).
      assert (c ∉ mps) as Hcmps. { intros H%Hpm. apply (Hac c). eapply tc_l; [exact H|]. by apply tc_once. }
      cbn [loopR]. rewrite Epc, Ecc. set (np := filter (λ p, p ≠ m) ps ++ filter (λ p, p ∉ ps) mps). set (out := np ++ [c]).
      assert (∀ p, p ∈ np ↔ p ≠ m ∧ (p ∈ ps ∨ p ∈ mps)) as Hnp.
      { intros p. unfold np. rewrite elem_of_app, !elem_of_list_filter. split.
        - intros [?|[? ?]]; [tauto|]. split; [by intros ->|tauto].
        - intros [H1 H2]. destruct (decide (p ∈ ps)); tauto. }
      assert (NoDup np) as Hndnp.
      { apply NoDup_app. split; [by apply NoDup_filter|]. split; [|by apply NoDup_filter]. intros p [_ H1]%elem_of_list_filter [H2 _]%elem_of_list_filter. done. }
      assert (c ∉ np) as Hcnp by (rewrite Hnp; tauto).
      assert (NoDup out) as Hndout by (apply NoDup_app; split; [done|]; split; [by intros x Hx ->%elem_of_list_singleton|apply NoDup_singleton]).
      set (size := λ v : node, if decide (v ∈ ps ++ [c]) then default 0%nat (t_shape cc !! pos (ps ++ [c]) v) else default 0%nat (t_shape mc !! pos (mps ++ [m]) v)).
      assert (∀ v, v ∈ ps ++ [c] ∨ v ∈ mps ++ [m] → size v = card D v) as Hsize.
      { intros v Hv'. unfold size. case_decide as H.
        - rewrite Hshc, list_lookup_fmap, pos_lookup by done. done.
        - destruct Hv' as [?|?]; [done|]. rewrite Hshm, list_lookup_fmap, pos_lookup by done. done. }
      unfold einsum2. fold size. rewrite decide_True.
      2:{ rewrite Hshc, Hshm, !fmap_length. split; [done|]. split; [done|]. split; [|split].
        - apply fmap_ext_in. intros v Hv'. symmetry. apply Hsize. by left.
        - apply fmap_ext_in. intros v Hv'. symmetry. apply Hsize. by right.
        - intros v [[_ [?|?]]%Hnp|?]%elem_of_app; rewrite !elem_of_app; tauto. }
      cbn [res_bind fst snd]. set (T := Tensor _ _).
      assert (filter (λ v, v ∉ out) ((ps ++ [c]) ++ filter (λ v, v ∉ ps ++ [c]) (mps ++ [m])) = [m]) as Hnames.
      { apply NoDup_single.
        - apply NoDup_filter, NoDup_app. split; [|split].
          + apply NoDup_app. split; [done|]. split; [by intros x Hx ->%elem_of_list_singleton|apply NoDup_singleton].
          + intros x Hx [H _]%elem_of_list_filter. done.
          + apply NoDup_filter, NoDup_app. split; [done|]. split; [by intros x Hx ->%elem_of_list_singleton|apply NoDup_singleton].
        - intros y. unfold out. rewrite elem_of_list_filter, !elem_of_app, elem_of_list_filter, !elem_of_app, !elem_of_list_singleton, Hnp. split.
          + intros [H1 H2]. destruct (decide (y = m)) as [|Hne]; [done|]. exfalso. destruct H2 as [[?|?]|[? [?|?]]]; apply H1; tauto.
          + intros ->. split; [|by left; left]. intros [[? _]| ->]; done. }
      (* the new table *)
      set (G := λ a : assignment, qsum (card D m) (λ k, prob D (<[m := k]> a) c * prob D (<[m := k]> a) m)).
      assert (∀ a, t_at T (vals a out) = G a) as HT.
      { intros a. unfold T. cbn [t_at]. rewrite Hnames. cbn [sum_names]. unfold G. rewrite Hsize by (right; apply elem_of_app; right; by left).
        apply qsum_ext. intros k _. set (env := <[m := k]> _).
        assert (∀ v, v ∈ ps ++ [c] ∨ v ∈ mps ++ [m] → env !!! v = <[m := k]> a !!! v) as Henv.
        { intros v Hv'. unfold env. destruct (decide (v = m)) as [->|Hne]; [by rewrite !ins_same|]. rewrite !ins_other by done.
          assert (v ∈ out) as Hvo. { unfold out. rewrite !elem_of_app, !elem_of_list_singleton in Hv'. rewrite elem_of_app, elem_of_list_singleton, Hnp. tauto. }
          unfold lookup_total at 1, map_lookup_total. assert ((list_to_map (zip out (vals a out)) : gmap node nat) !! v = Some (a !!! v)) as ->; [|done].
          apply elem_of_list_to_map; [rewrite fst_zip; [done|by rewrite vals_length]|]. apply elem_of_list_lookup. exists (pos out v).
          rewrite lookup_zip_with. unfold vals. rewrite list_lookup_fmap, pos_lookup by done. done. }
        unfold prob. rewrite Epc, Ecc, Epm, Ecm. f_equal; f_equal; unfold lookup_all, vals; apply fmap_ext_in; intros v Hv'; apply Henv; tauto. }
      assert (∀ v, v ∈ N → v ≠ m → v ≠ c → (m, v) ∉ Ar) as Hno. { intros v _ _ Hne He. apply Hne. by apply (Hone v c). }
      assert (∀ a j k, prob D (<[m := k]> (<[c := j]> a)) m = prob D (<[m := k]> a) m) as Hpmc.
      { intros a j k. apply (prob_agree D Hwf); [done|by rewrite !ins_same|]. intros p He. destruct (decide (p = m)) as [->|H1]; [by rewrite !ins_same|].
        rewrite !(ins_other _ m) by done. rewrite ins_other; [done|]. intros <-. by apply Hcmps, Hpm. }
      assert (∀ a, (∀ p, p ∈ np → (a !!! p < card D p)%nat) → qsum (card D c) (λ j, G (<[c := j]> a)) = 1) as Hrow.
      { intros a Ha. unfold G. rewrite qsum_swap. transitivity (qsum (card D m) (λ k, prob D (<[m := k]> a) m)).
        - apply qsum_ext. intros k Hk. transitivity (qsum (card D c) (λ j, prob D (<[c := j]> (<[m := k]> a)) c * prob D (<[m := k]> a) m)).
          + apply qsum_ext. intros j _. rewrite Hpmc. by rewrite insert_commute.
          + rewrite qsum_mul_r, (Hst c ps); [ring|done|done|]. intros p Hp. destruct (decide (p = m)) as [->|Hne]; [by rewrite ins_same|].
            rewrite ins_other by done. apply Ha, Hnp. tauto.
        - apply (Hst m mps); [done|done|]. intros p Hp. apply Ha, Hnp. split; [by intros ->|tauto]. }
      assert (t_shape T = card D <$> out) as HTs.
      { unfold T. cbn [t_shape]. apply fmap_ext_in. intros v Hv'. apply Hsize. unfold out in Hv'. rewrite elem_of_app, elem_of_list_singleton, Hnp in Hv'.
        rewrite !elem_of_app, !elem_of_list_singleton. tauto. }
      assert (∀ a, (∀ p, p ∈ np → (a !!! p < card D p)%nat) → t_at (normalize T) (vals a out) = G a) as HNT.
      { intros a Ha. unfold normalize. cbn [t_at]. rewrite HT. rewrite HTs, fmap_length. assert (last (card D <$> out) = Some (card D c)) as -> by (unfold out; rewrite fmap_app; cbn; by rewrite last_snoc). cbn [default from_option id].
        transitivity (G a / 1); [|unfold Qcdiv; replace (/ 1) with 1 by (by apply Qc_is_canon); ring]. f_equal. rewrite <-(Hrow a Ha). apply qsum_ext. intros j _. rewrite <-HT. f_equal.
        unfold out. rewrite app_length. cbn [length]. rewrite Nat.add_1_r. cbn [pred]. rewrite !vals_app, take_app_alt by (by rewrite vals_length).
        cbn. rewrite ins_same. f_equal. apply vals_ext. intros p Hp. symmetry. apply ins_other. by intros ->. }
      rewrite decide_True by (intros v Hv'; destruct (Hw v) as (? & ? & ? & _ & _ & ? & _); [set_solver|by eexists]).
      set (conds := <[c := normalize T]> _). set (E' := _ ∪ _). set (par := <[c := np]> _).
      assert (∀ v, v ∈ N → v ≠ m → v ≠ c → conds !! v = dd_cond D !! v) as Hconds.
      { intros v Hv' Hne Hnc. destruct (Hw v Hv') as (_ & _ & c' & _ & _ & Ec & _). rewrite Ec. unfold conds. rewrite lookup_insert_ne by done.
        apply map_filter_lookup_Some. split; [done|]. cbn. rewrite Hsing. set_solver. }
      assert (∀ x y, (x, y) ∈ E' ↔ x ≠ m ∧ y ≠ m ∧ ((x, y) ∈ Ar ∨ (x, m) ∈ Ar ∧ (m, y) ∈ Ar)) as HE'.
      { intros x y. unfold E'. rewrite elem_of_union, elem_of_filter, elem_of_list_to_set, elem_of_list_fmap. cbn. split.
        - intros [?|(p & [= -> ->] & Hp)]; [tauto|]. apply Hnp in Hp as [Hp1 Hp2]. split; [done|]. split; [done|]. destruct Hp2 as [Hp2%Hpc|Hp2%Hpm]; tauto.
        - intros (H1 & H2 & [H3|[H3 H4]]); [by left|]. right. assert (y = c) as -> by (by apply (Hone y c)). exists x. split; [done|]. apply Hnp. split; [done|]. right. by apply Hpm. }
      assert (∀ v, is_Some (par !! v) → v ∈ N ∖ {[m]}) as Hpar'.
      { intros v [ps' Hps']. unfold par in Hps'. destruct (decide (v = c)) as [->|Hnc]; [set_solver|]. rewrite lookup_insert_ne in Hps' by done.
        apply lookup_delete_Some in Hps' as [Hne Hps']. assert (v ∈ N) by (apply Hpar; by eexists). set_solver. }
      assert (∀ p, p ∈ np → p ∈ N ∧ p ≠ m) as HnpN.
      { intros p [H1 H2]%Hnp. split; [|done]. destruct H2 as [H%Hpc|H%Hpm]; by apply Hov in H as [? _]. }
      destruct (make_ok o (on o [141%nat] (N ∖ {[m]})) (N ∖ {[m]}) E' conds par (delete m (dd_alph D))) as (D' & ED & Hwf' & HN' & HA' & HC' & HP' & HL' & _).
      + intros v. apply elem_of_on.
      + intros x y (H1 & H2 & [H3|[H3 H4]])%HE'; [apply Hov in H3|apply Hov in H3; apply Hov in H4]; set_solver.
      + eapply acyclic_tc_mono; [|exact Hac]. intros x y (H1 & H2 & [H3|[H3 H4]])%HE'; [by apply tc_once|]. eapply tc_l; [exact H3|]. by apply tc_once.
      + done.
      + intros v [HvN Hne]%elem_of_difference. rewrite elem_of_singleton in Hne. destruct (decide (v = c)) as [->|Hnc].
        * exists alc, np, (normalize T). unfold par, conds. rewrite !lookup_insert, lookup_delete_ne by done. do 4 (split; [done|]). split.
          -- intros p. rewrite HE', Hnp, Hpc, Hpm. tauto.
          -- rewrite Hshape'; [done|]. intros [[? _]%Hnp|?%elem_of_list_singleton]%elem_of_app; by subst.
        * destruct (Hw v HvN) as (al & ps' & c' & E1 & E2 & E3 & Hnd & Hps & Hsh).
          exists al, ps', c'. unfold par. rewrite lookup_insert_ne, !lookup_delete_ne by done. rewrite Hconds by done. do 4 (split; [done|]). split.
          -- intros p. rewrite Hps, HE'. split; [|intros (_ & _ & [?|[_ H]]); [done|by apply Hno in H]]. intros He. split; [|tauto]. intros ->. by apply Hno in He.
          -- rewrite Hshape'; [done|]. intros [H%Hps|H%elem_of_list_singleton]%elem_of_app; [by apply Hno in H|by apply Hne].
      + exists D'. assert (∀ v, v ≠ m → card D' v = card D v) as Hcard by (intros v Hne; unfold card; by rewrite HL', lookup_delete_ne).
        assert (∀ v a, v ∈ N → v ≠ m → v ≠ c → prob D' a v = prob D a v) as Hprob.
        { intros v a HvN Hne Hnc. unfold prob. rewrite HC', HP', Hconds by done. unfold par. by rewrite lookup_insert_ne, lookup_delete_ne. }
        assert (∀ a, (∀ p, p ∈ np → (a !!! p < card D p)%nat) → prob D' a c = G a) as Hprobc.
        { intros a Ha. rewrite <-HNT by done. unfold prob. rewrite HC', HP'. unfold conds, par. rewrite !lookup_insert. done. }
        split; [done|]. split; [done|]. split; [|split; [done|split; [|split; [done|split]]]].
        * intros v ps' a HvN Hps' Ha. rewrite HN' in HvN. apply elem_of_difference in HvN as [HvN Hne]. rewrite elem_of_singleton in Hne.
          rewrite Hcard by done. rewrite HP' in Hps'. unfold par in Hps'. destruct (decide (v = c)) as [->|Hnc].
          -- rewrite lookup_insert in Hps'. injection Hps' as <-. assert (∀ p, p ∈ np → (a !!! p < card D p)%nat) as Ha'.
             { intros p Hp. rewrite <-Hcard by (by apply HnpN). by apply Ha. }
             rewrite <-(Hrow a Ha'). apply qsum_ext. intros k _. apply Hprobc. intros p Hp. rewrite ins_other; [by apply Ha'|]. by intros ->.
          -- rewrite lookup_insert_ne, lookup_delete_ne in Hps' by done. rewrite <-(Hst v ps' a HvN Hps').
             ++ apply qsum_ext. intros k _. by apply Hprob.
             ++ intros p Hp. rewrite <-Hcard; [by apply Ha|]. intros ->. destruct (Hw v HvN) as (_ & ps'' & _ & _ & E2 & _ & _ & Hps'' & _).
                assert (ps'' = ps') as -> by congruence. apply Hps'' in Hp. by apply Hno in Hp.
        * by rewrite HP'.
        * intros x y. rewrite HA'. apply HE'.
        * intros a Ha. assert (∀ p, p ∈ np → (a !!! p < card D p)%nat) as Ha' by (intros p Hp; apply Ha; by apply HnpN).
          assert (N = {[m]} ∪ ({[c]} ∪ N ∖ {[m]} ∖ {[c]})) as HNeq.
          { apply set_eq. intros v. rewrite !elem_of_union, !elem_of_difference, !elem_of_singleton. split; [|intros [->|[->|?]]; tauto]. intros H.
            destruct (decide (v = m)); [tauto|]. destruct (decide (v = c)); tauto. }
          set (R := elements (N ∖ {[m]} ∖ {[c]})).
          transitivity (prob D' a c * plist D' R a).
          { unfold joint. rewrite HN'. etrans; [apply (plist_perm D' _ (c :: R))|done].
            unfold R. rewrite <-elements_union_singleton by set_solver. rewrite <-union_difference_L by set_solver. done. }
          rewrite Hprobc by done. unfold G. rewrite <-qsum_mul_r. apply qsum_ext. intros k _.
          transitivity (prob D (<[m := k]> a) m * (prob D (<[m := k]> a) c * plist D R (<[m := k]> a))).
          -- assert (∀ l, (∀ v, v ∈ l → v ∈ N ∖ {[m]} ∖ {[c]}) → plist D l (<[m := k]> a) = plist D' l a) as H.
             { induction l as [|v l IH]; intros Hl; [done|]. cbn. assert (v ∈ N ∖ {[m]} ∖ {[c]}) as Hv' by (apply Hl; by left).
               rewrite !elem_of_difference, !elem_of_singleton in Hv'. destruct Hv' as [[? ?] ?]. f_equal.
               - rewrite Hprob by done. apply agree_ins; [done|done|by apply Hno].
               - apply IH. intros w Hw'. apply Hl. by right. }
             rewrite H by (intros v Hv'; by apply elem_of_elements). ring.
          -- unfold joint. symmetry. etrans; [apply (plist_perm D _ (m :: c :: R))|done].
             unfold R. rewrite HNeq at 1. rewrite elements_union_singleton by set_solver. rewrite elements_union_singleton by set_solver. done.
  Qed.
End marg.
