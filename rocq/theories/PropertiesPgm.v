(** Final theorems about the conversion from and to [pgmpy]: C122. *)
From Coq Require Import QArith.Qcanon.
From Verif Require Import Py Spec DagModel QMatModel DiscreteModel SpecDiscrete PgmModel SpecPgm TopoProofs StateProofs ReachProofs QueryProofs CoreProofs MarkovProofs MatProofs QMatProofs
  PropertiesDag DiscreteProofs DiscreteElim PropertiesDiscrete PropertiesDiscrete2 PropertiesDiscrete4.
#[local] Open Scope Qc_scope.

Lemma ravel_lt sh ix : Forall2 lt ix sh → (ravel sh ix < volume sh)%nat.
Proof.
  induction 1 as [|i n ix sh Hi _ IH]; [cbn; lia|]. cbn [ravel volume foldr]. fold (volume sh).
  assert ((S i) * volume sh ≤ n * volume sh)%nat by (apply Nat.mul_le_mono_r; lia). lia.
Qed.
Lemma unravel_ravel sh ix : Forall2 lt ix sh → unravel sh (ravel sh ix) = ix.
Proof.
  induction 1 as [|i n ix sh Hi H IH]; [done|]. cbn [ravel unravel]. pose proof (ravel_lt sh ix H) as Hlt.
  rewrite Nat.div_add_l, Nat.div_small, Nat.add_0_r by lia. rewrite Nat.add_comm, Nat.mod_add, Nat.mod_small by lia. by rewrite IH.
Qed.
Lemma loopR_inserts {V} (f : node → gmap node V → res (gmap node V)) (h : node → V) l : (∀ v acc, v ∈ l → f v acc = Ok (<[v := h v]> acc)) →
  ∀ acc, ∃ m, loopR f l acc = Ok m ∧ ∀ v, m !! v = if decide (v ∈ l) then Some (h v) else acc !! v.
Proof.
  intros H. induction l as [|x l IH]; intros acc; cbn [loopR]; [exists acc; split; [done|]; intros v; rewrite decide_False by apply not_elem_of_nil; done|].
  rewrite H by (by left). destruct (IH ltac:(intros; apply H; by right) (<[x := h x]> acc)) as (m & -> & Hm). exists m. split; [done|]. intros v. rewrite Hm.
  destruct (decide (v ∈ l)) as [Hv|Hv]; [rewrite decide_True by (by right); done|]. destruct (decide (x = v)) as [->|Hne].
  - rewrite decide_True by (by left). apply lookup_insert.
  - rewrite decide_False by (rewrite elem_of_cons; naive_solver). by apply lookup_insert_ne.
Qed.
Lemma prod_perm {A} (f : A → Qc) l l' : l ≡ₚ l' → foldr (λ v acc, f v * acc) 1 l = foldr (λ v acc, f v * acc) 1 l'.
Proof. induction 1 as [|x l l' _ IH|x y l|l1 l2 l3 _ IH1 _ IH2]; cbn; [done|by rewrite IH|ring|congruence]. Qed.
Lemma prod_ext {A} (f g : A → Qc) l : (∀ x, x ∈ l → f x = g x) → foldr (λ v acc, f v * acc) 1 l = foldr (λ v acc, g v * acc) 1 l.
Proof. induction l as [|x l IH]; intros H; cbn; [done|]. rewrite H by (by left). f_equal. apply IH. intros y Hy. apply H. by right. Qed.

(** [to_pgm] gives a network with the same graph, the given order of the parents in the tables and the same distribution. *)
Theorem C122_to (o : oracle) (D : ddag) : ddag_wf D →
  ∃ m, to_pgm o D = Ok m ∧ pgm_wf m ∧ (∀ v, v ∈ pg_nodes m ↔ v ∈ d_nodes (dd_dag D)) ∧ pgm_arcs m = d_arcs (dd_dag D) ∧
    (∀ v, v ∈ pg_nodes m → pgm_card m v = card D v ∧ fst <$> pg_cpds m !! v = dd_par D !! v) ∧
    ∀ a, in_range D (elements (d_nodes (dd_dag D))) a → pgm_joint m a = joint D a.
Proof.
  intros (Hva & Hac & Hw). set (N := d_nodes (dd_dag D)). set (nodes := on o [209%nat] N).
  assert (∀ v, v ∈ nodes ↔ v ∈ N) as HN by (intros v; apply elem_of_on).
  assert (over N (d_arcs (dd_dag D))) as Hov by (apply wf_views_agree in Hva; apply Hva).
  destruct (C05_topological_sort (dd_dag D) o Hva) as [Htop _]. destruct (Htop Hac) as (l & Hl & _).
  set (h := λ v, (default [] (dd_par D !! v), Tensor (card D v :: (card D <$> default [] (dd_par D !! v)))
    (λ ix, match ix with [] => 0 | i :: ps => t_at (default (Tensor [] (λ _, 0)) (dd_cond D !! v))
       (unravel (card D <$> default [] (dd_par D !! v)) (ravel (card D <$> default [] (dd_par D !! v)) ps) ++ [i]) end))).
  unfold to_pgm. rewrite Hl. fold N. fold nodes.
  match goal with |- context [loopR ?f ?l ?z] => destruct (loopR_inserts f h l) with (acc := z) as (m & Hm & Hlk) end.
  { intros v acc Hv. apply elem_of_on in Hv. destruct (Hw v Hv) as (al & ps & c & Ha & Hp & Hc & Hnd & Hps & Hsh). unfold h. rewrite Hp, Hc. cbn [from_option id].
    rewrite decide_True.
    2: { apply Forall_forall. intros p [Hpp| ->%elem_of_list_singleton]%elem_of_app; [|by eexists]. apply Hps, Hov in Hpp as [Hpp _]. destruct (Hw p Hpp) as (? & _ & _ & ? & _). by eexists. }
    unfold pgm_values. rewrite Hsh. unfold shape_of. rewrite fmap_app. cbn [fmap list_fmap]. rewrite reverse_snoc. cbv zeta. rewrite reverse_involutive.
    rewrite decide_True by done. cbn [res_bind].
    rewrite decide_True; [done|].
    apply Forall_forall. intros p Hpp. apply HN. apply Hps, Hov in Hpp. tauto. }
  assert (∀ v, v ∈ N → m !! v = Some (h v)) as Hmv. { intros v Hv. rewrite Hlk. rewrite decide_True; [done|]. by apply elem_of_on. }
  clear Hlk. rewrite Hm. cbn [res_bind]. set (P := Pgm _ _ _).
  assert (∀ v, v ∈ N → pgm_card P v = card D v) as Hcard. { intros v Hv. unfold pgm_card, P. cbn [pg_cpds]. rewrite (Hmv v Hv). unfold h. reflexivity. }
  assert (∀ p v, p ∈ pg_preds P v ↔ (p, v) ∈ d_arcs (dd_dag D)) as Hpr.
  { intros p v. unfold P. cbn. rewrite elem_of_list_filter, HN. split; [tauto|]. intros H. split; [done|]. apply Hov in H; tauto. }
  assert (pgm_arcs P = d_arcs (dd_dag D)) as HA.
  { apply set_eq. intros [p v]. unfold pgm_arcs. rewrite elem_of_list_to_set, elem_of_list_bind. setoid_rewrite elem_of_list_fmap. split.
    - intros (w & (q & [= -> ->] & Hq) & _). by apply Hpr.
    - intros H. exists v. split; [exists p; split; [done|by apply Hpr]|]. apply HN. apply Hov in H; tauto. }
  exists P. split; [done|]. split; [|split; [exact HN|]; split; [done|]; split].
  - split; [apply NoDup_on|]. split; [by rewrite HA|]. intros v Hv%HN. split; [apply NoDup_filter, NoDup_on|]. split; [intros p Hp%Hpr; apply HN; apply Hov in Hp; tauto|].
    destruct (Hw v Hv) as (al & ps & c & Ha & Hp & Hc & Hnd & Hps & Hsh). exists ps. eexists. split; [unfold P; cbn; rewrite (Hmv v Hv); unfold h; by rewrite Hp|]. split.
    + apply NoDup_Permutation; [done|apply NoDup_filter, NoDup_on|]. intros p. by rewrite Hps, Hpr.
    + cbn. f_equal; [by rewrite Hcard|]. apply fmap_ext_in. intros p Hpp%Hps. apply Hov in Hpp as [Hpp _]. by rewrite Hcard.
  - intros v Hv%HN. split; [by apply Hcard|]. unfold P. cbn. rewrite (Hmv v Hv). destruct (Hw v Hv) as (al & ps & c & _ & Hp & _). unfold h. cbn. by rewrite Hp.
  - intros a Ha. unfold pgm_joint, joint. cbn [pg_nodes P]. rewrite (prod_perm _ nodes (elements N)).
    2: { apply NoDup_Permutation; [apply NoDup_on|apply NoDup_elements|]. intros v. by rewrite HN, elem_of_elements. }
    apply prod_ext. intros v Hv%elem_of_elements. unfold pgm_prob, prob. cbn [pg_cpds P]. rewrite (Hmv v Hv).
    destruct (Hw v Hv) as (al & ps & c & _ & Hp & Hc & Hnd & Hps & Hsh). unfold h. rewrite Hp, Hc. cbn.
    rewrite unravel_ravel; [by rewrite vals_app|]. unfold vals. apply Forall2_fmap_2, Forall_Forall2_diag, Forall_forall. intros p Hpp%Hps. apply Ha, elem_of_elements. apply Hov in Hpp; tauto.
Qed.

(** [from_pgm] gives the same network on the positions of the nodes, provided the evidence of each table is in the order in which the graph lists the parents. *)
Theorem C122_from (o : oracle) (m : pgm) : pgm_wf m → same_order m →
  ∃ D, from_pgm o m = Ok (D, pg_nodes m) ∧ ddag_wf D ∧ (∀ i, i ∈ d_nodes (dd_dag D) ↔ (i < length (pg_nodes m))%nat) ∧
    (∀ i j u v, pg_nodes m !! i = Some u → pg_nodes m !! j = Some v → (i, j) ∈ d_arcs (dd_dag D) ↔ (u, v) ∈ pgm_arcs m) ∧
    (∀ i v, pg_nodes m !! i = Some v → card D i = pgm_card m v ∧ plain D i) ∧
    ∀ a b, renamed (pg_nodes m) a b → joint D b = pgm_joint m a.
Proof.
  intros (Hnd & Hac & Hw) Hso. set (l := pg_nodes m). set (n := length l). set (par := λ i, pos l <$> pg_preds m (default O (l !! i))).
  set (tab := λ i, first_to_last (from_option snd (Tensor [] (λ _, 0)) (pg_cpds m !! default O (l !! i)))).
  set (alp := λ i, (λ k, qz (Z.of_nat k)) <$> seq 0 (pgm_card m (default O (l !! i)))).
  assert (∀ is, (∀ i, i ∈ is → (i < n)%nat) → ∀ A C P L, ∃ A' C' P' L', loopR (pgm_node m) is (A, C, P, L) = Ok (A', C', P', L') ∧
    (∀ p i, (p, i) ∈ A' ↔ (p, i) ∈ A ∨ i ∈ is ∧ p ∈ par i) ∧
    (∀ i, C' !! i = if decide (i ∈ is) then Some (tab i) else C !! i) ∧ (∀ i, P' !! i = if decide (i ∈ is) then Some (par i) else P !! i) ∧
    (∀ i, L' !! i = if decide (i ∈ is) then Some (alp i) else L !! i)) as Hloop.
  { intros is. induction is as [|i is IH]; intros His A C P L.
    - exists A, C, P, L. split; [done|]. split; [intros p i; rewrite elem_of_nil; tauto|]. split_and!; intros i; by rewrite decide_False by apply not_elem_of_nil.
    - assert (i < n)%nat as Hi by (apply His; by left). apply lookup_lt_is_Some in Hi as [v Hv]. assert (v ∈ l) as Hvl by (by eapply elem_of_list_lookup_2).
      destruct (Hw v Hvl) as (Hn1 & Hn2 & ev & t & Hcp & Hev & Hsh).
      assert (pgm_node m i (A, C, P, L) = Ok (list_to_set ((λ p, (p, i)) <$> par i) ∪ A, <[i := tab i]> C, <[i := par i]> P, <[i := alp i]> L)) as Hst.
      { unfold pgm_node, par, tab, alp. fold l. rewrite Hv. cbn [from_option id]. rewrite Hcp, Hsh. rewrite decide_True by (apply Forall_forall; exact Hn2). cbn [fmap list_fmap from_option snd]. reflexivity. }
      cbn [loopR]. rewrite Hst. destruct (IH ltac:(intros; apply His; by right) (list_to_set ((λ p, (p, i)) <$> par i) ∪ A) (<[i := tab i]> C) (<[i := par i]> P) (<[i := alp i]> L)) as (A' & C' & P' & L' & -> & H1 & H2 & H3 & H4).
      exists A', C', P', L'. split; [done|]. split.
      { intros p j. rewrite H1, elem_of_union, elem_of_list_to_set, elem_of_list_fmap, elem_of_cons. split.
        - intros [[(q & [= -> ->] & Hq)|?]|[??]]; [right; split; [by left|done]|by left|right; split; [by right|done]].
        - intros [?|[[->|?] ?]]; [by left; right|left; left; by exists p|by right]. }
      assert (∀ V (x : V) (M : gmap node V) j f, f i = x → (if decide (j ∈ is) then Some (f j) else <[i := x]> M !! j) = if decide (j ∈ i :: is) then Some (f j) else M !! j) as Hgen.
      { intros V x M j f <-. destruct (decide (j ∈ is)); [by rewrite decide_True by (by right)|]. destruct (decide (i = j)) as [->|Hne].
        - rewrite decide_True by (by left). apply lookup_insert.
        - rewrite decide_False by (rewrite elem_of_cons; naive_solver). by apply lookup_insert_ne. }
      split_and!; intros j; rewrite ?H2, ?H3, ?H4; by apply Hgen. }
  destruct (Hloop (seq 0 n)) with (A := ∅ : arcset) (C := ∅ : gmap node tensor) (P := ∅ : gmap node (list node)) (L := ∅ : gmap node (list Qc)) as (A & C & P & L & Hl & HA & HC & HP & HL).
  { intros i Hi%elem_of_seq. lia. }
  assert (∀ i, (i < n)%nat → C !! i = Some (tab i) ∧ P !! i = Some (par i) ∧ L !! i = Some (alp i)) as Hat.
  { intros i Hi. rewrite HC, HP, HL, !decide_True by (apply elem_of_seq; lia). done. }
  assert (∀ p i v, l !! i = Some v → (p, i) ∈ A ↔ ∃ u, l !! p = Some u ∧ u ∈ pg_preds m v) as HAe.
  { intros p i v Hv. rewrite HA, elem_of_empty. unfold par. rewrite Hv. cbn [from_option id]. rewrite elem_of_list_fmap. pose proof (elem_of_list_lookup_2 _ _ _ Hv) as Hvl. destruct (Hw v Hvl) as (_ & Hn2 & _). split.
    - intros [[]|(_ & u & -> & Hu)]. exists u. split; [|done]. by apply pos_lookup, Hn2.
    - intros (u & Hp & Hu). right. split; [apply elem_of_seq; apply lookup_lt_Some in Hv; unfold n; lia|]. exists u. split; [symmetry; by apply pos_unique|done]. }
  assert (∀ p i, (p, i) ∈ A → (i < n)%nat) as HAr. { intros p i [H|[H _]]%HA; [by apply elem_of_empty in H|]. apply elem_of_seq in H. lia. }
  assert (∀ i j u v, l !! i = Some u → l !! j = Some v → (i, j) ∈ A ↔ (u, v) ∈ pgm_arcs m) as HAm.
  { intros i j u v Hi Hj. rewrite (HAe i j v Hj). unfold pgm_arcs. fold l. rewrite elem_of_list_to_set, elem_of_list_bind. setoid_rewrite elem_of_list_fmap. split.
    - intros (u' & Hu' & Hp). assert (u' = u) as -> by congruence. exists v. split; [by exists u|by eapply elem_of_list_lookup_2].
    - intros (w & (q & [= <- <-] & Hq) & _). by exists u. }
  assert (∀ i, (i < n)%nat → length (default [] (L !! i)) = pgm_card m (default O (l !! i))) as Hlen.
  { intros i Hi. destruct (Hat i Hi) as (_ & _ & ->). unfold alp. cbn. by rewrite fmap_length, seq_length. }
  destruct (make_ok o (seq 0 n) (list_to_set (seq 0 n)) A C P L) as (D & HD & Hwf & HN & HAr' & HCe & HPe & HLe & _).
  - intros v. by rewrite elem_of_list_to_set.
  - intros p i Hpi. pose proof (HAr p i Hpi) as Hi. apply lookup_lt_is_Some in Hi as Hv. destruct Hv as [v Hv]. apply (HAe p i v Hv) in Hpi as (u & Hu & _).
    apply lookup_lt_Some in Hu. fold n in Hu. rewrite !elem_of_list_to_set, !elem_of_seq. lia.
  - apply (acyclic_img A (pgm_arcs m) (λ i, default O (l !! i)) Hac). intros i j Hij. pose proof (HAr i j Hij) as Hj. apply lookup_lt_is_Some in Hj as [v Hv].
    pose proof Hij as (u & Hu & _)%(HAe i j v Hv). rewrite Hu, Hv. cbn. by apply (HAm i j).
  - intros i [x Hx]. rewrite HP in Hx. destruct (decide (i ∈ seq 0 n)); [by apply elem_of_list_to_set|by rewrite lookup_empty in Hx].
  - intros i Hi. rewrite elem_of_list_to_set, elem_of_seq in Hi. destruct (Hat i) as (H1 & H2 & H3); [lia|]. exists (alp i), (par i), (tab i). split; [done|]. split; [done|]. split; [done|].
    assert (is_Some (l !! i)) as [v Hv] by (apply lookup_lt_is_Some; unfold n in Hi; lia). pose proof (elem_of_list_lookup_2 _ _ _ Hv) as Hvl.
    destruct (Hw v Hvl) as (Hn1 & Hn2 & ev & t & Hcp & Hev & Hsh). pose proof (Hso v ev t Hvl Hcp) as ->. unfold par. rewrite Hv. cbn [from_option id]. split; [|split].
    + apply NoDup_fmap_2_strong; [|done]. intros x y Hx Hy E. pose proof (pos_lookup l x (Hn2 x Hx)) as H4. pose proof (pos_lookup l y (Hn2 y Hy)) as H5. rewrite E in H4. congruence.
    + intros p. rewrite (HAe p i v Hv), elem_of_list_fmap. split.
      * intros (u & -> & Hu). exists u. split; [by apply pos_lookup, Hn2|done].
      * intros (u & Hp & Hu). exists u. split; [symmetry; by apply pos_unique|done].
    + unfold tab, first_to_last. rewrite Hv. cbn. rewrite Hcp. cbn. rewrite Hsh. cbn. unfold shape_of. rewrite fmap_app. cbn. f_equal.
      * rewrite <-list_fmap_compose. apply fmap_ext_in. intros p Hp. cbn. pose proof (pos_lookup l p (Hn2 p Hp)) as Hpl. rewrite Hlen by (by eapply lookup_lt_Some). by rewrite Hpl.
      * f_equal. rewrite Hlen by lia. by rewrite Hv.
  - exists D. split. { unfold from_pgm. fold l. fold n. rewrite Hl. cbn [res_bind]. by rewrite HD. }
    split; [done|]. split. { intros i. rewrite HN, elem_of_list_to_set, elem_of_seq. fold n. lia. }
    split. { rewrite HAr'. exact HAm. }
    assert (∀ i v, l !! i = Some v → card D i = pgm_card m v) as Hcd.
    { intros i v Hv. unfold card. rewrite HLe, Hlen by (by eapply lookup_lt_Some). by rewrite Hv. }
    split.
    { intros i v Hv. split; [by apply Hcd|]. unfold plain. rewrite (Hcd i v Hv), HLe. destruct (Hat i) as (_ & _ & ->); [by eapply lookup_lt_Some|]. unfold alp. by rewrite Hv. }
    intros a b Hab. unfold joint, pgm_joint. rewrite HN. rewrite (prod_perm _ _ (seq 0 n)).
    2: { apply NoDup_Permutation; [apply NoDup_elements|apply NoDup_seq|]. intros i. by rewrite elem_of_elements, elem_of_list_to_set. }
    fold l. transitivity (foldr (λ v acc, pgm_prob m a v * acc) 1 ((λ i, default O (l !! i)) <$> seq 0 n)).
    2: { f_equal. apply list_eq. intros i. rewrite list_lookup_fmap. destruct (l !! i) as [v|] eqn:Hv.
      - rewrite lookup_seq_lt by (by eapply lookup_lt_Some). cbn. by rewrite Hv.
      - rewrite lookup_seq_ge; [done|]. by apply lookup_ge_None_1. }
    rewrite foldr_fmap. apply prod_ext. intros i Hi%elem_of_seq. destruct (Hat i) as (H1 & H2 & _); [lia|]. unfold prob, pgm_prob. rewrite HCe, HPe, H1, H2.
    assert (is_Some (l !! i)) as [v Hv] by (apply lookup_lt_is_Some; unfold n in Hi; lia). pose proof (elem_of_list_lookup_2 _ _ _ Hv) as Hvl.
    destruct (Hw v Hvl) as (Hn1 & Hn2 & ev & t & Hcp & Hev & Hsh). pose proof (Hso v ev t Hvl Hcp) as ->. unfold tab, par, first_to_last. rewrite Hv. cbn [from_option id]. rewrite Hcp. cbn [from_option snd]. rewrite Hsh. cbn [fmap list_fmap t_at].
    rewrite vals_app. cbn [vals fmap list_fmap]. rewrite last_snoc. cbn [from_option id]. f_equal. f_equal; [symmetry; by apply Hab|].
    rewrite take_app_alt by (unfold vals; by rewrite !fmap_length). unfold vals. rewrite <-list_fmap_compose. apply fmap_ext_in. intros p Hp. cbn. symmetry. apply Hab. by apply pos_lookup, Hn2.
Qed.

(** A graph with a cycle is refused. *)
Theorem C122_cycle (o : oracle) (D : ddag) : views_agree (dd_dag D) → ¬ acyclic (d_arcs (dd_dag D)) → to_pgm o D = Raise ValueError.
Proof.
  intros Hv Hc. unfold to_pgm. destruct (C05_topological_sort (dd_dag D) o Hv) as [_ H]. destruct (H Hc) as (x & -> & _). done.
Qed.

Lemma sublist_elem {A} (k l : list A) x : sublist k l → x ∈ k → x ∈ l.
Proof. induction 1 as [|y k l _ IH|y k l _ IH]; [done|..]; rewrite ?elem_of_cons; naive_solver. Qed.
Lemma sublist_filter {A} (P : A → Prop) `{!∀ x, Decision (P x)} (l k : list A) : sublist k l → NoDup l → (∀ x, x ∈ k ↔ P x ∧ x ∈ l) → filter P l = k.
Proof.
  induction 1 as [|x k l Hs IH|x k l Hs IH]; intros Hnd Hk; [done|..]; apply NoDup_cons in Hnd as [Hx Hnd].
  - rewrite filter_cons_True by (apply Hk; by left). f_equal. apply IH; [done|]. intros y. split.
    + intros Hy. split; [apply Hk; by right|]. by eapply sublist_elem.
    + intros [Hp Hy]. assert (y ∈ x :: k) as [->|?]%elem_of_cons by (apply Hk; split; [done|by right]); done.
  - assert (¬ P x) as Hn. { intros Hp. assert (x ∈ k) as Hxk by (apply Hk; split; [done|by left]). apply Hx. by eapply sublist_elem. }
    rewrite filter_cons_False by done. apply IH; [done|]. intros y. rewrite Hk, elem_of_cons. split; [intros [? [->|?]]; done|tauto].
Qed.

(** To [pgmpy] and back: when each list of parents is in the order of the nodes, the result is the same network on the positions of the nodes. *)
Theorem C122_roundtrip (o o' : oracle) (D : ddag) (m : pgm) : ddag_wf D → to_pgm o D = Ok m →
  (∀ v ps, v ∈ d_nodes (dd_dag D) → dd_par D !! v = Some ps → sublist ps (pg_nodes m)) →
  ∃ D', from_pgm o' m = Ok (D', pg_nodes m) ∧ ddag_wf D' ∧ length (pg_nodes m) = size (d_nodes (dd_dag D)) ∧
    (∀ i, i ∈ d_nodes (dd_dag D') ↔ (i < length (pg_nodes m))%nat) ∧
    (∀ i j u v, pg_nodes m !! i = Some u → pg_nodes m !! j = Some v → (i, j) ∈ d_arcs (dd_dag D') ↔ (u, v) ∈ d_arcs (dd_dag D)) ∧
    (∀ i v, pg_nodes m !! i = Some v → card D' i = card D v) ∧
    ∀ a b, in_range D (elements (d_nodes (dd_dag D))) a → renamed (pg_nodes m) a b → joint D' b = joint D a.
Proof.
  intros Hwf Hto Hsub. destruct (C122_to o D Hwf) as (m' & Hm' & Hpw & HN & HA & Hc & Hj). assert (m' = m) as -> by congruence.
  assert (∀ v, pg_preds m v = filter (λ p, (p, v) ∈ d_arcs (dd_dag D)) (pg_nodes m)) as Hpr.
  { intros v. revert Hto. unfold to_pgm. destruct (topological_sort _ _); [|done]. match goal with |- context [loopR ?f ?l ?z] => destruct (loopR f l z) end; cbn [res_bind]; [|done]. intros [= <-]. done. }
  assert (same_order m) as Hso.
  { intros v ev t Hv Hcp. destruct (Hc v Hv) as [_ Hev]. rewrite Hcp in Hev. cbn in Hev. rewrite Hpr. symmetry. apply sublist_filter.
    - apply (Hsub v ev); [by apply HN|done].
    - apply Hpw.
    - intros p. destruct Hpw as (_ & _ & Hpw). destruct (Hpw v Hv) as (_ & _ & ev' & t' & Hcp' & Hperm & _). rewrite Hcp in Hcp'. injection Hcp' as <- <-.
      rewrite Hperm, Hpr, elem_of_list_filter. done. }
  destruct (C122_from o' m Hpw Hso) as (D' & HD & Hwf' & HN' & HA' & Hc' & Hj'). exists D'. split; [done|]. split; [done|]. split.
  { destruct Hpw as (Hnd & _). rewrite <-(size_list_to_set (C := nset)) by done. f_equal. apply set_eq. intros v. by rewrite elem_of_list_to_set. }
  split; [done|]. split; [by rewrite <-HA|]. split.
  - intros i v Hi. destruct (Hc' i v Hi) as [-> _]. apply Hc. by eapply elem_of_list_lookup_2.
  - intros a b Ha Hab. rewrite (Hj' a b Hab). by apply Hj.
Qed.

(** Otherwise the table is read with its axes exchanged: another distribution ... *)
Theorem C122_order_refuted : ∃ (D D' : ddag) (m : pgm) (a : assignment), ddag_wf D ∧ stochastic D ∧ to_pgm oracle0 D = Ok m ∧
  from_pgm oracle0 m = Ok (D', pg_nodes m) ∧ in_range D (elements (d_nodes (dd_dag D))) a ∧ renamed (pg_nodes m) a a ∧ joint D' a ≠ joint D a.
Proof.
  destruct (check_rows_sound ex_coll) as [H1 H2]; [apply dag_of_wf|by_vm|by_vm|]. destruct (C122_to oracle0 ex_coll H1) as (m & Hm & _).
  set (a := (<[0 := 0]> (<[1 := 1]> (<[2 := 0]> ∅)))%nat : assignment).
  assert (match to_pgm oracle0 ex_coll with Ok m => bool_decide (pg_nodes m = [0; 1; 2]%nat) && match from_pgm oracle0 m with
    | Ok (D', l) => bool_decide (l = pg_nodes m ∧ joint D' a ≠ joint ex_coll a) | _ => false end | _ => false end = true) as H by (vm_compute; reflexivity).
  rewrite Hm in H. apply andb_true_iff in H as [H3 H]. apply bool_decide_eq_true in H3. remember (from_pgm oracle0 m) as r eqn:E. destruct r as [[D' l]|]; [|discriminate H].
  apply bool_decide_eq_true in H as [-> H]. exists ex_coll, D', m, a. split; [done|]. split; [done|]. split; [done|]. split; [by symmetry|]. split; [|split; [|done]].
  - assert (Forall (λ v, (a !!! v < card ex_coll v)%nat) (elements (d_nodes (dd_dag ex_coll)))) as HF by by_vm. rewrite Forall_forall in HF. exact HF.
  - intros i v. rewrite H3. destruct i as [|[|[|i]]]; intros [= <-]; reflexivity.
Qed.
(** ... or an error, when the parents have different numbers of values. *)
Definition ex_coll3 : ddag := DDag (dag_of {[0; 1; 2]}%nat {[(0, 2); (1, 2)]}%nat) [0; 1; 2]%nat
  (list_to_map [(0%nat, ex_tab [5; 5]%Z [2]%nat); (1%nat, ex_tab [1; 3; 6]%Z [3]%nat); (2%nat, ex_tab [1; 9; 9; 1; 8; 2; 2; 8; 3; 7; 4; 6]%Z [3; 2; 2]%nat)])
  (list_to_map [(0, []); (1, []); (2, [1; 0])]%nat) (list_to_map [(0%nat, [qz 0; qz 1]); (1%nat, [qz 0; qz 1; qz 2]); (2%nat, [qz 0; qz 1])]).
Theorem C122_shape_refuted : ∃ (D : ddag) (m : pgm), ddag_wf D ∧ stochastic D ∧ to_pgm oracle0 D = Ok m ∧ from_pgm oracle0 m = Raise ValueError.
Proof.
  destruct (check_rows_sound ex_coll3) as [H1 H2]; [apply dag_of_wf|by_vm|by_vm|]. destruct (C122_to oracle0 ex_coll3 H1) as (m & Hm & _).
  assert (match to_pgm oracle0 ex_coll3 with Ok m => match from_pgm oracle0 m with Raise ValueError => true | _ => false end | _ => false end = true) as H by (vm_compute; reflexivity).
  rewrite Hm in H. exists ex_coll3, m. split; [done|]. split; [done|]. split; [done|]. destruct (from_pgm oracle0 m) as [?|[]]; first [discriminate H|reflexivity].
Qed.
(** With the parents in the order of the nodes the same network comes back. *)
Definition ex_coll_in_order : ddag := DDag (dag_of {[0; 1; 2]}%nat {[(0, 2); (1, 2)]}%nat) [0; 1; 2]%nat
  (list_to_map [(0%nat, ex_tab [5; 5]%Z [2]%nat); (1%nat, ex_tab [1; 3; 6]%Z [3]%nat); (2%nat, ex_tab [1; 9; 9; 1; 8; 2; 2; 8; 3; 7; 4; 6]%Z [2; 3; 2]%nat)])
  (list_to_map [(0, []); (1, []); (2, [0; 1])]%nat) (list_to_map [(0%nat, [qz 0; qz 1]); (1%nat, [qz 0; qz 1; qz 2]); (2%nat, [qz 0; qz 1])]).
Example C122_example : ddag_wf ex_coll_in_order ∧ ∃ m, to_pgm oracle0 ex_coll_in_order = Ok m ∧ pgm_wf m ∧ same_order m ∧
  (∀ v ps, v ∈ d_nodes (dd_dag ex_coll_in_order) → dd_par ex_coll_in_order !! v = Some ps → sublist ps (pg_nodes m)) ∧
  pg_nodes m = [0; 1; 2]%nat ∧ pgm_joint m (<[0 := 1]> (<[1 := 2]> (<[2 := 1]> ∅)))%nat = qz 21 / qz 100.
Proof.
  destruct (check_rows_sound ex_coll_in_order) as [H1 H2]; [apply dag_of_wf|by_vm|by_vm|]. split; [done|]. destruct (C122_to oracle0 ex_coll_in_order H1) as (m & Hm & Hp & _). exists m. split; [done|]. split; [done|].
  assert (match to_pgm oracle0 ex_coll_in_order with Ok m => bool_decide (pg_nodes m = [0; 1; 2]%nat ∧ pgm_joint m (<[0 := 1]> (<[1 := 2]> (<[2 := 1]> ∅)))%nat = qz 21 / qz 100 ∧
    Forall (λ v, fst <$> pg_cpds m !! v = Some (pg_preds m v)) (pg_nodes m)) | _ => false end = true) as H by (vm_compute; reflexivity).
  rewrite Hm in H. apply bool_decide_eq_true in H as (H3 & H4 & H5). split; [|split; [|done]].
  - intros v ev t Hv Hc. rewrite Forall_forall in H5. specialize (H5 v Hv). rewrite Hc in H5. by injection H5.
  - intros v ps Hv Hps. rewrite H3. assert (Forall (λ v, dd_par ex_coll_in_order !! v = Some [] ∨ dd_par ex_coll_in_order !! v = Some [0; 1]%nat) (elements (d_nodes (dd_dag ex_coll_in_order)))) as HF by by_vm.
    rewrite Forall_forall in HF. specialize (HF v ltac:(by apply elem_of_elements)). cbn beta in HF. rewrite Hps in HF. destruct HF as [[= ->]|[= ->]]; [apply sublist_nil_l|]. do 2 constructor. apply sublist_nil_l.
Qed.

Print Assumptions C122_to.
Print Assumptions C122_from.
Print Assumptions C122_roundtrip.
Print Assumptions C122_order_refuted.
Print Assumptions C122_shape_refuted.
Print Assumptions C122_cycle.
