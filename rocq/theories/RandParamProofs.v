(** Lemmas about random parameters. *)
From Coq Require Import QArith.Qcanon Field.
From Verif Require Import Py Spec DagModel QMatModel GaussModel DiscreteModel RandParamModel SpecDiscrete SpecRandParam TopoProofs StateProofs ReachProofs QueryProofs CoreProofs QMatProofs PropertiesDag DiscreteProofs QcTac GaussProofs.
#[local] Open Scope Qc_scope.

(** ** Weights away from zero and away from a given weight *)
Lemma sign_true u : ((1 : Qc) - 1 / qz 2) * qz 2 * u = u.
Proof. assert (((1 : Qc) - 1 / qz 2) * qz 2 = 1) as -> by (apply (bool_decide_eq_true _); vm_compute; reflexivity). ring. Qed.
Lemma sign_false u : ((0 : Qc) - 1 / qz 2) * qz 2 * u = - u.
Proof. assert (((0 : Qc) - 1 / qz 2) * qz 2 = - (1)) as -> by (apply (bool_decide_eq_true _); vm_compute; reflexivity). ring. Qed.
Lemma opp_opp (x : Qc) : - - x = x.
Proof. ring. Qed.
Lemma between a b t : a <= b → 0 <= t → t <= 1 → a <= a + (b - a) * t ∧ a + (b - a) * t <= b.
Proof. intros. split; qnra. Qed.

(** ** Tables *)
Lemma tables_loop (step : node → gmap node tensor * gmap node (list node) → res (gmap node tensor * gmap node (list node)))
    (c : node → tensor) (ps : node → list node) l : (∀ v s, v ∈ l → step v s = Ok (<[v := c v]> s.1, <[v := ps v]> s.2)) → ∀ s,
  ∃ s', loopR step l s = Ok s' ∧ (∀ v, s'.1 !! v = if decide (v ∈ l) then Some (c v) else s.1 !! v) ∧
    (∀ v, s'.2 !! v = if decide (v ∈ l) then Some (ps v) else s.2 !! v).
Proof.
  induction l as [|x l IH]; intros H s; cbn [loopR].
  { exists s. split; [done|]. split; intros v; (rewrite decide_False; [done|apply not_elem_of_nil]). }
  rewrite H by (by left). cbn [res_bind]. destruct (IH ltac:(intros; apply H; by right) (<[x := c x]> s.1, <[x := ps x]> s.2)) as (s' & E & H1 & H2).
  exists s'. split; [exact E|]. cbn in H1, H2. split; intros v; rewrite ?H1, ?H2; (destruct (decide (v ∈ l)) as [Hv|Hv]; [rewrite decide_True; [done|by right]|]);
    (destruct (decide (v = x)) as [->|Hne]; [rewrite lookup_insert, decide_True; [done|by left]|
      rewrite lookup_insert_ne by done; rewrite decide_False; [done|]; rewrite elem_of_cons; intros [?|?]; done]).
Qed.
Lemma numbered_seq n N : numbered n N → list_to_set (seq 0 n) = N.
Proof. intros H. apply set_eq. intros v. rewrite elem_of_list_to_set, elem_of_seq, (H v). lia. Qed.
Lemma numbered_size n N : numbered n N → size N = n.
Proof. intros H. rewrite <-(numbered_seq n N H). rewrite size_list_to_set by apply NoDup_seq. apply seq_length. Qed.

Section make.
  Context (o : oracle) (d : dag) (n : nat) (Hwf : wf d) (Hac : acyclic (d_arcs d)) (Hn : numbered n (d_nodes d)).
  Context (c : node → tensor) (ps : node → list node) (alph : gmap node (list Qc)) (conds : gmap node tensor) (n2p : gmap node (list node)).
  Context (Hps : ∀ v, v ∈ d_nodes d → NoDup (ps v) ∧ ∀ p, p ∈ ps v ↔ (p, v) ∈ d_arcs d).
  Context (Hc : ∀ v, v ∈ d_nodes d → conds !! v = Some (c v)) (Hp : ∀ v, n2p !! v = if decide (v ∈ d_nodes d) then Some (ps v) else None).
  Context (Ha : ∀ v, v ∈ d_nodes d → is_Some (alph !! v)) (Hsh : ∀ v, v ∈ d_nodes d → t_shape (c v) = shape_of alph (ps v ++ [v])).
  Lemma make_tables : ∃ D, ddag_make o (seq 0 (size (d_nodes d))) (d_arcs d) conds n2p alph = Ok D ∧
    ddag_wf D ∧ d_nodes (dd_dag D) = d_nodes d ∧ d_arcs (dd_dag D) = d_arcs d ∧ dd_cond D = conds ∧ dd_par D = n2p ∧ dd_alph D = alph.
  Proof using Hwf Hac Hn Hps Hc Hp Ha Hsh.
    unfold ddag_make. rewrite (numbered_size n _ Hn), (numbered_seq n _ Hn).
    destruct (dag_make_ok o (d_nodes d) (d_arcs d) Hac) as [d' Ed]. rewrite Ed. cbn [res_bind]. apply dag_make_spec in Ed as (Hwf' & Hac' & HA & HN).
    assert (d_nodes d' = d_nodes d) as HN'.
    { rewrite HN. apply set_eq. intros x. rewrite !elem_of_union, !elem_of_map. split; [|by intros ?; left; left].
      intros [[?|([? ?] & -> & Hx)]|([? ?] & -> & Hx)]; [done| |]; by destruct (wf_over _ Hwf _ _ Hx). }
    assert (∀ v l, n2p !! v = Some l → v ∈ d_nodes d ∧ l = ps v) as Hn2p. { intros v l E. rewrite Hp in E. case_decide; [|done]. by injection E as <-. }
    rewrite decide_True, decide_True.
    - eexists. split; [done|]. cbn. split; [|done]. split; [by apply wf_views_agree|]. split; [done|]. cbn. rewrite HN'. intros v Hv.
      destruct (Ha v Hv) as [al Eal]. exists al, (ps v), (c v). split; [done|]. split; [rewrite Hp; by rewrite decide_True|]. split; [by apply Hc|].
      destruct (Hps v Hv) as [H1 H2]. split; [done|]. split; [by rewrite HA|]. by rewrite Hsh.
    - intros v l [Hv ->]%Hn2p. rewrite Hc by done. cbn. by rewrite Hsh.
    - intros v l [Hv ->]%Hn2p. rewrite Hc by done. split; [|by eexists]. apply Forall_forall.
      intros p [H| ->%elem_of_list_singleton]%elem_of_app; apply Ha; [|done]. apply (Hps v Hv) in H. by destruct (wf_over _ Hwf _ _ H).
  Qed.
End make.

Lemma qsum_list (l : list Qc) : qsum (length l) (λ k, default 0 (l !! k)) = foldr Qcplus 0 l.
Proof.
  induction l as [|x l IH] using rev_ind; [done|]. rewrite app_length. cbn [length]. rewrite Nat.add_1_r. cbn [qsum].
  rewrite foldr_app. cbn [foldr]. rewrite (lookup_app_r l) by lia. rewrite Nat.sub_diag. cbn.
  rewrite (qsum_ext (length l) _ (λ k, default 0 (l !! k))). 2:{ intros k Hk. by rewrite lookup_app_l. }
  rewrite IH. clear. induction l as [|y l IH]; cbn; [ring|]. rewrite <-IH. ring.
Qed.
Lemma vals_at a (l : list node) v : vals a (l ++ [v]) !! length l = Some (a !!! v) ∧ take (length l) (vals a (l ++ [v])) = vals a l.
Proof.
  rewrite vals_app. assert (length (vals a l) = length l) as E by apply fmap_length. split.
  - rewrite lookup_app_r by lia. by rewrite E, Nat.sub_diag.
  - by rewrite <-E, take_app.
Qed.

(** ** Products *)
Lemma vec2_at (x y : Qc) (ix : list nat) : t_at (vec_tensor [x; y]) ix = match ix with 0%nat :: _ => x | 1%nat :: _ => y | _ => 0 end.
Proof. by destruct ix as [|[|[|k]] ix]. Qed.
Lemma tensor_product_spec (f : nat → Qc) (l : list node) : l ≠ [] →
  ∃ t, tensor_product ((λ k, [1; f k]) <$> seq 0 (length l)) = Ok t ∧ t_shape t = replicate (length l) 2%nat ∧
    ∀ a : assignment, (∀ p, p ∈ l → (a !!! p < 2)%nat) → t_at t (vals a l) = on_product f l a.
Proof.
  destruct l as [|p l]; [done|]. intros _. cbn [length seq fmap list_fmap tensor_product]. eexists. split; [done|].
  assert (∀ l (cur : tensor) (g : nat → Qc) s, let t := foldl (λ cur v, outer cur (vec_tensor v)) cur ((λ k, [1; g k]) <$> seq s (length l)) in
    t_shape t = t_shape cur ++ replicate (length l) 2%nat ∧
    ∀ (a : assignment) ix, length ix = length (t_shape cur) → (∀ p, p ∈ l → (a !!! p < 2)%nat) →
      t_at t (ix ++ vals a l) = t_at cur ix * on_product (λ k, g (s + k)%nat) l a) as Hgen.
  { clear. induction l as [|p l IH]; intros cur g s.
    { cbn. split; [by rewrite app_nil_r|]. intros a ix _ _. rewrite app_nil_r. ring. }
    cbn [length seq fmap list_fmap foldl]. specialize (IH (outer cur (vec_tensor [1; g s])) g (S s)) as [H1 H2]. cbv zeta. split.
    - rewrite H1. cbn. by rewrite <-app_assoc.
    - intros a ix Hix Hl. change (vals a (p :: l)) with ([a !!! p] ++ vals a l). rewrite app_assoc. rewrite H2.
      + cbn [outer t_at]. rewrite <-Hix, take_app, drop_app. cbn [on_product]. rewrite vec2_at.
        assert (∀ h k : nat → Qc, (∀ i, h i = k i) → on_product h l a = on_product k l a) as Hext.
        { clear. induction l as [|p l IH]; intros h k H; [done|]. cbn. rewrite H. f_equal. apply IH. intros i. apply H. }
        rewrite (Hext (λ k, g (S s + k)%nat) (λ k, g (s + S k)%nat)). 2:{ intros i. f_equal. lia. }
        specialize (Hl p ltac:(by left)). destruct (a !!! p) as [|[|k]] eqn:E; [rewrite decide_False by done|rewrite decide_True by done; rewrite Nat.add_0_r|lia]; ring.
      + cbn. rewrite !app_length. cbn. lia.
      + intros q Hq. apply Hl. by right. }
  specialize (Hgen l (vec_tensor [1; f 0%nat]) f 1%nat) as [H1 H2]. split; [exact H1|]. intros a Ha.
  change (vals a (p :: l)) with ([a !!! p] ++ vals a l). rewrite H2; [|done|intros q Hq; apply Ha; by right].
  rewrite vec2_at. cbn [on_product]. specialize (Ha p ltac:(by left)). destruct (a !!! p) as [|[|k]]; [done..|lia].
Qed.
Lemma on_product_range f l a : (∀ k, 0 <= f k ∧ f k <= 1) → 0 <= on_product f l a ∧ on_product f l a <= 1.
Proof.
  revert f. induction l as [|p l IH]; intros f H; cbn; [split; [done|apply Qcle_refl]|].
  destruct (IH (λ k, f (S k))) as [H1 H2]; [intros; apply H|]. destruct (H 0%nat) as [H3 H4].
  set (x := on_product _ l a) in *. clearbody x. set (y := f 0%nat) in *. clearbody y. case_decide; split; qnra.
Qed.

(** ** Changing weights *)
Lemma pairs_index {A} (t : list A) x y i j : NoDup t → (x, y) ∈ combinations2 t → t !! i = Some x → t !! j = Some y → (i < j)%nat.
Proof.
  intros Hnd (l1 & l2 & l3 & ->)%elem_of_combinations2 Hi Hj.
  assert (i = length l1) as ->. { eapply NoDup_lookup; [exact Hnd|exact Hi|]. by rewrite list_lookup_middle. }
  assert (j = length l1 + S (length l2))%nat as ->; [|lia]. eapply NoDup_lookup; [exact Hnd|exact Hj|].
  rewrite lookup_app_r by lia. replace (length l1 + S (length l2) - length l1)%nat with (S (length l2)) by lia. change ((l2 ++ y :: l3) !! length l2 = Some y). by apply list_lookup_middle.
Qed.
Lemma index_pairs {A} (t : list A) x y i j : t !! i = Some x → t !! j = Some y → (i < j)%nat → (x, y) ∈ combinations2 t.
Proof.
  intros Hi Hj Hij. apply elem_of_combinations2. exists (take i t).
  assert (drop (S i) t !! (j - S i)%nat = Some y) as H. { rewrite lookup_drop. replace (S i + (j - S i))%nat with j by lia. done. }
  apply elem_of_list_split_length in H as (l2 & l3 & E & _). exists l2, l3. rewrite <-E. by rewrite take_drop_middle.
Qed.

Section alter.
  Context (o : oracle) (t : list node) (Ht : NoDup t).
  Definition along (g : gauss) : Prop := gauss_wf g ∧ (∀ v, v ∈ g_list g ↔ v ∈ t) ∧ ∀ e, e ∈ d_arcs (g_dag g) → e ∈ combinations2 t.
  Definition same_rest (g g' : gauss) : Prop := g_list g' = g_list g ∧ g_var g' = g_var g ∧ g_bias g' = g_bias g ∧ g_prec g' = g_prec g ∧ g_cov g' = g_cov g.
  Lemma pairs_oriented (E : arcset) : (∀ e, e ∈ E → e ∈ combinations2 t) → oriented E.
  Proof using Ht.
    intros H x y H1%H H2%H. destruct (combinations2_ne t x y Ht H1) as (Hne & Hx & Hy).
    destruct (combinations2_total t x y Ht Hx Hy Hne) as [[_ Hn]|[_ Hn]]; done.
  Qed.
  Lemma set_along g i j val : along g → (i, j) ∈ combinations2 t →
    ∃ g', set_arc_weight o i j val g = (g', Ok tt) ∧ along g' ∧ same_rest g g' ∧
      ∀ x y, weight g' x y = if decide (x = i ∧ y = j) then val else weight g x y.
  Proof using Ht.
    intros (Hg & Hl & HE) Hij. pose proof Hg as (Hv & Hnd & HN & Hix & HA). destruct (combinations2_ne t i j Ht Hij) as (Hne & Hi%Hl & Hj%Hl).
    assert (∀ v, v ∈ g_list g → is_Some (g_ix g !! v)) as Hs. { intros v [a Ha]%elem_of_list_lookup. exists a. by apply Hix. }
    destruct (set_arc_weight_spec o i j val g) as (g' & Hr & (F1 & F2 & F3 & F4 & F5 & F6) & Hwf' & Hn' & Ha' & Hw').
    { intros x y a Hx%Hix Hy%Hix. congruence. } { by apply Hs. } { by apply Hs. } { by apply wf_views_agree. } { intros _. by apply pairs_oriented. }
    exists g'. split; [done|]. split; [|by split; [split_and!|]]. split; [|split].
    - split; [by apply wf_views_agree|]. split; [by rewrite F1|]. split; [|split].
      + intros v. rewrite Hn', F1, elem_of_union, HN. split; [|by right]. intros [H|H]; [|done]. case_decide; [|by apply elem_of_empty in H]. clear -H Hi Hj. set_solver.
      + intros v a. by rewrite F2, F1.
      + intros x y. rewrite Ha', Hw'. destruct (decide (x = i ∧ y = j)) as [[-> ->]|Hxy], (decide (val = 0)) as [->|Hval]; rewrite <-?HA.
        * clear. set_solver. * clear -Hval. set_solver.
        * assert ((x, y) ≠ (i, j)) by (intros [= -> ->]; tauto). clear -H. set_solver.
        * assert ((x, y) ≠ (i, j)) by (intros [= -> ->]; tauto). clear -H. set_solver.
    - intros v. by rewrite F1.
    - intros e. rewrite Ha'. case_decide; [|]; intros He.
      + apply HE. clear -He. set_solver.
      + apply elem_of_union in He as [->%elem_of_singleton|He]; [done|by apply HE].
  Qed.
  (** A loop that sets the weight of each arc of a list. *)
  Lemma set_loop {A} (l : list A) (f : A → M gauss unit) (key : A → arc) (val : A → Qc) g : along g →
    (∀ a, a ∈ l → key a ∈ combinations2 t ∧ ∀ g, f a g = set_arc_weight o (key a).1 (key a).2 (val a) g) → NoDup (key <$> l) →
    ∃ g', mfor l f g = (g', Ok tt) ∧ along g' ∧ same_rest g g' ∧
      (∀ a, a ∈ l → weight g' (key a).1 (key a).2 = val a) ∧ (∀ x y, (x, y) ∉ key <$> l → weight g' x y = weight g x y).
  Proof using Ht.
    revert g. induction l as [|a l IH]; intros g Hg Hf Hnd; cbn [mfor].
    { exists g. split; [done|]. split; [done|]. split; [by split_and!|]. split; [by intros a ?%elem_of_nil|done]. }
    cbn in Hnd. apply NoDup_cons in Hnd as [Hna Hnd]. destruct (Hf a ltac:(by left)) as [Hk E]. unfold mthen, mbind'. rewrite E.
    destruct (key a) as [i j] eqn:Ek. cbn [fst snd] in *. destruct (set_along g i j (val a) Hg Hk) as (g1 & -> & Hg1 & (R1 & R2 & R3 & R4 & R5) & Hw1).
    destruct (IH g1 Hg1 ltac:(intros; apply Hf; by right) Hnd) as (g' & -> & Hg' & (S1 & S2 & S3 & S4 & S5) & H1 & H2).
    exists g'. split; [done|]. split; [done|]. split; [split_and!; congruence|]. split.
    - intros b [->|Hb]%elem_of_cons; [|by apply H1]. rewrite Ek. cbn [fst snd]. rewrite H2 by done. rewrite Hw1. by rewrite decide_True.
    - intros x y Hxy. cbn in Hxy. apply not_elem_of_cons in Hxy as [Hne Hxy]. rewrite H2 by done. rewrite Hw1, decide_False; [done|]. intros [-> ->]. by rewrite Ek in Hne.
  Qed.
End alter.
