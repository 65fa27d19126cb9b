(** Sampling along a topological order. *)
From Coq Require Import QArith.Qcanon.
From Verif Require Import Py Spec DagModel QMatModel DiscreteModel DiscreteSampleModel SpecDiscrete TopoProofs StateProofs ReachProofs QueryProofs CoreProofs MarkovProofs QMatProofs PropertiesDag DiscreteProofs DiscreteElim.
#[local] Open Scope Qc_scope.

Lemma qfold_app l1 l2 : qfold (l1 ++ l2) = qfold l1 + qfold l2.
Proof. unfold qfold. induction l1 as [|x l1 IH]; cbn; [ring|]. rewrite IH. ring. Qed.
Lemma qfold_seq f n : qfold (f <$> seq 0 n) = qsum n f.
Proof. induction n as [|n IH]; [done|]. rewrite seq_S, fmap_app, qfold_app, IH. cbn. ring. Qed.
Lemma take_seq_fmap {A} (f : nat → A) n k : (k ≤ n)%nat → take k (f <$> seq 0 n) = f <$> seq 0 k.
Proof.
  intros Hk. replace n with (k + (n - k))%nat by lia. rewrite seq_app, fmap_app, take_app_alt; [done|]. by rewrite fmap_length, seq_length.
Qed.
Lemma Qcnlt_le (x y : Qc) : ¬ x < y → y <= x.
Proof. apply Qcnot_lt_le. Qed.
(** The inverse of the cumulated distribution. *)
Lemma draw_spec f n u : (∀ k, (k < n)%nat → 0 <= f k) → qsum n f = 1 → 0 <= u → u < 1 →
  let k := draw (f <$> seq 0 n) u in (k < n)%nat ∧ qsum k f <= u ∧ u < qsum k f + f k.
Proof.
  intros Hf Hs Hu0 Hu1. unfold draw. rewrite fmap_length, seq_length.
  destruct (list_find _ _) as [[i x]|] eqn:E; cbn.
  - apply list_find_Some in E as (Hi & Hlt & Hbef). apply lookup_seq in Hi as [-> Hin]. cbn in *. rewrite take_seq_fmap in Hlt by lia. rewrite qfold_seq in Hlt. cbn in Hlt.
    split; [done|]. split; [|done]. destruct i as [|i]; [done|]. apply Qcnlt_le. intros H. apply (Hbef i i).
    + apply lookup_seq. split; [done|lia].
    + lia.
    + cbn in *. rewrite take_seq_fmap, qfold_seq by lia. done.
  - exfalso. apply list_find_None in E. rewrite Forall_forall in E. destruct n as [|n]; [done|]. apply (E n).
    + apply elem_of_seq. lia.
    + rewrite take_seq_fmap, qfold_seq by lia. by rewrite Hs.
Qed.
Lemma qsum_mono f n k : (k ≤ n)%nat → (∀ j, (j < n)%nat → 0 <= f j) → qsum k f <= qsum n f.
Proof.
  induction n as [|n IH]; intros Hk Hf; [assert (k = 0%nat) as -> by lia; apply Qcle_refl|].
  destruct (decide (k = S n)) as [->|Hne]; [apply Qcle_refl|]. cbn. eapply Qcle_trans; [apply IH; [lia|]|].
  - intros j Hj. apply Hf. lia.
  - rewrite <-(Qcplus_0_r (qsum n f)) at 1. apply Qcplus_le_compat; [apply Qcle_refl|]. apply Hf. lia.
Qed.
Lemma select_unique f n k j u : (∀ i, (i < n)%nat → 0 <= f i) → (k < n)%nat → (j < n)%nat →
  qsum k f <= u ∧ u < qsum k f + f k → qsum j f <= u ∧ u < qsum j f + f j → k = j.
Proof.
  intros Hf. assert (∀ k j, (k < j)%nat → (j < n)%nat → qsum k f <= u ∧ u < qsum k f + f k → qsum j f <= u ∧ u < qsum j f + f j → False) as H.
  { intros i m Him Hm [_ H1] [H2 _]. apply (Qclt_not_le _ _ H1). eapply Qcle_trans; [|exact H2]. apply (qsum_mono f m (S i)); [lia|]. intros. apply Hf. lia. }
  intros Hk Hj H1 H2. destruct (decide (k = j)); [done|]. destruct (decide (k < j)%nat).
  - destruct (H k j); done || lia.
  - destruct (H j k); done || lia.
Qed.

Section sample.
  Context (D : ddag) (Hwf : ddag_wf D) (Hst : stochastic D) (Hnn : nonneg D).
  Notation N := (d_nodes (dd_dag D)).
  Notation Ar := (d_arcs (dd_dag D)).
  Context (Hnd : NoDup (dd_list D)) (Hlist : ∀ v, v ∈ dd_list D ↔ v ∈ N).

  Lemma node_ix_pos v : v ∈ N → node_ix D v = Some (pos (dd_list D) v) ∧ (pos (dd_list D) v < size N)%nat.
  Proof using Hnd Hlist.
    intros Hv. apply Hlist in Hv. pose proof (pos_lookup _ _ Hv) as Hp. split.
    - unfold node_ix. apply elem_of_list_to_map.
      + rewrite fmap_reverse. rewrite reverse_Permutation, fst_zip; [done|]. by rewrite seq_length.
      + apply elem_of_reverse. apply elem_of_list_lookup. exists (pos (dd_list D) v). rewrite lookup_zip_with, Hp. cbn.
        rewrite lookup_seq_lt; [done|]. by eapply lookup_lt_Some.
    - apply lookup_lt_Some in Hp. eapply Nat.lt_le_trans; [exact Hp|]. assert (list_to_set (dd_list D) = N) as HN by (apply set_eq; intros w; by rewrite elem_of_list_to_set).
      rewrite <-HN. rewrite size_list_to_set by done. done.
  Qed.
  Lemma pos_inj v w : v ∈ N → w ∈ N → pos (dd_list D) v = pos (dd_list D) w → v = w.
  Proof using Hlist.
    intros Hv%Hlist Hw%Hlist E. apply pos_lookup in Hv, Hw. rewrite E in Hv. congruence.
  Qed.

  (** The row [r] holds the values [a] of the nodes of [P]. *)
  Definition holds (r : list Z) (a : assignment) (P : node → Prop) : Prop :=
    length r = size N ∧ ∀ v, P v → v ∈ N → r !! pos (dd_list D) v = Some (Z.of_nat (a !!! v)).
  Lemma put_ok v z r : v ∈ N → length r = size N → put D v z r = Ok (<[pos (dd_list D) v := z]> r).
  Proof using Hnd Hlist. intros Hv Hr. unfold put. destruct (node_ix_pos v Hv) as [-> ?]. by rewrite decide_True by lia. Qed.
  Lemma holds_put v k r a P : v ∈ N → holds r a P → ¬ P v → holds (<[pos (dd_list D) v := Z.of_nat k]> r) (<[v := k]> a) (λ w, P w ∨ w = v).
  Proof using Hnd Hlist.
    intros Hv [Hr H] HP. split; [by rewrite insert_length|]. intros w Hw HwN. destruct (decide (w = v)) as [->|Hne].
    - rewrite ins_same. apply list_lookup_insert. rewrite Hr. by apply node_ix_pos.
    - rewrite ins_other by done. rewrite list_lookup_insert_ne; [apply H; [tauto|done]|]. intros E. apply Hne. by apply pos_inj.
  Qed.
  Lemma np_index_ok n k : (k < n)%nat → np_index n (Z.of_nat k) = Some k.
  Proof. intros H. unfold np_index. rewrite decide_True by lia. by rewrite Nat2Z.id. Qed.
  Lemma parent_ixs_ok ps shape r a P : holds r a P → (∀ p, p ∈ ps → p ∈ N ∧ P p) → in_range D ps a →
    parent_ixs D ps ((card D <$> ps) ++ shape) r = Ok (vals a ps).
  Proof using Hnd Hlist.
    intros Hr. induction ps as [|p ps IH]; intros Hps Ha; [done|]. cbn. destruct (Hps p) as [Hp HP]; [by left|].
    destruct (node_ix_pos p Hp) as [-> _]. destruct Hr as [_ Hr]. rewrite Hr by done. cbn. rewrite np_index_ok by (apply Ha; by left).
    rewrite IH; [done| |].
    - intros q Hq. apply Hps. by right.
    - intros q Hq. apply Ha. by right.
  Qed.

  (** Facts about one node. *)
  Lemma family v : v ∈ N → ∃ al ps c, dd_alph D !! v = Some al ∧ dd_par D !! v = Some ps ∧ dd_cond D !! v = Some c ∧ NoDup ps ∧
    (∀ p, p ∈ ps ↔ (p, v) ∈ Ar) ∧ t_shape c = card D <$> ps ++ [v] ∧ v ∉ ps ∧ (∀ p, p ∈ ps → p ∈ N) ∧
    ∀ a, dist_at c (vals a ps) = (λ k, prob D (<[v := k]> a) v) <$> seq 0 (card D v).
  Proof using Hwf.
    intros Hv. pose proof Hwf as (_ & Hac & Hw). destruct (Hw v Hv) as (al & ps & c & E1 & E2 & E3 & Hnps & Hps & Hsh).
    assert (v ∉ ps) as Hvps. { intros H%Hps. apply (Hac v). by apply tc_once. }
    exists al, ps, c. do 6 (split; [done|]). split; [done|]. split.
    - intros p Hp%Hps. by apply (D_over D Hwf) in Hp as [? _].
    - intros a. unfold dist_at. rewrite vals_length, Hsh. rewrite list_lookup_fmap, list_lookup_middle by done. cbn. apply fmap_ext_in.
      intros k _. unfold prob. rewrite E2, E3, vals_app. f_equal. cbn. rewrite ins_same. f_equal. apply vals_ext. intros w Hw'. symmetry. apply ins_other. by intros ->.
  Qed.
  Lemma nonneg_at v a k : v ∈ N → (∀ p, (p, v) ∈ Ar → (a !!! p < card D p)%nat) → (k < card D v)%nat → 0 <= prob D (<[v := k]> a) v.
  Proof using Hwf Hnn.
    intros Hv Ha Hk. destruct (family v Hv) as (al & ps & c & _ & E2 & _ & _ & Hps & _ & Hvps & _). apply (Hnn v ps); [done|done|].
    intros w [Hw| ->%elem_of_list_singleton]%elem_of_app; [|by rewrite ins_same]. rewrite ins_other by (by intros ->). by apply Ha, Hps.
  Qed.
  Lemma sums_at v a : v ∈ N → (∀ p, (p, v) ∈ Ar → (a !!! p < card D p)%nat) → qsum (card D v) (λ k, prob D (<[v := k]> a) v) = 1.
  Proof using Hwf Hst.
    intros Hv Ha. destruct (family v Hv) as (al & ps & c & _ & E2 & _ & _ & Hps & _). apply (Hst v ps); [done|done|]. intros p Hp. by apply Ha, Hps.
  Qed.
  Lemma cdf_before_ins a v k : cdf_before D (<[v := k]> a) v = qsum k (λ j, prob D (<[v := j]> a) v).
  Proof. unfold cdf_before. rewrite ins_same. apply qsum_ext. intros j _. by rewrite insert_insert. Qed.
  Lemma draw_selects v a u : v ∈ N → (∀ p, (p, v) ∈ Ar → (a !!! p < card D p)%nat) → 0 <= u → u < 1 →
    let k := draw ((λ k, prob D (<[v := k]> a) v) <$> seq 0 (card D v)) u in
    (k < card D v)%nat ∧ selects D u (<[v := k]> a) v.
  Proof using Hwf Hst Hnn.
    intros Hv Ha Hu0 Hu1 k. destruct (draw_spec (λ k, prob D (<[v := k]> a) v) (card D v) u) as (H1 & H2 & H3); [intros; by apply nonneg_at|by apply sums_at|done|done|].
    fold k in H1, H2, H3. split; [done|]. unfold selects. by rewrite cdf_before_ins.
  Qed.
  Lemma np_int_nat k : np_int (qz (Z.of_nat k)) = Z.of_nat k.
  Proof.
    unfold np_int. assert (∀ z, (0 <= z)%Z → this (qz z) = QArith_base.Qmake z 1) as H; [|rewrite H by lia; cbn; apply Z.quot_1_r].
    intros [|p|p] Hz; [done| |lia]. assert (Pos.ggcd p 1 = (1, (p, 1))%positive) as Hg by (by destruct p).
    unfold qz, Q2Qc, QArith_base.inject_Z, Qreduction.Qred, Z.ggcd. cbn [this]. by rewrite Hg.
  Qed.
  Lemma choice_ok v a al u : v ∈ N → plain D v → dd_alph D !! v = Some al → (∀ p, (p, v) ∈ Ar → (a !!! p < card D p)%nat) → 0 <= u → u < 1 →
    let dist := (λ k, prob D (<[v := k]> a) v) <$> seq 0 (card D v) in
    ∃ x, choice al dist u = Ok x ∧ np_int x = Z.of_nat (draw dist u).
  Proof using Hwf Hst Hnn.
    intros Hv Hpl Hal Ha Hu0 Hu1 dist. destruct (draw_selects v a u Hv Ha Hu0 Hu1) as [Hk _]. fold dist in Hk.
    rewrite Hpl in Hal. injection Hal as <-. unfold choice. rewrite decide_True.
    - eexists. split; [done|]. rewrite list_lookup_fmap, lookup_seq_lt by done. cbn. apply np_int_nat.
    - split; [by unfold dist; rewrite !fmap_length|]. split; [|unfold dist; rewrite qfold_seq; by apply sums_at].
      unfold dist. apply Forall_fmap, Forall_forall. intros k Hk'%elem_of_seq. apply nonneg_at; [done|done|lia].
  Qed.

  (** One node of [sample]. *)
  Lemma sample_node_ok u v r a P : v ∈ N → holds r a P → (∀ p, (p, v) ∈ Ar → P p ∧ (a !!! p < card D p)%nat) → ((∀ p, (p, v) ∉ Ar) → plain D v) →
    0 <= u v → u v < 1 →
    ∃ k, sample_node D u v r = Ok (<[pos (dd_list D) v := Z.of_nat k]> r) ∧ (k < card D v)%nat ∧ selects D (u v) (<[v := k]> a) v.
  Proof using Hwf Hst Hnn Hnd Hlist.
    intros Hv Hr Hp Hpl Hu0 Hu1. destruct (family v Hv) as (al & ps & c & E1 & E2 & E3 & Hnps & Hps & Hsh & Hvps & HpsN & Hdist).
    assert (∀ p, (p, v) ∈ Ar → (a !!! p < card D p)%nat) as Ha by (intros p H; by apply Hp).
    destruct (draw_selects v a (u v) Hv Ha Hu0 Hu1) as [Hk Hsel]. eexists. split; [|by split]. unfold sample_node. rewrite E1, E2, E3.
    case_decide as Hnil.
    - assert (plain D v) as Hpl'. { apply Hpl. intros p H%Hps. rewrite Hnil in H. by apply elem_of_nil in H. }
      specialize (Hdist a). rewrite Hnil in Hdist. cbn in Hdist. rewrite Hdist.
      destruct (choice_ok v a al (u v) Hv Hpl' E1 Ha Hu0 Hu1) as (x & -> & Hx). cbn [res_bind]. rewrite Hx. apply put_ok; [done|by destruct Hr].
    - rewrite Hsh, fmap_app, (parent_ixs_ok ps _ r a P); [|done|intros p Hp'; split; [by apply HpsN|by apply Hp, Hps]|intros p Hp'; by apply Ha, Hps].
      cbn [res_bind]. rewrite Hdist. apply put_ok; [done|by destruct Hr].
  Qed.
  (** One node of [sample_interventional]. *)
  Lemma interv_node_ok u fixed v r a P : v ∈ N → holds r a P → (∀ p, (p, v) ∈ Ar → P p ∧ (a !!! p < card D p)%nat) → plain D v → fixed !! v = None →
    0 <= u v → u v < 1 →
    ∃ k, interventional_node D u fixed v r = Ok (<[pos (dd_list D) v := Z.of_nat k]> r) ∧ (k < card D v)%nat ∧ selects D (u v) (<[v := k]> a) v.
  Proof using Hwf Hst Hnn Hnd Hlist.
    intros Hv Hr Hp Hpl Hfix Hu0 Hu1. destruct (family v Hv) as (al & ps & c & E1 & E2 & E3 & Hnps & Hps & Hsh & Hvps & HpsN & Hdist).
    assert (∀ p, (p, v) ∈ Ar → (a !!! p < card D p)%nat) as Ha by (intros p H; by apply Hp).
    destruct (draw_selects v a (u v) Hv Ha Hu0 Hu1) as [Hk Hsel]. eexists. split; [|by split]. unfold interventional_node. destruct (node_ix_pos v Hv) as [-> _].
    rewrite Hfix, E1, E2, E3.
    rewrite Hsh, fmap_app, (parent_ixs_ok ps _ r a P); [|done|intros p Hp'; split; [by apply HpsN|by apply Hp, Hps]|intros p Hp'; by apply Ha, Hps].
    cbn [res_bind]. rewrite Hdist. destruct (choice_ok v a al (u v) Hv Hpl E1 Ha Hu0 Hu1) as (x & -> & Hx). cbn [res_bind]. rewrite Hx. apply put_ok; [done|by destruct Hr].
  Qed.
  Lemma selects_agree u a b v : v ∈ N → a !!! v = b !!! v → (∀ p, (p, v) ∈ Ar → a !!! p = b !!! p) → selects D u a v → selects D u b v.
  Proof using Hwf.
    intros Hv Hab Hp. unfold selects. rewrite (prob_agree D Hwf a b v Hv Hab Hp). assert (cdf_before D a v = cdf_before D b v) as ->; [|done].
    unfold cdf_before. rewrite Hab. apply qsum_ext. intros k _. apply (prob_agree D Hwf); [done|by rewrite !ins_same|]. intros p He.
    destruct (family v Hv) as (al & ps & c & _ & _ & _ & _ & Hps & _ & Hvps & _). rewrite !ins_other; [by apply Hp|intros ->; by apply Hvps, Hps..].
  Qed.
  (** The uniform numbers determine the values of the nodes that are drawn. *)
  Lemma selects_unique u (F : node → Prop) `{!∀ v, Decision (F v)} a b t : topo_order N Ar t → in_range D t a → in_range D t b → (∀ v, v ∈ N → F v → a !!! v = b !!! v) →
    (∀ v, v ∈ N → ¬ F v → selects D (u v) a v) → (∀ v, v ∈ N → ¬ F v → selects D (u v) b v) → ∀ v, v ∈ N → a !!! v = b !!! v.
  Proof using Hwf Hnn.
    intros Ht Ha Hb HF Hsa Hsb. assert (∀ pre post, t = pre ++ post → ∀ v, v ∈ pre → a !!! v = b !!! v) as Hpre.
    { induction pre as [|x pre IH] using rev_ind; intros post E v Hv; [by apply elem_of_nil in Hv|].
      rewrite <-app_assoc in E. apply elem_of_app in Hv as [Hv| ->%elem_of_list_singleton]; [by eapply IH|].
      assert (x ∈ N) as Hx by (apply Ht; rewrite E; apply elem_of_app; right; by left).
      destruct (decide (F x)) as [Hf|Hf]; [by apply HF|].
      assert (∀ p, (p, x) ∈ Ar → a !!! p = b !!! p) as Hp.
      { intros p He. eapply IH; [exact E|]. eapply topo_pre; [exact Ht|exact E|exact He|]. by apply (D_over D Hwf) in He as [? _]. }
      assert (∀ p, (p, x) ∈ Ar → (a !!! p < card D p)%nat) as Hpa.
      { intros p He. apply Ha, Ht. by apply (D_over D Hwf) in He as [? _]. }
      assert (x ∈ t) as Hxt by (by apply Ht).
      apply (select_unique (λ k, prob D (<[x := k]> a) x) (card D x) _ _ (u x)).
      - intros k Hk. by apply nonneg_at.
      - by apply Ha.
      - by apply Hb.
      - specialize (Hsa x Hx Hf). unfold selects, cdf_before in Hsa. rewrite (prob_agree D Hwf a (<[x := a !!! x]> a)) in Hsa; [done|done|by rewrite ins_same|].
        intros p He. rewrite ins_other; [done|]. intros ->. destruct Hwf as (_ & Hac & _). apply (Hac p). by apply tc_once.
      - specialize (Hsb x Hx Hf). assert (∀ k, prob D (<[x := k]> a) x = prob D (<[x := k]> b) x) as He.
        { intros k. apply (prob_agree D Hwf); [done|by rewrite !ins_same|]. intros p He. rewrite !ins_other; [by apply Hp|..]; intros ->; destruct Hwf as (_ & Hac & _); apply (Hac p); by apply tc_once. }
        unfold selects, cdf_before in Hsb. rewrite (qsum_ext _ _ _ (λ k _, He k)), He. rewrite (prob_agree D Hwf b (<[x := b !!! x]> b)) in Hsb; [done|done|by rewrite ins_same|].
        intros p He'. rewrite ins_other; [done|]. intros ->. destruct Hwf as (_ & Hac & _). apply (Hac p). by apply tc_once. }
    intros v Hv. apply (Hpre t []); [by rewrite app_nil_r|]. by apply Ht.
  Qed.
End sample.
