(** Final theorems about [marginal_mag]: C40. *)
From Verif Require Import Py Spec SpecDsep SpecMixed DagModel DsepModel UGraphModel PdagModel CompareModel InterveneModel AncestralModel MsepModel MargModel
  TopoProofs StateProofs ReachProofs OrderProofs QueryProofs WalkProofs DsepProofs UGraphProofs PdagProofs MatProofs AncestralState AncestralProofs AncestralCopy
  MWalkProofs MsepProofs InduceProofs MagModel MagProofs MaxProofs MargProofs MargRun MargOld PropertiesDag PropertiesDsep PropertiesAncestral.

(** [h] is the marginal graph of [d] over the nodes outside [L]. *)
Record marginal (d : dag) (L : nset) (h : ag) : Prop := Marginal {
  mg_wf : ag_wf h;
  mg_nodes : g_nodes h = d_nodes d ∖ L;
  (** the same separations between observed nodes *)
  mg_sep : ∀ A B C : nset, A ## L → B ## L → C ## L → A ## C → dsepd (d_arcs d) A B C ↔ msepd (gmix h) A B C;
  (** adjacent if and only if no set of observed nodes separates *)
  mg_adj : ∀ x y, x ∈ g_nodes h → y ∈ g_nodes h → x ≠ y →
    madj (gmix h) x y ↔ ∀ C : nset, C ⊆ g_nodes h ∖ {[x; y]} → ¬ dsepd (d_arcs d) {[x]} {[y]} C;
  (** the marks show the ancestors *)
  mg_dir : ∀ x y, (x, y) ∈ g_dir h ↔ madj (gmix h) x y ∧ ancestor (d_arcs d) x y;
  mg_bi : ∀ x y, spouse (gmix h) x y ↔ madj (gmix h) x y ∧ ¬ ancestor (d_arcs d) x y ∧ ¬ ancestor (d_arcs d) y x;
  mg_un : ∀ x y, ¬ neighbor (gmix h) x y;
  mg_ancestor : ∀ x y, x ∈ g_nodes h → y ∈ g_nodes h → ancestor (g_dir h) x y ↔ ancestor (d_arcs d) x y;
  mg_ancestral : ancestral (gmix h);
  mg_maximal : maximal (g_nodes h) (gmix h)
}.

Lemma marg_marginal d L h : wf d → acyclic (d_arcs d) → marg (d_nodes d) (d_arcs d) L h → marginal d L h.
Proof.
  intros Hwf Ha Hm. set (E := d_arcs d). pose proof (marg_ok _ _ _ _ Hm) as Hh. pose proof (marg_nodes _ _ _ _ Hm) as HN.
  assert (∀ x y, lab (dmix E) x y = true ↔ tc (edge E) x y) as Hlb by (intros; apply (lab_mark (dmix E))).
  assert (∀ x y, madj (gmix h) x y ↔ x ∉ L ∧ y ∉ L ∧ x ≠ y ∧ ip (dmix E) L x y) as Hadj by (intros; by eapply m_adj).
  assert (∀ A B C : nset, A ## L → B ## L → C ## L → A ## C → dsepd E A B C ↔ msepd (gmix h) A B C) as Hsep.
  { intros. rewrite dmix_dsepd. by eapply m_msepd. }
  assert (∀ x, x ∈ g_nodes h → x ∉ L) as HL by (intros x; rewrite HN, elem_of_difference; tauto).
  assert (∀ x y, x ∈ g_nodes h → y ∈ g_nodes h → x ≠ y → ¬ madj (gmix h) x y →
    ∃ C : nset, C ⊆ g_nodes h ∖ {[x; y]} ∧ dsepd E {[x]} {[y]} C) as Hex.
  { intros x y Hx Hy Hne Hna. destruct (ip_test d L Hwf Ha x y Hne) as [Hip|(C & HC & Hd)]; [destruct Hna; apply Hadj; auto|].
    exists C. split; [|done]. intros v Hv. apply HC in Hv. rewrite HN. clear -Hv. set_solver. }
  assert (∀ x y, tc (edge E) x y → tc (edge E) y x → False) as Hcy by (intros x y H1 H2; apply (Ha x); by etrans).
  split.
  - by apply gok_ag_wf.
  - done.
  - exact Hsep.
  - intros x y Hx Hy Hne. split.
    + intros (_ & _ & _ & Hip)%Hadj C HC. apply (ip_no_dsep d L Ha); [| |done].
      * intros v Hv. apply HC in Hv. apply HL. clear -Hv. set_solver.
      * intros Hv. apply HC in Hv. clear -Hv. set_solver.
    + intros Hno. destruct (ip_test d L Hwf Ha x y Hne) as [Hip|(C & HC & Hd)]; [apply Hadj; auto|]. exfalso.
      apply (Hno C); [|done]. intros v Hv. apply HC in Hv. rewrite HN. clear -Hv. set_solver.
  - intros x y. pose proof (marg_edge _ _ _ _ Hm x y true false) as He. cbn in He. rewrite He, Hadj. unfold ancestor. fold E. rewrite <-Hlb. split.
    + intros (? & ? & ? & ? & <- & _). done.
    + intros ((? & ? & ? & ?) & Hl). rewrite Hl. split_and!; try done. symmetry. apply not_true_iff_false. rewrite Hlb in *. eauto.
  - intros x y. pose proof (marg_edge _ _ _ _ Hm x y false false) as He. cbn in He. rewrite He, Hadj. unfold ancestor. fold E. rewrite <-!Hlb. split.
    + intros (? & ? & ? & ? & <- & <-). done.
    + intros ((? & ? & ? & ?) & Hl & Hl'). apply not_true_iff_false in Hl, Hl'. rewrite Hl, Hl'. done.
  - intros x y. rewrite neighbor_upair, (marg_un _ _ _ _ Hm) by done. apply not_elem_of_empty.
  - intros x y Hx Hy. unfold ancestor. rewrite (m_tc E L Ha _ h Hm x y : _ ↔ _). apply HL in Hx, Hy. tauto.
  - by eapply m_ancestral.
  - intros x y Hx Hy Hne Hna. destruct (Hex x y Hx Hy Hne Hna) as (C & HC & Hd). exists C. split; [done|].
    apply Hsep; [..|done].
    + intros v ->%elem_of_singleton. by apply HL.
    + intros v ->%elem_of_singleton. by apply HL.
    + intros v Hv. apply HC in Hv. apply HL. clear -Hv. set_solver.
    + clear -HC. set_solver.
Qed.

(** [new=True], the default. *)
Theorem C40_marginal_mag d o p L :
  views_agree d → acyclic (d_arcs d) → ∃ h, marginal_mag d o p L = Ok h ∧ marginal d L h.
Proof.
  rewrite <-wf_views_agree. intros Hwf Ha. destruct (marginal_mag_spec d o p L Hwf Ha) as (h & E & Hm). exists h. split; [done|]. by apply marg_marginal.
Qed.
(** [new=False]. *)
Theorem C40_marginal_mag_old d o p L :
  views_agree d → acyclic (d_arcs d) → ∃ h, marginal_mag_old d o p L = Ok h ∧ marginal d L h.
Proof.
  rewrite <-wf_views_agree. intros Hwf Ha. destruct (marginal_mag_old_spec d L Hwf Ha o p) as (h & E & Hm). exists h. split; [done|]. by apply marg_marginal.
Qed.
(** Both variants give equal graphs, whatever the iteration orders. *)
Theorem C40_variants_agree d o o' p p' L :
  views_agree d → acyclic (d_arcs d) →
  ∃ h h', marginal_mag d o p L = Ok h ∧ marginal_mag_old d o' p' L = Ok h' ∧ ag_eqb h h' = true.
Proof.
  rewrite <-wf_views_agree. intros Hwf Ha. destruct (marginal_mag_spec d o p L Hwf Ha) as (h & E & Hm).
  destruct (marginal_mag_old_spec d L Hwf Ha o' p') as (h' & E' & Hm'). exists h, h'. split; [done|]. split; [done|].
  destruct (marg_unique _ _ _ _ _ Hm Hm') as (H1 & H2 & H3 & H4). unfold ag_eqb. rewrite H1, H2, H3, H4. by rewrite !bool_decide_eq_true_2.
Qed.
(** The library answers separation queries about observed nodes in the same way
    on the DAG and on its marginal graph. *)
Theorem C40_same_answers d o p L A B C :
  views_agree d → acyclic (d_arcs d) → A ## L → B ## L → C ## L → A ## C →
  ∃ h b, marginal_mag d o p L = Ok h ∧ dsep d o p A B C = Ok b ∧ msep h o p A B C = Ok b.
Proof.
  intros Hd Ha HA HB HC HAC. destruct (C40_marginal_mag d o p L Hd Ha) as (h & E & Hm). exists h.
  destruct (C09_dsep_decides d o p A B C Hd Ha HAC) as (b & Eb & Hb). exists b. split; [done|]. split; [done|].
  pose proof (mg_wf _ _ _ Hm) as Hw. apply gok_ag_wf in Hw.
  destruct (msep_spec h Hw o p A B C) as (b' & Eb' & Hb'); [clear -HAC; set_solver|]. rewrite Eb'. f_equal. apply eq_true_iff_eq.
  assert (A ∖ C = A) as EA by (clear -HAC; set_solver). rewrite EA in Hb'. rewrite Hb, Hb'. symmetry. by apply (mg_sep _ _ _ Hm).
Qed.
(** Without latent nodes the graph is unchanged. *)
Theorem C40_no_latent d o p L :
  views_agree d → acyclic (d_arcs d) → L ## d_nodes d →
  ∃ h, marginal_mag d o p L = Ok h ∧ g_nodes h = d_nodes d ∧ g_dir h = d_arcs d ∧ g_bi h = ∅ ∧ g_un h = ∅.
Proof.
  rewrite <-wf_views_agree. intros Hwf Ha HL. destruct (marginal_mag_spec d o p L Hwf Ha) as (h & E & Hm). exists h. split; [done|].
  set (D := d_arcs d) in *.
  assert (∀ u v k m, medge (dmix D) u v k m → u ∉ L ∧ v ∉ L) as HnL.
  { intros u v [] [] H; cbn in H; [by apply dmix_ne in H| | |by apply dmix_sp in H]; apply (wf_over _ Hwf) in H; clear -H HL; set_solver. }
  assert (∀ x y, ip (dmix D) L x y → x = y ∨ madj (dmix D) x y) as Hip.
  { intros x y (k & m & v & m1 & He & Hk & Hr). apply rtc_inv in Hr as [[= -> ->]|([w m2] & (k' & He' & Hk' & Hc) & Hr)].
    { right. apply madj_medge. eauto. }
    cbn [fst snd] in *. destruct (HnL _ _ _ _ He) as [_ HvL]. destruct m1, k'; cbn in Hc; try done.
    destruct k; [|by apply dmix_sp in He]. destruct m2; [|by apply dmix_sp in He']. cbn in He, He'.
    destruct (HnL w v true false He') as [HwL _].
    apply rtc_inv in Hr as [[= -> _]|([z m3] & (k3 & _ & _ & Hc3) & _)]; [|by cbn in Hc3].
    exfalso. destruct Hc as [Hc|Hc]; [exact (acyclic_rtc D _ _ Ha He Hc)|exact (acyclic_rtc D _ _ Ha He' Hc)]. }
  assert (∀ x y k m, medge (dmix D) x y k m ↔ medge (gmix h) x y k m) as Hedge.
  { intros x y k m. rewrite (marg_edge _ _ _ _ Hm). split.
    - intros He. destruct (HnL _ _ _ _ He). destruct (edge_mark (dmix D) Ha (dmix_ne D) x y k m (dmix_sp D) He) as [Hk Hk'].
      split_and!; [done|done| |by apply (edge_ip _ _ (dmix_ne D) _ _ _ _ He)|by apply mark_lab..].
      intros ->. apply (simple_irr _ (dmix_simple D Ha) y). apply madj_medge. eauto.
    - intros (_ & _ & Hne & Hi & -> & ->). apply Hip in Hi as [?|Hi]; [done|]. apply madj_medge in Hi as (k & m & He).
      destruct (edge_mark (dmix D) Ha (dmix_ne D) x y k m (dmix_sp D) He) as [Hk Hk']. apply mark_lab in Hk, Hk'. by rewrite <-Hk, <-Hk'. }
  split_and!.
  - rewrite (marg_nodes _ _ _ _ Hm). clear -HL. set_solver.
  - apply set_eq. intros [x y]. symmetry. apply (Hedge x y true false).
  - apply elem_of_equiv_empty_L. intros [x y] Hx. assert (spouse (gmix h) x y) as Hs by by left. apply (Hedge x y false false) in Hs. by apply dmix_sp in Hs.
  - apply (marg_un _ _ _ _ Hm).
Qed.

(** ** Relabelling *)

(** [h'] is [h] with each node [x] renamed to [f x]. *)
Record same_upto (f : node → node) (h h' : ag) : Prop := SameUpto {
  su_wf : ag_wf h';
  su_inj : ∀ x y, x ∈ g_nodes h → y ∈ g_nodes h → f x = f y → x = y;
  su_nodes : ∀ a, a ∈ g_nodes h' ↔ ∃ x, x ∈ g_nodes h ∧ f x = a;
  su_dir : ∀ x y, x ∈ g_nodes h → y ∈ g_nodes h → (f x, f y) ∈ g_dir h' ↔ (x, y) ∈ g_dir h;
  su_bi : ∀ x y, x ∈ g_nodes h → y ∈ g_nodes h → spouse (gmix h') (f x) (f y) ↔ spouse (gmix h) x y;
  su_un : ∀ a b, ¬ neighbor (gmix h') a b
}.
Lemma renamed_upto m f h h' : gok h → minj m (g_nodes h) → (∀ x, x ∈ g_nodes h → m !! x = Some (f x)) → renamed m h h' → same_upto f h h'.
Proof.
  intros Hh [Hm Hinj] Hf Hr. pose proof (rn_ok _ _ _ Hr) as Hh'.
  assert (∀ x y, x ∈ g_nodes h → y ∈ g_nodes h → f x = f y → x = y) as Hfi.
  { intros x y Hx Hy Hxy. apply (Hinj x y (f x)); [done..|by apply Hf|]. rewrite Hxy. by apply Hf. }
  assert (∀ x y, madj (gmix h) x y → x ∈ g_nodes h ∧ y ∈ g_nodes h) as Hn by apply (madj_nodes h Hh).
  split.
  - by apply gok_ag_wf.
  - done.
  - intros a. rewrite (rn_nodes _ _ _ Hr). split; intros (x & Hx & Ha); exists x; (split; [done|]); rewrite Hf in * by done; congruence.
  - intros x y Hx Hy. rewrite (rn_dir _ _ _ Hr). split.
    + intros (x' & y' & He & E1 & E2). destruct (Hn x' y') as [Hx' Hy']; [by left|]. rewrite Hf in E1, E2 by done. injection E1 as E1. injection E2 as E2.
      apply Hfi in E1, E2; [|done..]. by subst.
    + intros He. exists x, y. split; [done|]. by rewrite !Hf.
  - intros x y Hx Hy. rewrite (rn_bi _ _ _ Hr). split.
    + intros (x' & y' & He & E1 & E2). destruct (Hn x' y') as [Hx' Hy']; [unfold madj; tauto|]. rewrite Hf in E1, E2 by done. injection E1 as E1. injection E2 as E2.
      apply Hfi in E1, E2; [|done..]. by subst.
    + intros He. exists x, y. split; [done|]. by rewrite !Hf.
  - intros a b. rewrite neighbor_upair, (rn_un _ _ _ Hr) by done. apply not_elem_of_empty.
Qed.
Lemma dict_spec d o p flip L m : wf d → acyclic (d_arcs d) → minj m (d_nodes d ∖ L) →
  ∃ h h', marginal_mag d o p L = Ok h ∧ marg (d_nodes d) (d_arcs d) L h ∧ marginal_mag_dict d o p flip L m = Ok h' ∧ renamed m h h'.
Proof.
  intros Hwf Ha Hm. destruct (marginal_mag_spec d o p L Hwf Ha) as (h & E & Hg). exists h.
  unfold marginal_mag_dict. rewrite E. cbn [res_bind].
  destruct (relabelled_spec o m h (d_nodes d ∖ L) (oa o [123] (g_dir h)) (unpack flip <$> oa o [124] (g_bi h))) as (h' & E' & Hr).
  - apply Hg.
  - apply Hg.
  - apply Hg.
  - done.
  - intros e. by rewrite elem_of_oa.
  - intros x y. rewrite !elem_of_list_fmap. unfold spouse, gmix, mx_bi. split.
    + intros [([a b] & He & Hin)|([a b] & He & Hin)]; rewrite elem_of_oa in Hin; unfold unpack in He; destruct (flip (a, b)); injection He as -> ->; auto.
    + intros [Hin|Hin].
      * destruct (flip (x, y)) eqn:Ef; [right|left]; exists (x, y); rewrite elem_of_oa; unfold unpack; by rewrite Ef.
      * destruct (flip (y, x)) eqn:Ef; [left|right]; exists (y, x); rewrite elem_of_oa; unfold unpack; by rewrite Ef.
  - exists h'. done.
Qed.
(** A dictionary that is defined on the observed nodes and merges none of them. *)
Theorem C40_relabel_dict d o p flip L (m : gmap node node) (f : node → node) :
  views_agree d → acyclic (d_arcs d) →
  (∀ x, x ∈ d_nodes d ∖ L → m !! x = Some (f x)) → (∀ x y, x ∈ d_nodes d ∖ L → y ∈ d_nodes d ∖ L → f x = f y → x = y) →
  ∃ h h', marginal_mag d o p L = Ok h ∧ marginal_mag_dict d o p flip L m = Ok h' ∧ marginal d L h ∧ same_upto f h h'.
Proof.
  rewrite <-wf_views_agree. intros Hwf Ha Hm Hinj.
  assert (minj m (d_nodes d ∖ L)) as Hmi.
  { split; [intros x Hx; rewrite Hm by done; by eexists|]. intros x y a Hx Hy. rewrite !Hm by done. intros [= <-] [= E]. by apply Hinj. }
  destruct (dict_spec d o p flip L m Hwf Ha Hmi) as (h & h' & E & Hg & E' & Hr). exists h, h'. split; [done|]. split; [done|].
  split; [by apply marg_marginal|]. apply (renamed_upto m); [apply Hg|by rewrite (marg_nodes _ _ _ _ Hg)..|done].
Qed.
Lemma before_after (l : list node) (R : relation node) i j x y :
  (∀ l1 l2 a b, l = l1 ++ l2 → a ∈ l1 → b ∈ l2 → R a b) → l !! i = Some x → l !! j = Some y → i < j → R x y.
Proof.
  intros HR Hi Hj Hij. apply (HR (take j l) (drop j l)).
  - by rewrite take_drop.
  - apply elem_of_list_lookup. exists i. by rewrite lookup_take.
  - apply elem_of_list_lookup. exists 0. rewrite lookup_drop, Nat.add_0_r. done.
Qed.
Lemma sorted_order (X : nset) i j x y : sorted_nodes X !! i = Some x → sorted_nodes X !! j = Some y → x < y → i < j.
Proof.
  intros Hi Hj Hxy. destruct (decide (i < j)) as [?|Hn]; [done|]. exfalso. destruct (decide (i = j)) as [->|Hne]; [assert (x = y) by congruence; lia|].
  assert (y ≤ x); [|lia]. apply (before_after (sorted_nodes X) le j i); [|done|done|lia].
  intros l1 l2 a b Hl Ha Hb. assert (StronglySorted le (sorted_nodes X)) as Hs.
  { unfold sorted_nodes. apply (Sorted_StronglySorted); [intros ? ? ?; apply Nat.le_trans|]. apply Sorted_merge_sort. intros ? ?; lia. }
  rewrite Hl in Hs. by eapply elem_of_StronglySorted_app.
Qed.
Lemma index_fun (l : list node) (X : nset) : listing X l →
  ∃ f, (∀ x, x ∈ X → index_map l !! x = Some (f x)) ∧ (∀ x, x ∈ X → l !! f x = Some x) ∧ ∀ x, x ∈ X → f x < size X.
Proof.
  intros Hl. exists (λ x, default 0 (index_map l !! x)).
  assert (∀ x, x ∈ X → ∃ i, index_map l !! x = Some i ∧ l !! i = Some x) as Hi.
  { intros x Hx. apply (proj2 Hl), elem_of_list_lookup in Hx as [i Hi]. exists i. split; [|done]. by apply index_map_spec; [apply Hl|]. }
  split_and!; intros x Hx; destruct (Hi x Hx) as (i & -> & Hli); [done|done|]. cbn. rewrite <-(listing_length X l Hl). by eapply lookup_lt_Some.
Qed.

(** [relabel='default']: the labels are 0, ..., n-1 in the order of the nodes. *)
Theorem C40_relabel_default d o p flip L :
  views_agree d → acyclic (d_arcs d) →
  ∃ h h' f, marginal_mag d o p L = Ok h ∧ marginal_mag_default d o p flip L = Ok h' ∧ marginal d L h ∧ same_upto f h h' ∧
    (∀ x, x ∈ g_nodes h → f x < size (g_nodes h)) ∧
    ∀ x y, x ∈ g_nodes h → y ∈ g_nodes h → x < y → f x < f y.
Proof.
  intros Hd Ha. set (X := d_nodes d ∖ L). destruct (index_fun (sorted_nodes X) X (sorted_listing X)) as (f & F1 & F2 & F3).
  destruct (C40_relabel_dict d o p flip L (index_map (sorted_nodes X)) f Hd Ha) as (h & h' & E & E' & Hm & Hs); [done| |].
  { intros x y Hx Hy Hxy. apply F2 in Hx, Hy. congruence. }
  exists h, h', f. rewrite (mg_nodes _ _ _ Hm). fold X. split_and!; [done..|].
  intros x y Hx Hy. apply (sorted_order X); by apply F2.
Qed.
(** [new=False] with relabelling: the labels 0, ..., n-1 follow the ancestors. *)
Theorem C40_relabel_old d o p L :
  views_agree d → acyclic (d_arcs d) →
  ∃ h h' f, marginal_mag_old d o p L = Ok h ∧ marginal_mag_old_default d o p L = Ok h' ∧ marginal d L h ∧ same_upto f h h' ∧
    (∀ x, x ∈ g_nodes h → f x < size (g_nodes h)) ∧
    ∀ x y, x ∈ g_nodes h → y ∈ g_nodes h → ancestor (d_arcs d) x y → f x < f y.
Proof.
  intros Hd Ha. pose proof Hd as Hwf. rewrite <-wf_views_agree in Hwf. set (X := d_nodes d ∖ L).
  destruct (marginal_mag_old_spec d L Hwf Ha o p) as (h & E & Hg). pose proof (marg_marginal d L h Hwf Ha Hg) as Hm.
  destruct (C05_topological_sort d o Hd) as [Ht _]. destruct (Ht Ha) as (t & Et & (Hnd & Hin & Hord)).
  assert (listing X (filter (λ n, n ∉ L) t)) as Hl.
  { split; [by apply NoDup_filter|]. intros x. unfold X. rewrite elem_of_list_filter, elem_of_difference, Hin. tauto. }
  destruct (index_fun _ X Hl) as (f & F1 & F2 & F3).
  assert (minj (index_map (filter (λ n, n ∉ L) t)) X) as Hmi by (apply index_map_inj; apply Hl).
  destruct (marg_sets_spec d L Hwf Ha o p) as (dir & bi & Es & HD & HB).
  pose proof (marg_edge _ _ _ _ Hg) as He. pose proof (marg_nodes _ _ _ _ Hg) as HN.
  assert (∀ x y, lab (dmix (d_arcs d)) x y = true → lab (dmix (d_arcs d)) y x = true → False) as Hcy.
  { intros x y H1%(lab_mark (dmix (d_arcs d))) H2%(lab_mark (dmix (d_arcs d))). apply (Ha x). by etrans. }
  destruct (relabelled_spec o (index_map (filter (λ n, n ∉ L) t)) h X (oa o [123] dir) (oa o [124] bi)) as (h' & E' & Hr).
  - apply Hg.
  - apply Hg.
  - done.
  - done.
  - intros [x y]. rewrite elem_of_oa, HD. pose proof (He x y true false) as He1. cbn [medge gmix mx_dir] in He1. rewrite He1, !elem_of_difference. split.
    + intros (? & ? & ? & ? & Hlb). split_and!; [tauto..|done|]. symmetry. apply not_true_iff_false. intros Hlb'. by eapply Hcy.
    + intros (? & ? & ? & Hip & Hlb & _). destruct (ip_nodes _ _ _ _ _ (wf_over _ Hwf) Hip). done.
  - intros x y. rewrite !elem_of_oa, HB. pose proof (He x y false false) as He1. cbn [medge] in He1. rewrite He1, !elem_of_difference. split.
    + intros (? & ? & ? & ? & Hlb & Hlb'). split_and!; [tauto..|done|done].
    + intros (? & ? & ? & Hip & Hlb & Hlb'). destruct (ip_nodes _ _ _ _ _ (wf_over _ Hwf) Hip). done.
  - exists h, h', f. split; [done|]. split.
    { unfold marginal_mag_old_default. rewrite Es. cbn [res_bind fst snd]. rewrite Et. cbn [res_bind]. exact E'. }
    split; [done|]. rewrite HN. fold X. split.
    { apply (renamed_upto (index_map (filter (λ n, n ∉ L) t))); [apply Hg|by rewrite HN..|done]. }
    split; [done|]. intros x y Hx Hy Hxy.
    assert (∀ i j, t !! i = Some x → t !! j = Some y → i < j) as Hpos.
    { assert (∀ y, tc (edge (d_arcs d)) x y → ∀ i j, t !! i = Some x → t !! j = Some y → i < j) as Hgo; [|by apply Hgo].
      clear y Hy Hxy. intros y Hxy. apply tc_flip in Hxy. revert Hx. induction Hxy as [y x Hxy|y z x Hxy _ IH]; intros Hx i j Hi Hj; [by eapply Hord|].
      assert (z ∈ t) as Hz by (apply Hin; by apply (wf_over _ Hwf) in Hxy as [? _]). apply elem_of_list_lookup in Hz as [k Hk].
      specialize (IH Hx i k Hi Hk). specialize (Hord k j z y Hxy Hk Hj). lia. }
    destruct (decide (f x < f y)) as [?|Hn]; [done|]. exfalso. pose proof (F2 x Hx) as Fx. pose proof (F2 y Hy) as Fy.
    destruct (decide (f x = f y)) as [Heq|Hne]; [rewrite Heq in Fx; assert (x = y) as -> by congruence; by apply (Ha y)|].
    assert (x ∈ t ∧ y ∈ t) as [Hxt Hyt] by (rewrite !Hin; unfold X in Hx, Hy; clear -Hx Hy; set_solver).
    apply elem_of_list_lookup in Hxt as [i Hi], Hyt as [j Hj]. pose proof (Hpos i j Hi Hj) as Hij.
    (* [x] comes before [y] in [t], hence in the filtered list *)
    assert (filter (λ n, n ∉ L) t = filter (λ n, n ∉ L) (take j t) ++ filter (λ n, n ∉ L) (drop j t)) as Esplit.
    { by rewrite <-filter_app, take_drop. }
    set (l1 := filter (λ n, n ∉ L) (take j t)) in *. set (l2 := filter (λ n, n ∉ L) (drop j t)) in *.
    assert (x ∈ l1) as [i1 Hi1]%elem_of_list_lookup.
    { apply elem_of_list_filter. split; [unfold X in Hx; clear -Hx; set_solver|]. apply elem_of_list_lookup. exists i. by rewrite lookup_take. }
    assert (y ∈ l2) as [j1 Hj1]%elem_of_list_lookup.
    { apply elem_of_list_filter. split; [unfold X in Hy; clear -Hy; set_solver|]. apply elem_of_list_lookup. exists 0. by rewrite lookup_drop, Nat.add_0_r. }
    pose proof (lookup_lt_Some _ _ _ Hi1) as Hlt.
    assert (f x = i1) as Ex.
    { eapply (NoDup_lookup (filter (λ n, n ∉ L) t)); [apply Hl|exact Fx|]. rewrite Esplit. by apply lookup_app_l_Some. }
    assert (f y = length l1 + j1) as Ey.
    { eapply (NoDup_lookup (filter (λ n, n ∉ L) t)); [apply Hl|exact Fy|]. rewrite Esplit, lookup_app_r by lia. by rewrite Nat.add_comm, Nat.add_sub. }
    lia.
Qed.

(** 0 -> 1, 0 -> 2, 1 -> 6, 6 -> 3, 6 -> 4, and 5 isolated; 0 and 6 will be latent. *)
Definition mg_dag : dag := dag_of {[5]} {[(0, 1); (0, 2); (1, 6); (6, 3); (6, 4)]}.
Lemma mg_hyp : views_agree mg_dag ∧ acyclic (d_arcs mg_dag).
Proof. split; [apply wf_views_agree, dag_of_wf|by_vm]. Qed.
Definition has_edges (r : res ag) (N : nset) (dir bi : arcset) : bool :=
  match r with Ok h => bool_decide (g_nodes h = N ∧ g_dir h = dir ∧ g_bi h = bi ∧ g_un h = ∅) | Raise _ => false end.
Example C40_example :
  views_agree mg_dag ∧ acyclic (d_arcs mg_dag) ∧
  has_edges (marginal_mag mg_dag oracle0 popper0 {[0; 6; 9]}) {[1; 2; 3; 4; 5]} {[(1, 3); (1, 4)]} {[(1, 2); (3, 4)]} = true ∧
  has_edges (marginal_mag_old mg_dag oracle_rev popper_last {[0; 6; 9]}) {[1; 2; 3; 4; 5]} {[(1, 3); (1, 4)]} {[(1, 2); (3, 4)]} = true ∧
  has_edges (marginal_mag_default mg_dag oracle_rev popper0 (λ _, true) {[0; 6]}) {[0; 1; 2; 3; 4]} {[(0, 2); (0, 3)]} {[(0, 1); (2, 3)]} = true ∧
  has_edges (marginal_mag mg_dag oracle_rev popper0 {[9]}) (d_nodes mg_dag) (d_arcs mg_dag) ∅ = true.
Proof. split; [apply mg_hyp|]. split; [apply mg_hyp|]. split_and!; by vm_compute. Qed.

(** A dictionary that merges two observed nodes can make the constructor fail. *)
Theorem C40_relabel_dict_refuted :
  ∃ d L m, views_agree d ∧ acyclic (d_arcs d) ∧ (∀ x, x ∈ d_nodes d ∖ L → is_Some (m !! x)) ∧
    marginal_mag_dict d oracle0 popper0 (λ _, false) L m = Raise AdjacentError.
Proof.
  exists mg_dag, {[0; 6]}, {[1 := 1; 2 := 3; 3 := 3; 4 := 4; 5 := 5]}. split; [apply mg_hyp|]. split; [apply mg_hyp|]. split; [|by vm_compute].
  assert (set_Forall (λ x, is_Some (({[1 := 1; 2 := 3; 3 := 3; 4 := 4; 5 := 5]} : gmap node node) !! x)) (d_nodes mg_dag ∖ {[0; 6]})) as H by by_vm.
  exact H.
Qed.
Print Assumptions C40_marginal_mag.
Print Assumptions C40_marginal_mag_old.
Print Assumptions C40_variants_agree.
Print Assumptions C40_same_answers.
Print Assumptions C40_no_latent.
Print Assumptions C40_relabel_dict.
Print Assumptions C40_relabel_default.
Print Assumptions C40_relabel_old.
Print Assumptions C40_relabel_dict_refuted.
