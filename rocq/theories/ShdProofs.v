(** Structural Hamming distances. *)
From Verif Require Import Py Spec SpecDsep SpecMec SpecCompare DagModel UGraphModel PdagModel CompareModel TopoProofs StateProofs ReachProofs
  OrderProofs QueryProofs MarkovProofs UGraphProofs PdagProofs ProtProofs EquivProofs.

Lemma elem_of_rev_arcs (E : arcset) x y : (x, y) ∈ rev_arcs E ↔ (y, x) ∈ E.
Proof.
  unfold rev_arcs. rewrite elem_of_map. split.
  - intros ([a b] & Heq & H). cbn in Heq. injection Heq as -> ->. done.
  - intros H. by exists (y, x).
Qed.
Lemma elem_of_as_edges (E : arcset) e : e ∈ as_edges E ↔ ∃ a : arc, a ∈ E ∧ e = upair a.1 a.2.
Proof. unfold as_edges. rewrite elem_of_map. split; intros (a & H1 & H2); exists a; done. Qed.
Lemma upair_as_edges (E : arcset) x y : upair x y ∈ as_edges E ↔ adjacent E x y.
Proof.
  rewrite elem_of_as_edges. unfold adjacent. split.
  - intros ([a b] & H & Heq). cbn in Heq. apply upair_inj in Heq as [[-> ->]|[-> ->]]; tauto.
  - intros [H|H]; [by exists (x, y)|exists (y, x)]. split; [done|]. cbn. apply upair_comm.
Qed.
Lemma as_edges_union (E F : arcset) : as_edges (E ∪ F) = as_edges E ∪ as_edges F.
Proof. unfold as_edges. apply set_map_union_L. Qed.
Lemma as_edges_singleton (a : arc) : as_edges {[a]} = {[upair a.1 a.2]}.
Proof.
  apply set_eq. intros e. rewrite elem_of_as_edges, elem_of_singleton. split.
  - intros (b & ->%elem_of_singleton & ->). done.
  - intros ->. exists a. by rewrite elem_of_singleton.
Qed.
Lemma as_edges_mono (E F : arcset) : E ⊆ F → as_edges E ⊆ as_edges F.
Proof. intros H e. rewrite !elem_of_as_edges. intros (a & Ha & ->). exists a. auto. Qed.

Lemma elem_of_sym_diff (X Y : arcset) e : e ∈ sym_diff X Y ↔ (e ∈ X ∧ e ∉ Y) ∨ (e ∈ Y ∧ e ∉ X).
Proof. unfold sym_diff. rewrite elem_of_union, !elem_of_difference. done. Qed.
Lemma sym_diff_comm (X Y : arcset) : sym_diff X Y = sym_diff Y X.
Proof. apply set_eq. intros e. rewrite !elem_of_sym_diff. tauto. Qed.
Lemma sym_diff_empty (X Y : arcset) : sym_diff X Y = ∅ → X = Y.
Proof.
  intros H. apply set_eq. intros e. assert (e ∉ sym_diff X Y) as He by (rewrite H; apply not_elem_of_empty).
  rewrite elem_of_sym_diff in He. destruct (decide (e ∈ X)), (decide (e ∈ Y)); tauto.
Qed.
Lemma size_le_add1 (X Y : arcset) e : X ⊆ {[e]} ∪ Y → size X ≤ 1 + size Y.
Proof.
  intros H. etrans; [by apply subseteq_size|]. assert (size ({[e]} ∪ Y) ≤ size ({[e]} : arcset) + size Y) as Hs.
  { rewrite size_union_alt. apply Nat.add_le_mono_l. apply subseteq_size. clear. set_solver. }
  by rewrite size_singleton in Hs.
Qed.

Lemma size_union_arcs (X Y : arcset) : X ## Y → size (X ∪ Y) = size X + size Y.
Proof. apply size_union. Qed.

Lemma size_remove_arc (X : arcset) a : a ∈ X → size X = S (size (X ∖ {[a]})).
Proof.
  intros Ha. rewrite (union_difference_singleton_L a X) at 1 by done. rewrite size_union_arcs by (clear; set_solver). by rewrite size_singleton.
Qed.

(** Size is kept by maps that are injective on the set. *)
Lemma size_inj (f : arc → arc) (X Y : arcset) :
  (∀ a b, a ∈ X → b ∈ X → f a = f b → a = b) → (∀ e, e ∈ Y ↔ ∃ a, a ∈ X ∧ e = f a) → size X = size Y.
Proof.
  intros Hinj HY. assert (Y = list_to_set (f <$> elements X)) as ->.
  { apply set_eq. intros e. rewrite HY, elem_of_list_to_set, elem_of_list_fmap. split; intros (a & H1 & H2); exists a;
      [rewrite elem_of_elements|rewrite elem_of_elements in H2]; done. }
  rewrite size_list_to_set; [by rewrite fmap_length|].
  apply NoDup_fmap_2_strong; [|apply NoDup_elements]. intros a b. rewrite !elem_of_elements. apply Hinj.
Qed.
Lemma size_rev_arcs (E : arcset) : size (rev_arcs E) = size E.
Proof.
  symmetry. apply (size_inj (λ a, (a.2, a.1))).
  - intros [] []. cbn. congruence.
  - intros [x y]. rewrite elem_of_rev_arcs. split; [by exists (y, x)|]. intros ([a b] & H & Heq). cbn in Heq. congruence.
Qed.

(** Weighted distance: [w] for every pair adjacent in one graph only, 1 for every
    arc that is reversed. *)
Definition wdist (w : nat) (E F : arcset) : nat :=
  w * size (sym_diff (as_edges E) (as_edges F)) + size (E ∩ rev_arcs F).

Lemma wdist_sym w E F : wdist w E F = wdist w F E.
Proof.
  unfold wdist. rewrite sym_diff_comm. f_equal. rewrite <-(size_rev_arcs (E ∩ rev_arcs F)). f_equal. apply set_eq.
  intros [x y]. rewrite elem_of_rev_arcs, !elem_of_intersection, !elem_of_rev_arcs. tauto.
Qed.

Lemma as_edges_oriented_size (E F : arcset) : oriented E →
  size (E ∖ F ∖ rev_arcs F) = size (as_edges E ∖ as_edges F).
Proof.
  intros HE. apply (size_inj (λ a, upair a.1 a.2)).
  - intros [x y] [u v] H1 H2 Heq. cbn in Heq. apply upair_inj in Heq as [[-> ->]|[-> ->]]; [done|]. exfalso.
    apply elem_of_difference in H1 as [[H1 _]%elem_of_difference _]. apply elem_of_difference in H2 as [[H2 _]%elem_of_difference _].
    by apply HE in H1.
  - intros e. rewrite elem_of_difference. split.
    + intros [H1 H2]. apply elem_of_as_edges in H1 as ([x y] & H1 & ->). exists (x, y). split; [|done]. cbn in H2.
      rewrite upair_as_edges in H2. unfold adjacent in H2. rewrite !elem_of_difference, elem_of_rev_arcs. tauto.
    + intros ([x y] & H & ->). rewrite !elem_of_difference, elem_of_rev_arcs in H. cbn. rewrite !upair_as_edges.
      unfold adjacent. tauto.
Qed.

Lemma shd_wdist d1 d2 : oriented (d_arcs d1) → oriented (d_arcs d2) → shd d1 d2 = wdist 1 (d_arcs d1) (d_arcs d2).
Proof.
  intros H1 H2. unfold shd, wdist, sym_diff. rewrite !as_edges_oriented_size by done.
  rewrite (size_union_arcs (as_edges (d_arcs d1) ∖ _)) by (clear; set_solver). lia.
Qed.
Lemma chickering_wdist d1 d2 : chickering_distance d1 d2 = wdist 2 (d_arcs d1) (d_arcs d2).
Proof. unfold chickering_distance, wdist, shd_skeleton, skeleton. lia. Qed.

(** One edit lowers the distance by at most its cost. *)
Lemma wdist_edit w c E F G : 1 ≤ w → edit w c E F → wdist w E G ≤ c + wdist w F G.
Proof.
  intros Hw He. unfold wdist. destruct He as [E a Ha|E a Ha|E x y Hxy].
  - assert (size (sym_diff (as_edges E) (as_edges G)) ≤ 1 + size (sym_diff (as_edges ({[a]} ∪ E)) (as_edges G))) as H1.
    { apply (size_le_add1 _ _ (upair a.1 a.2)). intros e. rewrite as_edges_union, as_edges_singleton.
      rewrite elem_of_union, !elem_of_sym_diff, elem_of_union, elem_of_singleton.
      destruct (decide (e = upair a.1 a.2)); tauto. }
    assert (size (E ∩ rev_arcs G) ≤ size (({[a]} ∪ E) ∩ rev_arcs G)) as H2 by (apply subseteq_size; clear; set_solver).
    nia.
  - assert (as_edges E = {[upair a.1 a.2]} ∪ as_edges (E ∖ {[a]})) as HE.
    { rewrite <-as_edges_singleton, <-as_edges_union. f_equal. by apply union_difference_singleton_L. }
    destruct (decide (a ∈ rev_arcs G)) as [Hr|Hr].
    + assert (size (sym_diff (as_edges E) (as_edges G)) ≤ size (sym_diff (as_edges (E ∖ {[a]})) (as_edges G))) as H1.
      { apply subseteq_size. intros e. rewrite HE, !elem_of_sym_diff, elem_of_union, elem_of_singleton.
        assert (upair a.1 a.2 ∈ as_edges G) as Hg.
        { apply upair_as_edges. destruct a as [u v]. right. by apply elem_of_rev_arcs. }
        destruct (decide (e = upair a.1 a.2)) as [->|]; tauto. }
      assert (size (E ∩ rev_arcs G) ≤ 1 + size ((E ∖ {[a]}) ∩ rev_arcs G)) as H2.
      { apply (size_le_add1 _ _ a). intros e. rewrite elem_of_union, !elem_of_intersection, elem_of_difference, elem_of_singleton.
        destruct (decide (e = a)); tauto. }
      nia.
    + assert (size (sym_diff (as_edges E) (as_edges G)) ≤ 1 + size (sym_diff (as_edges (E ∖ {[a]})) (as_edges G))) as H1.
      { apply (size_le_add1 _ _ (upair a.1 a.2)). intros e. rewrite HE.
        rewrite elem_of_union, !elem_of_sym_diff, elem_of_union, elem_of_singleton.
        destruct (decide (e = upair a.1 a.2)); tauto. }
      assert (size (E ∩ rev_arcs G) ≤ size ((E ∖ {[a]}) ∩ rev_arcs G)) as H2.
      { apply subseteq_size. intros e. rewrite !elem_of_intersection, elem_of_difference, elem_of_singleton. intros [? ?].
        split; [split; [done|by intros ->]|done]. }
      nia.
  - assert (as_edges ({[(y, x)]} ∪ E ∖ {[(x, y)]}) = as_edges E) as ->.
    { apply set_eq. intros e. rewrite !elem_of_as_edges. split.
      - intros (a & Ha & ->). apply elem_of_union in Ha as [->%elem_of_singleton|[Ha _]%elem_of_difference]; [|by exists a].
        exists (x, y). split; [done|]. cbn. apply upair_comm.
      - intros (a & Ha & ->). destruct (decide (a = (x, y))) as [->|Hne].
        + exists (y, x). split; [clear; set_solver|]. cbn. apply upair_comm.
        + exists a. split; [|done]. apply elem_of_union. right. apply elem_of_difference. by rewrite elem_of_singleton. }
    assert (size (E ∩ rev_arcs G) ≤ 1 + size (({[(y, x)]} ∪ E ∖ {[(x, y)]}) ∩ rev_arcs G)) as H2; [|lia].
    apply (size_le_add1 _ _ (x, y)). intros e.
    rewrite elem_of_union, !elem_of_intersection, elem_of_union, elem_of_difference, !elem_of_singleton.
    destruct (decide (e = (x, y))); tauto.
Qed.

Lemma wdist_self w E : oriented E → wdist w E E = 0.
Proof.
  intros HE. unfold wdist. assert (sym_diff (as_edges E) (as_edges E) = ∅) as ->.
  { apply set_eq. intros e. rewrite elem_of_sym_diff. set_solver. }
  assert (E ∩ rev_arcs E = ∅) as ->; [|by rewrite size_empty; lia].
  apply set_eq. intros [x y]. rewrite elem_of_intersection, elem_of_rev_arcs. split; [|set_solver]. intros [H1 H2]. by apply HE in H1.
Qed.
Lemma wdist_lower w P c E G : 1 ≤ w → oriented G → edits w P c E G → wdist w E G ≤ c.
Proof.
  intros Hw HG. induction 1 as [E|c c' E F G He _ _ IH]; [by rewrite wdist_self|].
  specialize (IH HG). pose proof (wdist_edit w c E F G Hw He). lia.
Qed.

Lemma edits_app w P c c' E F G : edits w P c E F → edits w P c' F G → edits w P (c + c') E G.
Proof.
  induction 1 as [E|a b E F' F He HP _ IH]; [done|]. intros H. rewrite <-Nat.add_assoc. eapply edits_cons; [done|done|]. by apply IH.
Qed.

(** Removing an arc between nodes that are not adjacent in [G]. *)
Lemma wdist_del w E G a : oriented E → a ∈ E → upair a.1 a.2 ∉ as_edges G → wdist w E G = w + wdist w (E ∖ {[a]}) G.
Proof.
  intros HE Ha Hn. unfold wdist.
  assert (as_edges (E ∖ {[a]}) = as_edges E ∖ {[upair a.1 a.2]}) as ->.
  { apply set_eq. intros e. rewrite elem_of_difference, elem_of_singleton, !elem_of_as_edges. split.
    - intros (b & [Hb Hne]%elem_of_difference & ->). rewrite elem_of_singleton in Hne. split; [by exists b|]. intros Heq.
      destruct a as [x y], b as [u v]. cbn in Heq. apply upair_inj in Heq as [[-> ->]|[-> ->]]; [done|]. by apply HE in Ha.
    - intros [(b & Hb & ->) Hne]. exists b. split; [|done]. apply elem_of_difference. split; [done|]. rewrite elem_of_singleton. by intros ->. }
  assert (upair a.1 a.2 ∈ as_edges E) as HaE by (apply elem_of_as_edges; by exists a).
  assert (sym_diff (as_edges E) (as_edges G) = {[upair a.1 a.2]} ∪ sym_diff (as_edges E ∖ {[upair a.1 a.2]}) (as_edges G)) as ->.
  { apply set_eq. intros e. rewrite elem_of_union, !elem_of_sym_diff, elem_of_difference, elem_of_singleton.
    destruct (decide (e = upair a.1 a.2)) as [->|]; tauto. }
  rewrite size_union_arcs, size_singleton.
  2:{ intros e He%elem_of_singleton. rewrite elem_of_sym_diff, elem_of_difference, elem_of_singleton. subst e. tauto. }
  assert (E ∩ rev_arcs G = (E ∖ {[a]}) ∩ rev_arcs G) as ->; [|lia].
  apply set_eq. intros e. rewrite !elem_of_intersection, elem_of_difference, elem_of_singleton. split; [|tauto].
  intros [H1 H2]. split; [|done]. split; [done|]. intros ->. apply Hn. apply upair_as_edges. right. destruct a. by apply elem_of_rev_arcs.
Qed.

(** Two acyclic orientations of the same skeleton: some arc can be turned. *)
Lemma turnable_exists E G : acyclic E → acyclic G → same_skeleton E G → E ≠ G →
  ∃ x y, (x, y) ∈ E ∧ (y, x) ∈ G ∧ acyclic (flip_arc E x y).
Proof.
  intros HE HG Hs Hne. destruct (acyclic_pos E HE) as [pos Hpos].
  assert (E ∖ G ≠ ∅) as Hd.
  { intros Hd. apply Hne. apply set_eq. intros [x y]. assert (∀ x y, (x, y) ∈ E → (x, y) ∈ G) as Hsub.
    { clear -Hd. intros x y H. destruct (decide ((x, y) ∈ G)); [done|]. set_solver. }
    split; [apply Hsub|]. intros H. assert (adjacent E x y) as [?|H'] by (apply Hs; by left); [done|].
    apply Hsub in H'. by apply (acyclic_asym G x y HG) in H. }
  destruct (pick_arc pos (E ∖ G) Hd) as (x & y & [Hxy Hn]%elem_of_difference & Hhead & Htail).
  assert ((y, x) ∈ G) as Hyx. { assert (adjacent G x y) as [?|?] by (apply Hs; by left); done. }
  exists x, y. split; [done|]. split; [done|].
  intros z Hz. unfold flip_arc in Hz. apply tc_add_arc in Hz as [Hz|[H1 H2]].
  { apply (HE z). eapply tc_mono; [|exact Hz]. clear; set_solver. }
  assert (rtc (edge (E ∖ {[(x, y)]})) x y) as H3 by (etrans; [exact H2|exact H1]). clear H1 H2.
  assert (∀ u v, rtc (edge (E ∖ {[(x, y)]})) u v → u = v ∨ pos u < pos v) as Hmon.
  { clear -Hpos. intros u v. induction 1 as [u|u v t H _ IH]; [by left|]. unfold edge in H. apply elem_of_difference in H as [H _]. apply Hpos in H.
    destruct IH as [<-|IH]; right; lia. }
  assert (∀ u v, rtc (edge (E ∖ {[(x, y)]})) x u → (u, v) ∈ E ∖ {[(x, y)]} → rtc (edge (E ∖ {[(x, y)]})) v y → (u, v) ∈ G) as Harc.
  { intros u v Hu [Huv Hnuv]%elem_of_difference Hv. destruct (decide ((u, v) ∈ G)) as [|Hng]; [done|]. exfalso.
    assert ((u, v) ∈ E ∖ G) as Hin by by apply elem_of_difference. pose proof (Hhead u v Hin) as Hle.
    destruct (Hmon _ _ Hv) as [->|?]; [|lia]. pose proof (Htail u Hin) as Hle'. destruct (Hmon _ _ Hu) as [->|?]; [|lia].
    apply Hnuv. by apply elem_of_singleton. }
  assert (∀ u t, rtc (edge (E ∖ {[(x, y)]})) u t → t = y → rtc (edge (E ∖ {[(x, y)]})) x u → rtc (edge G) u t) as Hpath.
  { clear -Harc. intros u t Hu. induction Hu as [u|u v t H Ht IH]; intros Heq; [intros _; apply rtc_refl|]. intros Hxu. subst t.
    eapply rtc_l; [by apply (Harc u v)|]. apply IH; [done|]. by eapply rtc_r. }
  apply (HG y). eapply tc_rtc_r; [apply tc_once; exact Hyx|]. apply (Hpath x y); [done|done|apply rtc_refl].
Qed.

(** Turning an arc that is reversed in [G]. *)
Lemma wdist_turn w E G x y : acyclic E → acyclic G → (x, y) ∈ E → (y, x) ∈ G → wdist w E G = 1 + wdist w (flip_arc E x y) G.
Proof.
  intros HE HG Hxy Hyx. unfold wdist, flip_arc.
  assert (x ≠ y) as Hne. { intros ->. by apply (acyclic_irr E y HE). }
  assert (as_edges ({[(y, x)]} ∪ E ∖ {[(x, y)]}) = as_edges E) as ->.
  { apply set_eq. intros e. rewrite !elem_of_as_edges. split.
    - intros (a & Ha & ->). apply elem_of_union in Ha as [->%elem_of_singleton|[Ha _]%elem_of_difference]; [|by exists a].
      exists (x, y). split; [done|]. cbn. apply upair_comm.
    - intros (a & Ha & ->). destruct (decide (a = (x, y))) as [->|Hn].
      + exists (y, x). split; [clear; set_solver|]. cbn. apply upair_comm.
      + exists a. split; [|done]. apply elem_of_union. right. apply elem_of_difference. by rewrite elem_of_singleton. }
  assert (E ∩ rev_arcs G = {[(x, y)]} ∪ (({[(y, x)]} ∪ E ∖ {[(x, y)]}) ∩ rev_arcs G)) as ->.
  { apply set_eq. intros [u v]. rewrite elem_of_union, !elem_of_intersection, elem_of_union, elem_of_difference, !elem_of_singleton, elem_of_rev_arcs.
    split.
    - intros [H1 H2]. destruct (decide ((u, v) = (x, y))); tauto.
    - intros [[= -> ->]|[[[= -> ->]|[H1 _]] H2]]; [done| |done]. by apply (acyclic_asym G y x HG) in Hyx. }
  rewrite size_union_arcs, size_singleton; [lia|].
  intros e ->%elem_of_singleton. rewrite elem_of_intersection, elem_of_union, elem_of_difference, !elem_of_singleton.
  intros [[[= -> _]|[_ ?]] _]; done.
Qed.

Lemma edit_flip w E x y : (x, y) ∈ E → edit w 1 E (flip_arc E x y).
Proof. apply edit_rev. Qed.

(** The distance is attained, passing through acyclic graphs only. *)
Lemma wdist_attained w E G : acyclic E → acyclic G → edits w acyclic (wdist w E G) E G.
Proof.
  intros HE HG. remember (size E + size G + size (E ∩ rev_arcs G)) as n eqn:Hn. revert E G HE HG Hn.
  induction (lt_wf n) as [n _ IH]. intros E G HE HG ->.
  destruct (decide (as_edges E ⊆ as_edges G)) as [H1|H1].
  - destruct (decide (as_edges G ⊆ as_edges E)) as [H2|H2].
    + assert (as_edges E = as_edges G) as Heq by (apply set_eq; intros e; split; [apply H1|apply H2]).
      destruct (decide (E = G)) as [->|Hne]; [rewrite wdist_self by (by apply acyclic_oriented); constructor|].
      destruct (turnable_exists E G HE HG) as (x & y & Hxy & Hyx & Hac); [|done|].
      { intros x y. by rewrite <-!upair_as_edges, Heq. }
      rewrite (wdist_turn w E G x y) by done. eapply edits_cons; [by apply edit_flip|done|].
      eapply IH; [|done|done|reflexivity].
      pose proof (wdist_turn 0 E G x y HE HG Hxy Hyx) as Ht. unfold wdist in Ht. rewrite !Nat.mul_0_l in Ht.
      assert (size (flip_arc E x y) ≤ size E) as Hsz; [|lia].
      unfold flip_arc. assert (size ({[(y, x)]} ∪ E ∖ {[(x, y)]}) ≤ 1 + size (E ∖ {[(x, y)]})) as Hle by by eapply size_le_add1.
      pose proof (size_remove_arc E _ Hxy). lia.
    + assert (∃ a, a ∈ G ∧ upair a.1 a.2 ∉ as_edges E) as (a & Ha & Hn).
      { destruct (decide (set_Exists (λ a : arc, upair a.1 a.2 ∉ as_edges E) G)) as [(a & Ha & Hn)|Hno]; [by exists a|].
        exfalso. apply H2. intros e (a & Ha & ->)%elem_of_as_edges. destruct (decide (upair a.1 a.2 ∈ as_edges E)); [done|].
        exfalso. apply Hno. by exists a. }
      rewrite wdist_sym, (wdist_del w G E a) by (done || by apply acyclic_oriented). rewrite wdist_sym, Nat.add_comm.
      eapply edits_app; [eapply IH; [|done| |reflexivity]|].
      * pose proof (size_remove_arc G _ Ha).
        assert (size (E ∩ rev_arcs (G ∖ {[a]})) ≤ size (E ∩ rev_arcs G)); [|lia].
        apply subseteq_size. intros [x y]. rewrite !elem_of_intersection, !elem_of_rev_arcs, elem_of_difference. tauto.
      * eapply acyclic_mono; [|exact HG]. clear; set_solver.
      * pose proof (edits_cons w acyclic w 0 (G ∖ {[a]}) G G) as Hc. rewrite Nat.add_0_r in Hc. apply Hc; [|exact HG|constructor].
        rewrite (union_difference_singleton_L a G) at 2 by done. apply edit_add. clear; set_solver.
  - assert (∃ a, a ∈ E ∧ upair a.1 a.2 ∉ as_edges G) as (a & Ha & Hn).
    { destruct (decide (set_Exists (λ a : arc, upair a.1 a.2 ∉ as_edges G) E)) as [(a & Ha & Hn)|Hno]; [by exists a|].
      exfalso. apply H1. intros e (a & Ha & ->)%elem_of_as_edges. destruct (decide (upair a.1 a.2 ∈ as_edges G)); [done|].
      exfalso. apply Hno. by exists a. }
    rewrite (wdist_del w E G a) by (done || by apply acyclic_oriented).
    assert (acyclic (E ∖ {[a]})) as Hac by (eapply acyclic_mono; [|exact HE]; clear; set_solver).
    eapply edits_cons; [by apply edit_del|done|]. eapply IH; [|done|done|reflexivity].
    pose proof (size_remove_arc E _ Ha).
    assert (size (E ∖ {[a]} ∩ rev_arcs G) ≤ size (E ∩ rev_arcs G)); [|lia]. apply subseteq_size. clear; set_solver.
Qed.

Lemma edits_weaken w P c E G : edits w P c E G → edits w (λ _, True) c E G.
Proof. induction 1; [constructor|]. by eapply edits_cons. Qed.
Lemma wdist_triangle w E F G : 1 ≤ w → acyclic E → acyclic F → acyclic G → wdist w E G ≤ wdist w E F + wdist w F G.
Proof.
  intros Hw HE HF HG. eapply (wdist_lower w acyclic); [done|by apply acyclic_oriented|].
  eapply edits_app; by apply wdist_attained.
Qed.
Lemma wdist_zero w E G : 1 ≤ w → acyclic E → acyclic G → wdist w E G = 0 ↔ E = G.
Proof.
  intros Hw HE HG. split; [|intros ->; apply wdist_self; by apply acyclic_oriented].
  intros H. pose proof (wdist_attained w E G HE HG) as Hd. rewrite H in Hd. inversion Hd as [|c c' ? F ? He]; [done|]. subst.
  inversion He; subst; lia.
Qed.
