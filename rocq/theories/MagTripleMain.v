(** The set that [discriminating_triples] computes, and that it decides Markov equivalence. *)
From Verif Require Import Py Spec SpecDsep SpecMixed SpecMagMec SpecMagTriple DagModel UGraphModel CompareModel AncestralModel MagModel MagMecModel MagTripleModel AncestralState AncestralProofs
  PropertiesAncestral TopoProofs StateProofs ReachProofs QueryProofs UGraphProofs PdagProofs CompareProofs MWalkProofs MsepProofs InduceProofs MagProofs MaxProofs MagMecProofs MagMecCore MagMecMain MagMecNec MagEquivProofs MagTripleProofs.

Lemma foldl_add {A} (f : A → bool) (h : A → nset) (l : list A) (acc : gset nset) T :
  T ∈ foldl (λ (acc : gset nset) z, if f z then {[ h z ]} ∪ acc else acc) acc l ↔ T ∈ acc ∨ ∃ z, z ∈ l ∧ f z = true ∧ T = h z.
Proof.
  revert acc. induction l as [|z l IH]; intros acc; cbn.
  - split; [by left|]. intros [?|(z & Hz & _)]; [done|]. by apply elem_of_nil in Hz.
  - rewrite IH. destruct (f z) eqn:E.
    + rewrite elem_of_union, elem_of_singleton. setoid_rewrite elem_of_cons. split.
      * intros [[->|H]|(x & H1 & H2 & H3)]; [right; exists z; auto|by left|right; exists x; auto].
      * intros [H|(x & [->|H1] & H2 & H3)]; [auto|auto|right; exists x; auto].
    + setoid_rewrite elem_of_cons. split.
      * intros [H|(x & H1 & H2 & H3)]; [by left|right; exists x; auto].
      * intros [H|(x & [->|H1] & H2 & H3)]; [auto|congruence|right; exists x; auto].
Qed.
Lemma loop_add {A} (f : A → gset nset → res (gset nset)) (P : A → nset → Prop) (l : list A) :
  (∀ z acc, z ∈ l → ∃ X, f z acc = Ok X ∧ ∀ T, T ∈ X ↔ T ∈ acc ∨ P z T) →
  ∀ acc, ∃ X, loopR f l acc = Ok X ∧ ∀ T, T ∈ X ↔ T ∈ acc ∨ ∃ z, z ∈ l ∧ P z T.
Proof.
  induction l as [|z l IH]; intros Hf acc; cbn.
  - exists acc. split; [done|]. intros T. split; [by left|]. intros [?|(z & Hz & _)]; [done|]. by apply elem_of_nil in Hz.
  - destruct (Hf z acc) as (X & -> & HX); [apply elem_of_list_here|]. cbn [res_bind].
    destruct (IH (λ z' acc' Hz', Hf z' acc' (elem_of_list_further _ _ _ Hz')) X) as (Y & E & HY). exists Y. split; [exact E|]. intros T. rewrite HY, HX.
    setoid_rewrite elem_of_cons. clear. naive_solver.
Qed.
Lemma union_of_spec (f : node → nset) o (X : nset) : X ≠ ∅ → ∃ Y, g_union_of (λ n, Ok (f n)) o X = Ok Y ∧ ∀ x, x ∈ Y ↔ ∃ n, n ∈ X ∧ x ∈ f n.
Proof.
  intros HX. unfold g_union_of. rewrite decide_False by done.
  assert (∀ l (acc : nset), ∃ Y, loopR (λ n acc, res_bind (Ok (f n)) (λ a, Ok (acc ∪ a))) l acc = Ok Y ∧ ∀ x, x ∈ Y ↔ x ∈ acc ∨ ∃ n, n ∈ l ∧ x ∈ f n) as Hgo.
  { induction l as [|n l IH]; intros acc; cbn.
    - exists acc. split; [done|]. intros x. split; [by left|]. intros [?|(z & Hz & _)]; [done|]. by apply elem_of_nil in Hz.
    - destruct (IH (acc ∪ f n)) as (Y & E & HY). exists Y. split; [exact E|]. intros x. rewrite HY, elem_of_union. setoid_rewrite elem_of_cons. clear. naive_solver. }
  destruct (Hgo (on o [6] X) ∅) as (Y & E & HY). exists Y. split; [exact E|]. intros x. rewrite HY. setoid_rewrite elem_of_on.
  split; [intros [?%not_elem_of_empty|?]; done|by right].
Qed.

Section graph.
  Context (g : ag) (Hg : gok g) (Han : ancestral (gmix g)) (o : oracle) (anc des : dmap).
  Notation G := (gmix g).
  Notation D := (g_dir g).
  Notation an := (rtc (edge D)).
  Context (Hanc : ∀ v, v ∈ g_nodes g → ∀ x, x ∈ dget anc v ↔ ancestor D x v)
          (Hdes : ∀ v, v ∈ g_nodes g → ∀ x, x ∈ dget des v ↔ ancestor D v x).

  Lemma anc_set v w x : v ∈ g_nodes g → w ∈ g_nodes g → x ∈ dget anc v ∪ dget anc w ∪ {[v; w]} ↔ an x v ∨ an x w.
  Proof using Hanc.
    intros Hv Hw. rewrite !elem_of_union, !elem_of_singleton, !Hanc by done. unfold ancestor. split.
    - intros [[H|H]|[-> | ->]]; [left; by apply tc_rtc|right; by apply tc_rtc|left; apply rtc_refl|right; apply rtc_refl].
    - intros [H|H]; apply rtc_tc in H as [->|H]; auto.
  Qed.
  Lemma des_set v w x : v ∈ g_nodes g → w ∈ g_nodes g → x ∈ dget des v ∪ dget des w ∪ {[v; w]} ↔ an v x ∨ an w x.
  Proof using Hdes.
    intros Hv Hw. rewrite !elem_of_union, !elem_of_singleton, !Hdes by done. unfold ancestor. split.
    - intros [[H|H]|[-> | ->]]; [left; by apply tc_rtc|right; by apply tc_rtc|left; apply rtc_refl|right; apply rtc_refl].
    - intros [H|H]; apply rtc_tc in H as [->|H]; auto.
  Qed.
  Lemma open_spec v w z : triple_open g v w z = true ↔ ¬ (madj G v z ∧ madj G w z).
  Proof using Hg.
    clear -Hg. unfold triple_open. rewrite negb_true_iff, <-!(has_any_edge_spec g) by done. destruct (has_any_edge g v z), (has_any_edge g w z); naive_solver.
  Qed.

  Lemma tail_spec v w : spouse G v w → ∃ X, g_tail_of g o v w anc = Ok X ∧
    ∀ z, z ∈ X ↔ z ≠ v ∧ z ≠ w ∧ ∃ d, rtc (λ a b, spouse G a b ∧ (an b v ∨ an b w)) v d ∧ (d = z ∨ (z, d) ∈ D).
  Proof using Hg Han Hanc.
    intros Hs. assert (v ∈ g_nodes g ∧ w ∈ g_nodes g) as [Hv Hw] by (apply (madj_nodes g Hg); right; right; by left).
    unfold g_tail_of. set (A := dget anc v ∪ dget anc w ∪ {[v; w]}).
    destruct (district_of_spec g Hg o v (Some A)) as (d & -> & Hd). cbn [res_bind]. change (default (g_nodes g) (Some A)) with A in Hd.
    assert (∀ x, x ∈ d ↔ rtc (λ a b, spouse G a b ∧ (an b v ∨ an b w)) v x) as Hd'.
    { intros x. rewrite Hd. apply rtc_iff. intros a b. cbn. unfold A. by rewrite anc_set. }
    destruct (union_of_spec (g_parents g) o d) as (P & E & HP).
    { intros ->. apply (not_elem_of_empty (C := nset) v). apply Hd'. apply rtc_refl. }
    unfold g_parents_of_set. rewrite E. cbn [res_bind]. eexists. split; [done|]. intros z. rewrite elem_of_union, HP, elem_of_difference.
    setoid_rewrite Hd'. setoid_rewrite (gok_par _ Hg). split.
    - intros [(n & Hn & Hz)|[Hz Hne]].
      + assert (an n v ∨ an n w) as Hnv by (destruct (rtc_inv_r _ _ Hn) as [<-|(u & _ & _ & H)]; [left; apply rtc_refl|done]).
        split; [|split; [|exists n; split; [done|by right]]]; intros ->.
        * destruct Hnv as [H|H]; [by apply (dir_no_an G Han v n)|]. apply (proj1 (spo_no_an G Han v w Hs)). by eapply rtc_l.
        * destruct Hnv as [H|H]; [|by apply (dir_no_an G Han w n)]. apply (proj2 (spo_no_an G Han v w Hs)). by eapply rtc_l.
      + split; [clear -Hne; set_solver|]. split; [clear -Hne; set_solver|]. exists z. split; [done|by left].
    - intros (H1 & H2 & n & Hn & [->|Hz]); [right; split; [done|]|left; by exists n]. clear -H1 H2. set_solver.
  Qed.

  Definition edge_triple (v w : node) (T : nset) : Prop :=
    ∃ z, T = {[v; w; z]} ∧ ¬ (madj G v z ∧ madj G w z) ∧ z ≠ v ∧ z ≠ w ∧ tri_head G v w z.
  Lemma triples_edge_spec v w acc : spouse G v w → ∃ X, triples_edge g o anc des v w acc = Ok X ∧ ∀ T, T ∈ X ↔ T ∈ acc ∨ edge_triple v w T.
  Proof using Hg Han Hanc Hdes.
    intros Hs. assert (v ∈ g_nodes g ∧ w ∈ g_nodes g) as [Hv Hw] by (apply (madj_nodes g Hg); right; right; by left).
    unfold triples_edge. destruct (tail_spec v w Hs) as (t & -> & Ht). cbn [res_bind].
    set (A := dget anc v ∪ dget anc w ∪ {[v; w]}). set (Y := dget des v ∪ dget des w ∪ {[v; w]}).
    assert (∀ x, x ∈ A ↔ an x v ∨ an x w) as HA by (intros x; unfold A; by rewrite anc_set).
    assert (∀ x, x ∈ Y ↔ an v x ∨ an w x) as HY by (intros x; unfold Y; by rewrite des_set).
    destruct (union_of_spec (g_spouses g) o A) as (sp & E & Hsp).
    { intros E. apply (not_elem_of_empty (C := nset) v). rewrite <-E. apply HA. left. apply rtc_refl. }
    unfold g_spouses_of_set. rewrite E. cbn [res_bind]. clear E.
    destruct (district_of_spec g Hg o v None) as (dis & -> & Hdis). cbn [res_bind default] in *. change (default (g_nodes g) None) with (g_nodes g) in Hdis.
    set (l := on o [183; v; w] (sp ∩ (dis ∖ (A ∪ Y)))).
    assert (∀ z, z ∈ l ↔ (∃ n, (an n v ∨ an n w) ∧ spouse G n z) ∧ rtc (λ a b, spouse G a b ∧ b ∈ g_nodes g) v z ∧ ¬ an z v ∧ ¬ an z w ∧ ¬ an v z ∧ ¬ an w z) as Hl.
    { intros z. unfold l. rewrite elem_of_on, elem_of_intersection, elem_of_difference, elem_of_union, Hsp, Hdis, HA, HY.
      setoid_rewrite HA. setoid_rewrite (gspo g Hg). tauto. }
    destruct (loop_add (λ z acc,
        if triple_open g v w z then
          res_bind (district_of g o v (Some (A ∪ dget anc z ∪ {[z]}))) (λ dz, Ok (if decide (z ∈ dz) then {[ {[v; w; z]} ]} ∪ acc else acc))
        else Ok acc)
      (λ z T, ¬ (madj G v z ∧ madj G w z) ∧ rtc (λ a b, spouse G a b ∧ (an b v ∨ an b w ∨ an b z)) v z ∧ T = {[v; w; z]}) l)
      with (acc := foldl (λ (acc : gset nset) z, if triple_open g v w z then {[ {[v; w; z]} ]} ∪ acc else acc) acc (on o [182; v; w] t)) as (X & E & HX).
    { intros z acc0 Hz. apply Hl in Hz as ((n & _ & Hz) & _ ). assert (z ∈ g_nodes g) as Hzn by (apply (madj_nodes g Hg n z); right; right; by left).
      destruct (triple_open g v w z) eqn:Eo.
      - apply open_spec in Eo. destruct (district_of_spec g Hg o v (Some (A ∪ dget anc z ∪ {[z]}))) as (dz & -> & Hdz). cbn [res_bind].
        change (default (g_nodes g) (Some (A ∪ dget anc z ∪ {[z]}))) with (A ∪ dget anc z ∪ {[z]}) in Hdz.
        assert (z ∈ dz ↔ rtc (λ a b, spouse G a b ∧ (an b v ∨ an b w ∨ an b z)) v z) as Hdz'.
        { rewrite Hdz. apply rtc_iff. intros a b. cbn. rewrite !elem_of_union, HA, elem_of_singleton, Hanc by done. unfold ancestor.
          assert (an b z ↔ tc (edge D) b z ∨ b = z) as ->; [|tauto]. split; [intros [?|?]%rtc_tc; auto|].
          intros [H| ->]; [by apply tc_rtc|apply rtc_refl]. }
        eexists. split; [done|]. intros T. destruct (decide (z ∈ dz)) as [H|H].
        + rewrite elem_of_union, elem_of_singleton. apply Hdz' in H. tauto.
        + rewrite Hdz' in H. tauto.
      - eexists. split; [done|]. intros T. assert (¬ ¬ (madj G v z ∧ madj G w z)) as H by (intros H%open_spec; congruence). tauto. }
    exists X. split; [exact E|]. intros T. rewrite HX, (foldl_add (triple_open g v w) (λ z, {[v; w; z]})). unfold edge_triple, tri_head.
    setoid_rewrite elem_of_on. setoid_rewrite Ht. setoid_rewrite open_spec. setoid_rewrite Hl. cbn [mx_dir gmix]. clear -Hg Han Hs. split.
    - intros [[H|(z & (H1 & H2 & H3) & H4 & H5)]|(z & (H1 & H2 & H3 & H4 & H5 & H6) & H7 & H8 & H9)]; [by left|right; exists z..].
      + split_and!; try done. by left.
      + split_and!; [done|done| | |right; done]; intros ->; [apply H3|apply H4]; apply rtc_refl.
    - intros [H|(z & -> & H1 & H2 & H3 & [H4|(H4 & H5 & H6 & H7 & H8)])]; [by left; left|left; right; by exists z|right; exists z].
      split; [|done]. split_and!; [| |done..].
      + destruct (rtc_inv_r _ _ H8) as [?|(u & Hu & Huz & _)]; [congruence|]. exists u. split; [|done].
        destruct (rtc_inv_r _ _ Hu) as [<-|(u' & _ & _ & [H|[H|H]])]; [left; apply rtc_refl|by left|by right|].
        exfalso. by apply (proj1 (spo_no_an G Han u z Huz)).
      + eapply (rtc_congruence id); [|exact H8]. intros a b [H _]. split; [done|]. apply (madj_nodes g Hg a b). right. right. by left.
  Qed.
End graph.

Lemma triples_spec g o flip : gok g → ancestral (gmix g) → ∃ X, discriminating_triples g o flip = Ok X ∧ ∀ T, T ∈ X ↔ tri (gmix g) T.
Proof.
  intros Hg Han. unfold discriminating_triples. pose proof (proj1 (gok_ag_wf g) Hg) as Hw.
  destruct (C68_ancestor_dict g o Hw Han) as (anc & -> & Hanc). destruct (C68_descendant_dict g o Hw Han) as (des & -> & Hdes). cbn [res_bind].
  assert (∀ e, e ∈ oa o [181] (g_bi g) → spouse (gmix g) (unpack flip e).1 (unpack flip e).2 ∧ ((unpack flip e).1 = e.1 ∧ (unpack flip e).2 = e.2 ∨ (unpack flip e).1 = e.2 ∧ (unpack flip e).2 = e.1)) as He.
  { intros [a b] H%elem_of_oa. unfold unpack. destruct (flip (a, b)); cbn; split; [by right|by right|by left|by left]. }
  destruct (loop_add (λ e acc, triples_edge g o anc des (unpack flip e).1 (unpack flip e).2 acc)
    (λ e T, edge_triple g (unpack flip e).1 (unpack flip e).2 T) (oa o [181] (g_bi g))) with (acc := ∅ : gset nset) as (X & E & HX).
  { intros e acc H. cbn zeta. apply triples_edge_spec; try done. by apply He. }
  rewrite E. cbn [res_bind]. eexists. split; [done|]. intros T. rewrite elem_of_union, HX, elem_of_map. unfold tri. split.
  - intros [[H%not_elem_of_empty|(e & H1 & z & H2)]|([[x z] y] & -> & H)]; [done|right|left].
    + exists (unpack flip e).1, (unpack flip e).2, z. destruct H2 as (H2 & H3 & H4 & H5 & H6). split_and!; [done| |done..]. by apply He.
    + apply g_vstructures_spec in H as [_ H]; [|done]. by exists x, z, y.
  - intros [(x & z & y & -> & H)|(v & w & z & -> & Hs & H1 & H2 & H3 & H4)].
    + right. assert (x ≠ y) as Hne by (by destruct H as (_ & ? & _)). destruct (decide (x < y)).
      * exists (x, z, y). split; [done|]. by apply g_vstructures_spec.
      * exists (y, z, x). split; [cbn; clear; set_solver|]. apply g_vstructures_spec; [done|]. split; [lia|]. by apply mvstruct_sym.
    + left. right. assert (∃ e, e ∈ g_bi g ∧ (e = (v, w) ∨ e = (w, v))) as (e & Hin & Ee) by (destruct Hs; eauto).
      exists e. split; [by apply elem_of_oa|]. exists z. assert (e ∈ oa o [181] (g_bi g)) as Hin' by (by apply elem_of_oa). destruct (He e Hin') as [_ Hu].
      assert (((unpack flip e).1 = v ∧ (unpack flip e).2 = w) ∨ ((unpack flip e).1 = w ∧ (unpack flip e).2 = v)) as [[-> ->]|[-> ->]].
      { destruct Ee as [-> | ->]; cbn in Hu; destruct Hu as [[-> ->]|[-> ->]]; auto. }
      * by split_and!.
      * split_and!; [clear; set_solver|tauto|done|done|]. by apply tri_head_swap.
Qed.
Lemma triples_inseparable g o flip : gok g → ancestral (gmix g) → maximal (g_nodes g) (gmix g) →
  ∃ X, discriminating_triples g o flip = Ok X ∧ ∀ T, T ∈ X ↔ inseparable_triple (g_nodes g) (gmix g) T.
Proof.
  intros Hg Han Hm. destruct (triples_spec g o flip Hg Han) as (X & E & HX). exists X. split; [done|]. intros T. split.
  - intros H%HX. apply tri_inseparable; [by apply gmix_simple|by apply gmix_separate|by apply madj_nodes|done].
  - intros H. destruct (decide (T ∈ X)) as [|Hn]; [done|]. exfalso. rewrite HX in Hn. revert Hn.
    apply (inseparable_tri _ (gmix_simple g Hg) (gmix_separate g Hg) Han (g_nodes g)); [by apply madj_nodes|done|done].
Qed.

(** ** Graphs with the same triples *)
Section disc.
  Context (G : mixed) (Hsi : simple G) (Hse : separate G) (Han : ancestral G).
  Notation D := (mx_dir G).
  Notation an := (rtc (edge D)).
  Lemma disc_chain l b y : (∀ p a v c r, l = p ++ a :: v :: c :: r → r ≠ [] → mcollider G a v c ∧ (v, y) ∈ D) →
    ∀ s p a v w, l = p ++ a :: v :: s ++ [b; y] → last (v :: s) = Some w →
    rtc (λ a b, spouse G a b ∧ an b y) v w ∧ (v, y) ∈ D ∧ (w, y) ∈ D ∧ into G b w ∧ into G a v.
  Proof using Hsi.
    intros Hl. induction s as [|e s IH]; intros p a v w E Hw.
    - cbn in Hw. injection Hw as ->. destruct (Hl p a w b [y] E) as [[H1 H2] H3]; [done|]. split_and!; [apply rtc_refl|done..].
    - rewrite last_cons_cons in Hw. cbn [app] in E.
      assert (s ++ [b; y] ≠ []) as Hne by (by destruct s). destruct (Hl p a v e (s ++ [b; y]) E Hne) as [[H1 H2] H3].
      destruct (IH (p ++ [a]) v e w) as (H4 & H5 & H6 & H7 & H8); [rewrite E, <-app_assoc; done|done|].
      split_and!; [|done..]. eapply rtc_l; [|exact H4]. split; [by apply into_both|]. by apply rtc_once.
  Qed.
  Lemma discr_collider_iff p c b y : discr_collider G (p ++ [c; b; y]) ↔ mcollider G c b y.
  Proof using.
    split; [|by eexists _, _, _, _]. intros (p' & a' & b' & y' & E & H). apply app_inj_2 in E as [_ E]; [|done]. by injection E as -> -> ->.
  Qed.
End disc.

Lemma disc_transfer N G H l : simple G → separate G → ancestral G → simple H → separate H → ancestral H →
  (∀ u v, madj G u v → u ∈ N ∧ v ∈ N) → maximal N G → (∀ T, tri G T → tri H T) →
  discriminating G l → discriminating H l → discr_collider G l → discr_collider H l.
Proof.
  intros SG EG AG SH EH AH HN Hmax Ht (Hnd & Htr & x & q & m & b & y & El & Hna & Hcol) (_ & Htr' & x1 & q1 & m1 & b1 & y1 & El1 & Hna1 & Hcol1) Hdc.
  rewrite El in El1. injection El1 as -> -> El1. apply app_inj_2 in El1 as [-> El1]; [|done]. injection El1 as <- <-.
  destruct (last (q1 :: m1)) as [c|] eqn:Ec; [|by apply last_None in Ec]. rename x1 into x, q1 into q, m1 into m.
  destruct (disc_chain G SG l b y Hcol m [] x q c El Ec) as (Ch & Qy & Cy & Ibc & Ixq).
  destruct (disc_chain H SH l b y Hcol1 m [] x q c El Ec) as (Ch' & Qy' & Cy' & Ibc' & Ixq').
  apply last_Some in Ec as [m' Em].
  assert (l = (x :: m') ++ [c; b; y]) as El' by (rewrite El, app_comm_cons, Em; cbn; by rewrite <-app_assoc).
  rewrite El', discr_collider_iff in Hdc |- *. destruct Hdc as [Icb Iyb].
  assert (madj H b y ∧ x ≠ y ∧ x ≠ b ∧ b ≠ y) as (Aby & Nxy & Nxb & Nby).
  { split; [apply (Htr' (x :: m' ++ [c]) b y []); rewrite El'; cbn; by rewrite <-app_assoc|].
    rewrite El' in Hnd. cbn in Hnd. apply NoDup_cons in Hnd as [N1 Hnd]. apply NoDup_app in Hnd as (_ & _ & Hnd).
    apply NoDup_cons in Hnd as [_ Hnd]. apply NoDup_cons in Hnd as [N2 _]. clear -N1 N2. set_solver. }
  (* in G *)
  assert (spouse G c b) as Scb by (by apply into_both).
  assert (spouse G b y) as Sby.
  { destruct Iyb as [Hd|Hs]; [|by apply spouse_sym]. exfalso. apply (proj1 (spo_no_an G AG c b Scb)). eapply rtc_l; [exact Cy|]. by apply rtc_once. }
  set (an := rtc (edge (mx_dir G))) in *.
  assert (rtc (λ a d, spouse G a d ∧ (an d b ∨ an d y)) b q) as Rbq.
  { eapply rtc_l; [split; [by apply spouse_sym|right; by apply rtc_once]|].
    destruct (guard_rev G (λ d, an d y) q c) as [_ Hr]; [by apply rtc_once|exact Ch|]. eapply (rtc_congruence id); [|exact Hr]. cbn. tauto. }
  assert (tri G {[x; b; y]}) as HT.
  { right. exists b, y, x. split; [clear; set_solver|]. split; [done|]. split; [intros [_ Hyx]; by apply Hna, madj_sym|]. split; [done|]. split; [done|].
    destruct Ixq as [Hxq|Hxq]; [left; exists q; split; [done|by right]|].
    assert (¬ an y x) as Nyx.
    { intros Hyx. apply (proj2 (spo_no_an G AG x q Hxq)). eapply rtc_l; [exact Qy|done]. }
    destruct (an_dec G x b) as [Hxb|Hxb]; [|destruct (an_dec G x y) as [Hxy|Hxy]].
    1,2: left; exists x; split; [|by left]; eapply rtc_r; [exact Rbq|]; split; [by apply spouse_sym|]; auto.
    right. split_and!; [done|done| |done|].
    - intros Hbx. apply Hna. apply (max_adj G SG EG N Hmax); [apply (HN x q); right; right; by left|apply (HN b y); right; right; by left|done|].
      intros C HxC HyC. apply conn_district; [done|done|].
      eapply rtc_l; [split; [exact Hxq|right; left; by apply rtc_once]|].
      eapply rtc_r; [|split; [exact Sby|right; left; apply rtc_refl]].
      eapply rtc_r; [|split; [exact Scb|by left]]. eapply (rtc_congruence id); [|exact Ch]. intros a d [H1 H2]. split; [done|]. right. by left.
    - eapply rtc_r; [|split; [by apply spouse_sym|right; right; apply rtc_refl]]. eapply (rtc_congruence id); [|exact Rbq]. cbn. tauto. }
  (* in H *)
  apply Ht in HT. destruct (decide (into H c b ∧ into H y b)) as [|Hnc]; [done|]. exfalso. clear Ch Rbq.
  assert ((b, y) ∈ mx_dir H) as Dby.
  { assert (¬ neighbor H b y) as Hnn by (intros Hn; apply (EH c y b); [by left|by apply neighbor_sym]).
    destruct Aby as [Hd|[Hd|[Hs|Hn]]]; [done|exfalso..|done].
    - assert (spouse H c b ∨ (b, c) ∈ mx_dir H) as [Hs|Hd'] by (destruct Ibc' as [?|?]; [by right|left; by apply spouse_sym]).
      + apply Hnc. split; [by right|by left].
      + apply (dir_no_an H AH y b Hd). eapply rtc_l; [exact Hd'|]. by apply rtc_once.
    - destruct Ibc' as [Hd'|Hs'].
      + apply (proj1 (spo_no_an H AH b y Hs)). eapply rtc_l; [exact Hd'|]. by apply rtc_once.
      + apply Hnc. split; right; by apply spouse_sym. }
  assert (¬ spouse H b y ∧ ¬ spouse H y b ∧ (y, b) ∉ mx_dir H) as (NS1 & NS2 & ND).
  { destruct (simple_dir H SH b y Dby) as (H1 & H2 & _). split_and!; [done| |done]. intros Hs. by apply H2, spouse_sym. }
  assert (∀ (a b : node), madj H a b → madj H b a) as Ms by (intros ? ?; apply madj_sym).
  destruct HT as [(u & w & v & ET & [Hu Hv] & Hne & Hnadj)|(v & w & z & ET & Hs & _ & Hzv & Hzw & Hh)].
  - assert (w ∈ ({[x; b; y]} : nset)) as Hw by (rewrite ET; clear; set_solver).
    assert ((x = u ∨ x = w ∨ x = v) ∧ (y = u ∨ y = w ∨ y = v)) as [Hx Hy].
    { split; [assert (x ∈ ({[x; b; y]} : nset)) as K by (clear; set_solver)|assert (y ∈ ({[x; b; y]} : nset)) as K by (clear; set_solver)]; rewrite ET in K; clear -K; set_solver. }
    assert (madj H u w ∧ madj H v w) as [Au Av] by (split; by apply into_adj).
    assert (w = x ∨ w = b ∨ w = y) as [-> |[-> | ->]] by (clear -Hw; set_solver).
    + destruct Hy as [-> |[Hy| ->]]; [by apply Hna1, Ms|done|by apply Hna1, Ms].
    + assert (into H y b) as Hi by (destruct Hy as [-> |[Hy| ->]]; [done|congruence|done]). by destruct Hi.
    + destruct Hx as [-> |[Hx| ->]]; done.
  - assert ((v = x ∨ v = b ∨ v = y) ∧ (w = x ∨ w = b ∨ w = y) ∧ (z = x ∨ z = b ∨ z = y)) as (Hv & Hw & Hz).
    { assert (v ∈ ({[x; b; y]} : nset) ∧ w ∈ ({[x; b; y]} : nset) ∧ z ∈ ({[x; b; y]} : nset)) as (K1 & K2 & K3) by (rewrite ET; clear; set_solver).
      clear -K1 K2 K3. set_solver. }
    assert (madj H v w) as Avw by (right; right; by left). pose proof (adj_ne H SH _ _ Avw) as Nvw.
    assert (z = y ∧ (v = x ∧ w = b ∨ v = b ∧ w = x)) as [-> Hvw].
    { destruct Hv as [-> |[-> | ->]], Hw as [-> |[-> | ->]]; try done; try (by destruct (Hna1 (Ms _ _ Avw)));
        (destruct Hz as [-> |[-> | ->]]; try done; auto). }
    assert (rtc (edge (mx_dir H)) y v ∨ rtc (edge (mx_dir H)) y w → False) as Hno.
    { intros Hyv. assert (rtc (edge (mx_dir H)) y x ∨ rtc (edge (mx_dir H)) y b) as [K|K] by (destruct Hvw as [[-> ->]|[-> ->]]; tauto).
      - assert (spouse H b x) as Hbx by (destruct Hvw as [[-> ->]|[-> ->]]; [by apply spouse_sym|done]).
        apply (proj1 (spo_no_an H AH b x Hbx)). by eapply rtc_l.
      - by apply (dir_no_an H AH b y). }
    destruct Hh as [(d & Hr & Hd)|(H1 & H2 & H3 & H4 & _)].
    + assert (rtc (edge (mx_dir H)) d v ∨ rtc (edge (mx_dir H)) d w) as Hdv.
      { destruct (rtc_inv_r _ _ Hr) as [<-|(u & _ & _ & K)]; [left; apply rtc_refl|done]. }
      apply Hno. destruct Hd as [->|Hd]; [done|]. destruct Hdv as [K|K]; [left|right]; by eapply rtc_l.
    + destruct Hvw as [[-> ->]|[-> ->]]; [apply H4|apply H3]; by apply rtc_once.
Qed.

Lemma fast_spec g h o o' flip flip' : gok g → ancestral (gmix g) → gok h → ancestral (gmix h) → g_nodes g = g_nodes h →
  maximal (g_nodes g) (gmix g) → maximal (g_nodes h) (gmix h) →
  ∃ b, fast_markov_equivalent g h o o' flip flip' = Ok b ∧ (b = true ↔ same_mseps (g_nodes g) (gmix g) (gmix h)).
Proof.
  intros Hg Hag Hh Hah EN Hmg Hmh. unfold fast_markov_equivalent.
  destruct (triples_spec g o flip Hg Hag) as (X & EX & HX). destruct (triples_spec h o' flip' Hh Hah) as (Y & EY & HY). rewrite EX, EY. cbn [res_bind].
  destruct (triples_inseparable g o flip Hg Hag Hmg) as (X' & EX' & HX'). rewrite EX in EX'. injection EX' as <-.
  destruct (triples_inseparable h o' flip' Hh Hah Hmh) as (Y' & EY' & HY'). rewrite EY in EY'. injection EY' as <-.
  assert (same_mseps (g_nodes g) (gmix g) (gmix h) ↔ g_skeleton g = g_skeleton h ∧ g_vstructures g o = g_vstructures h o' ∧ X = Y) as Hiff.
  { rewrite <-(agree_same_mseps g h) by done. rewrite g_skeleton_eq, g_vstructures_eq by done. split.
    - intros Hagr. split; [apply Hagr|]. split; [apply Hagr|].
      assert (same_mseps (g_nodes g) (gmix g) (gmix h)) as Hs by (by apply agree_same_mseps).
      apply set_eq. intros T. rewrite HX', HY', <-EN.
      split; intros [I1 I2 (a & b & I3) (c & d & I4) I5]; (split; [done|done| | |]).
      + exists a, b. by rewrite <-(ag_adj _ _ Hagr).
      + exists c, d. by rewrite <-(ag_adj _ _ Hagr).
      + intros u v C Hu Hv Hne HC HT Hsep. apply (I5 u v C Hu Hv Hne HC HT). apply Hs; [clear -I1 Hu; set_solver|clear -I1 Hv; set_solver|clear -HC; set_solver|split_and!; clear -HC Hne; set_solver|done].
      + exists a, b. by rewrite (ag_adj _ _ Hagr).
      + exists c, d. by rewrite (ag_adj _ _ Hagr).
      + intros u v C Hu Hv Hne HC HT Hsep. apply (I5 u v C Hu Hv Hne HC HT). apply Hs; [clear -I1 Hu; set_solver|clear -I1 Hv; set_solver|clear -HC; set_solver|split_and!; clear -HC Hne; set_solver|done].
    - intros (H1 & H2 & H3). assert (∀ T, tri (gmix g) T ↔ tri (gmix h) T) as HT by (intros T; by rewrite <-HX, <-HY, H3).
      split; [done|done|]. intros l Hl Hl'. split.
      + apply (disc_transfer (g_nodes g)); try done; try (by apply gmix_simple || by apply gmix_separate); [by apply madj_nodes|]. intros T. apply HT.
      + apply (disc_transfer (g_nodes h)); try done; try (by apply gmix_simple || by apply gmix_separate); [by apply madj_nodes|]. intros T. apply HT. }
  destruct (decide (g_skeleton g = g_skeleton h)) as [E1|E1]; [destruct (decide (g_vstructures g o = g_vstructures h o')) as [E2|E2]|].
  - eexists. split; [done|]. rewrite bool_decide_eq_true, Hiff. tauto.
  - exists false. split; [done|]. rewrite Hiff. split; [done|]. tauto.
  - exists false. split; [done|]. rewrite Hiff. split; [done|]. tauto.
Qed.
