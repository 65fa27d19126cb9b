(** [to_maximal], [is_maximal] and the pairwise statements. *)
From Verif Require Import Py Spec SpecDsep SpecMixed DagModel DsepModel UGraphModel InterveneModel AncestralModel MsepModel MagModel
  TopoProofs StateProofs ReachProofs OrderProofs QueryProofs UGraphProofs PdagProofs WalkProofs DsepProofs InterveneProofs AncestralState
  AncestralProofs AncestralCopy MWalkProofs MsepProofs InduceProofs MagProofs PropertiesAncestral.

Lemma has_any_edge_spec g i j : gok g → has_any_edge g i j = true ↔ madj (gmix g) i j.
Proof.
  intros Hg. unfold has_any_edge, has_directed, has_bidirected, has_undirected, madj.
  rewrite !orb_true_iff, !bool_decide_eq_true, spouse_upair, neighbor_upair by done. cbn. tauto.
Qed.

Lemma foldl_insert_lookup (k : nat) (L : list node) (m : gmap node nat) n :
  foldl (λ m n, <[n := k]> m) m L !! n = if decide (n ∈ L) then Some k else m !! n.
Proof.
  revert m. induction L as [|x L IH]; intros m; cbn [foldl].
  - rewrite decide_False; [done|]. apply not_elem_of_nil.
  - rewrite IH. destruct (decide (n ∈ L)) as [H|H].
    + rewrite decide_True; [done|]. by apply elem_of_list_further.
    + destruct (decide (n = x)) as [->|Hne].
      * rewrite decide_True by apply elem_of_list_here. apply lookup_insert.
      * rewrite decide_False by (rewrite elem_of_cons; tauto). by apply lookup_insert_ne.
Qed.
Lemma node2component_spec o (cs : list nset) n :
  (∃ c, c ∈ cs ∧ n ∈ c) → ∃ k c, node2component o cs !! n = Some k ∧ cs !! k = Some c ∧ n ∈ c.
Proof.
  unfold node2component. induction cs as [|c cs IH] using rev_ind.
  { intros (c & Hc & _). by apply elem_of_nil in Hc. }
  intros (c' & Hc' & Hn). rewrite app_length, Nat.add_1_r, seq_S. cbn [plus].
  rewrite zip_with_app by (by rewrite seq_length). cbn [zip_with]. rewrite foldl_app. cbn [foldl fst snd].
  rewrite foldl_insert_lookup. destruct (decide (n ∈ on o [96; length cs] c)) as [H|H].
  - exists (length cs), c. split; [done|]. split; [by apply list_lookup_middle|]. by rewrite elem_of_on in H.
  - destruct IH as (k & c0 & H1 & H2 & H3).
    { exists c'. split; [|done]. apply elem_of_app in Hc' as [Hc'| ->%elem_of_list_singleton]; [done|]. by rewrite elem_of_on in H. }
    exists k, c0. split; [done|]. split; [by apply lookup_app_l_Some|done].
Qed.

Section graph.
  Context (g : ag) (Hg : gok g).
  Notation G := (gmix g).
  Notation D := (g_dir g).

  Lemma g_spouses_sub v : g_spouses g v ⊆ g_nodes g.
  Proof using Hg. intros w Hw. apply (gspo g Hg) in Hw. eapply (madj_nodes g Hg v w). unfold madj. tauto. Qed.
  Lemma g_spouses_cap v : g_spouses g v ∩ g_nodes g = g_spouses g v.
  Proof using Hg. pose proof (g_spouses_sub v). set_solver. Qed.

  Lemma district_of_spec o v sub : ∃ X, district_of g o v sub = Ok X ∧
    ∀ x, x ∈ X ↔ rtc (λ a b, spouse G a b ∧ b ∈ default (g_nodes g) sub) v x.
  Proof using Hg.
    unfold district_of. set (X := default (g_nodes g) sub).
    destruct (dfs_closed (λ u, g_spouses g u ∩ X) o (g_nodes g)) with (fuel := dfs_fuel (g_nodes g)) (v := v) (st := (∅ : nset, ∅ : nset))
      as (st & -> & H1 & _).
    - intros u. pose proof (g_spouses_sub u). set_solver.
    - set_solver.
    - unfold dfs_fuel. lia.
    - set_solver.
    - cbn [res_bind]. eexists. split; [done|]. intros x. rewrite H1. split.
      + intros [Hx|Hx]; [set_solver|]. eapply rtc_iff; [|exact Hx]. intros a b. cbn. rewrite elem_of_intersection, (gspo g Hg). done.
      + intros Hx. right. eapply rtc_iff; [|exact Hx]. intros a b. cbn. rewrite elem_of_intersection, (gspo g Hg). done.
  Qed.

  Lemma c_components_spec o : ∃ cs, c_components g o = Ok cs ∧
    (∀ c, c ∈ cs → ∃ v, v ∈ g_nodes g ∧ ∀ x, x ∈ c ↔ rtc (spouse G) v x) ∧
    (∀ v, v ∈ g_nodes g → ∃ c, c ∈ cs ∧ v ∈ c) ∧
    (∀ i j c c', cs !! i = Some c → cs !! j = Some c' → i ≠ j → c ## c').
  Proof using Hg.
    unfold c_components.
    destruct (dfs_all_spec (λ v, g_spouses g v ∩ g_nodes g) o (g_nodes g)) with (N := g_nodes g) as (cs & vis & -> & H1 & H2 & H3).
    - set_solver.
    - intros x y. rewrite !g_spouses_cap, !(gspo g Hg). apply spouse_sym.
    - done.
    - exists cs. split; [done|]. split; [|done]. intros c Hc. destruct (H1 c Hc) as (v & Hv & Hx). exists v. split; [done|].
      intros x. rewrite Hx. apply rtc_iff. intros a b. cbn. by rewrite g_spouses_cap, (gspo g Hg).
  Qed.

  Context (Han : ancestral G).

  Lemma induced_pairs_spec o : ∃ l, induced_pairs g o = Ok l ∧
    (∀ i j, (i, j) ∈ l → i ∈ g_nodes g ∧ j ∈ g_nodes g ∧ i ≠ j ∧ ¬ madj G i j ∧ binduced G i j) ∧
    (∀ i j, i ∈ g_nodes g → j ∈ g_nodes g → i ≠ j → ¬ madj G i j → binduced G i j → (i, j) ∈ l ∨ (j, i) ∈ l).
  Proof using Hg Han.
    unfold induced_pairs.
    destruct (C68_ancestor_dict g o) as (anc & -> & Hanc); [by apply gok_ag_wf|done|]. cbn [res_bind].
    destruct (c_components_spec o) as (cs & -> & Hc1 & Hc2 & Hc3). cbn [res_bind].
    set (comp := node2component o cs).
    assert (∀ v, v ∈ g_nodes g → ∃ k c, comp !! v = Some k ∧ cs !! k = Some c ∧ v ∈ c) as Hcomp.
    { intros v Hv. apply node2component_spec. by apply Hc2. }
    clearbody comp.
    assert (∀ u v k k', comp !! u = Some k → comp !! v = Some k' → u ∈ g_nodes g → v ∈ g_nodes g → rtc (spouse G) u v → k = k') as Hsame.
    { intros u v k k' E1 E2 Hu Hv Hr. destruct (Hcomp u Hu) as (k1 & c1 & F1 & L1 & I1). destruct (Hcomp v Hv) as (k2 & c2 & F2 & L2 & I2).
      assert (k1 = k) as -> by congruence. assert (k2 = k') as -> by congruence.
      destruct (decide (k = k')) as [|Hne]; [done|]. exfalso. apply (Hc3 _ _ _ _ L1 L2 Hne v); [|done].
      destruct (Hc1 c1) as (w & _ & Hw); [by eapply elem_of_list_lookup_2|]. apply Hw. etrans; [by apply Hw|done]. }
    set (P := λ e : arc, ∃ a b, a ∈ into_of g e.1 ∧ b ∈ into_of g e.2 ∧ tc (edge D) a e.2 ∧ tc (edge D) b e.1 ∧
      tc (λ u w, spouse G u w ∧ (tc (edge D) w e.1 ∨ tc (edge D) w e.2)) a b).
    assert (∀ i j, P (i, j) ↔ binduced G i j) as HP.
    { intros i j. unfold P, into_of. setoid_rewrite elem_of_union. setoid_rewrite (gspo g Hg). cbn [fst snd]. split.
      - intros (a & b & Ha & Hb & H1 & H2 & H3). exists a, b.
        assert (∀ u v, v ∈ g_children g u ↔ (u, v) ∈ D) as Hch by (intros; apply (gok_chi _ Hg)). rewrite Hch in Ha, Hb.
        assert (∀ z v, into G z v → tc (edge D) v z → False) as Hcy.
        { intros z v [Hz|Hz] Hr; [|by eapply (spouse_no_anc G Han)]. eapply acyclic_tc_rtc; [apply Han|exact Hr|]. by apply rtc_once. }
        split; [|split; [|done]].
        + destruct Ha as [Ha|Ha]; [|done]. exfalso. apply (Hcy j b); [done|]. etrans; [exact H2|]. by eapply tc_l.
        + destruct Hb as [Hb|Hb]; [|done]. exfalso. apply (Hcy i a); [done|]. etrans; [exact H1|]. by eapply tc_l.
      - intros (a & b & H1 & H2 & H3). exists a, b. tauto. }
    assert (∀ v, into_of g v ⊆ g_nodes g) as Hinto.
    { intros v w. unfold into_of. rewrite elem_of_union. intros [Hw|Hw]; [|by apply (g_spouses_sub v)].
      apply (gok_chi _ Hg) in Hw. by apply (gok_dirN _ Hg) in Hw as [_ ?]. }
    (* one pair *)
    assert (∀ e acc, e.1 ∈ g_nodes g → e.2 ∈ g_nodes g → ∃ r,
      loopR (λ n acc,
        match comp !! n.1, comp !! n.2 with
        | Some c1, Some c2 =>
            if decide (c1 = c2 ∧ n.1 ∈ dget anc e.2 ∧ n.2 ∈ dget anc e.1) then
              res_bind (reachable_to (λ v, g_spouses g v ∩ (dget anc e.1 ∪ dget anc e.2)) o n.2 (dfs_fuel (g_nodes g)) n.1 ∅)
                (λ r, Ok (if r.1 then acc ++ [e] else acc))
            else Ok acc
        | _, _ => Raise KeyError
        end) (product (on o [98; e.1; e.2] (into_of g e.1)) (on o [98; e.2; e.1] (into_of g e.2))) acc = Ok r ∧
      ∀ x, x ∈ r ↔ x ∈ acc ∨ x = e ∧ P e) as Hpair.
    { intros e acc He1 He2.
      assert (∀ l acc, (∀ n, n ∈ l → n.1 ∈ into_of g e.1 ∧ n.2 ∈ into_of g e.2) → ∃ r,
        loopR (λ n acc,
          match comp !! n.1, comp !! n.2 with
          | Some c1, Some c2 =>
              if decide (c1 = c2 ∧ n.1 ∈ dget anc e.2 ∧ n.2 ∈ dget anc e.1) then
                res_bind (reachable_to (λ v, g_spouses g v ∩ (dget anc e.1 ∪ dget anc e.2)) o n.2 (dfs_fuel (g_nodes g)) n.1 ∅)
                  (λ r, Ok (if r.1 then acc ++ [e] else acc))
              else Ok acc
          | _, _ => Raise KeyError
          end) l acc = Ok r ∧
        ∀ x, x ∈ r ↔ x ∈ acc ∨ x = e ∧ ∃ n, n ∈ l ∧ tc (edge D) n.1 e.2 ∧ tc (edge D) n.2 e.1 ∧
          tc (λ u w, spouse G u w ∧ (tc (edge D) w e.1 ∨ tc (edge D) w e.2)) n.1 n.2) as Hloop.
      { intros l. induction l as [|[a b] l IH]; intros acc0 Hl.
        - exists acc0. split; [done|]. intros x. setoid_rewrite elem_of_nil. split; [tauto|]. intros [?|(_ & ? & ? & _)]; done.
        - destruct (Hl (a, b)) as [Hia Hib]; [apply elem_of_list_here|]. cbn [fst snd] in Hia, Hib.
          pose proof (Hinto _ _ Hia) as HaN. pose proof (Hinto _ _ Hib) as HbN.
          destruct (Hcomp a HaN) as (ka & ca & Ea & _). destruct (Hcomp b HbN) as (kb & cb & Eb & _).
          cbn [loopR fst snd]. rewrite Ea, Eb.
          assert (∀ w, w ∈ dget anc e.1 ∪ dget anc e.2 ↔ tc (edge D) w e.1 ∨ tc (edge D) w e.2) as Hw.
          { intros w. rewrite elem_of_union, !Hanc by done. done. }
          set (T := tc (λ u w, spouse G u w ∧ (tc (edge D) w e.1 ∨ tc (edge D) w e.2)) a b).
          assert (∃ acc1, (if decide (ka = kb ∧ a ∈ dget anc e.2 ∧ b ∈ dget anc e.1) then
              res_bind (reachable_to (λ v, g_spouses g v ∩ (dget anc e.1 ∪ dget anc e.2)) o b (dfs_fuel (g_nodes g)) a ∅)
                (λ r, Ok (if r.1 then acc0 ++ [e] else acc0)) else Ok acc0) = Ok acc1 ∧
              ∀ x, x ∈ acc1 ↔ x ∈ acc0 ∨ x = e ∧ tc (edge D) a e.2 ∧ tc (edge D) b e.1 ∧ T) as (acc1 & -> & Hacc1).
          { destruct (decide _) as [(Hk & Ha & Hb)|Hdec].
            - destruct (reachable_to_start (λ v, g_spouses g v ∩ (dget anc e.1 ∪ dget anc e.2)) o (g_nodes g)) with (e := b)
                (fuel := dfs_fuel (g_nodes g)) (v := a) as (bb & vis & -> & Hbb).
              { intros v. pose proof (g_spouses_sub v) as Hs. clear -Hs. set_solver. }
              { unfold dfs_fuel. lia. }
              cbn [res_bind fst]. eexists. split; [done|]. rewrite Hanc in Ha, Hb by done. fold (ancestor D a e.2) (ancestor D b e.1).
              assert (bb = true ↔ T) as HT.
              { rewrite Hbb. unfold T. apply tc_iff. intros u w. rewrite elem_of_intersection, Hw, (gspo g Hg). done. }
              clear -HT Ha Hb. intros x. destruct bb.
              + rewrite elem_of_app, elem_of_list_singleton. tauto.
              + assert (¬ T) by (intros Ht; apply HT in Ht; done). tauto.
            - exists acc0. split; [done|]. intros x. split; [tauto|]. intros [?|(-> & H1 & H2 & H3)]; [done|]. exfalso. apply Hdec.
              rewrite !Hanc by done. split_and!; [|done|done]. apply (Hsame a b); [done|done|done|done|].
              apply tc_rtc in H3. eapply (rtc_congruence id); [|exact H3]. by intros u w [? _]. }
          destruct (IH acc1) as (r & -> & Hr).
          { intros n Hn. apply Hl. by apply elem_of_list_further. }
          exists r. split; [done|]. intros x. rewrite Hr, Hacc1. setoid_rewrite elem_of_cons. unfold T. clear. split.
          + intros [[H|(-> & H)]|(-> & n & Hn & H)]; [by left| |]; right; (split; [done|]); [by exists (a, b); auto|exists n; auto].
          + intros [H|(-> & n & [->|Hn] & H)]; [auto|left; right; auto|right; eauto]. }
      destruct (Hloop (product (on o [98; e.1; e.2] (into_of g e.1)) (on o [98; e.2; e.1] (into_of g e.2))) acc) as (r & E & Hr).
      { intros [a b]. unfold product. rewrite elem_of_list_bind. intros (x & Hx & Ha). apply elem_of_list_fmap in Hx as (y & [= -> ->] & Hb).
        by rewrite elem_of_on in Ha, Hb. }
      exists r. split; [exact E|]. intros x. rewrite Hr. unfold P. clear. split; (intros [H|[-> H]]; [by left|right; split; [done|]]).
      - destruct H as ([a b] & Hn & H). exists a, b. unfold product in Hn. rewrite elem_of_list_bind in Hn. destruct Hn as (u & Hu & Ha).
        apply elem_of_list_fmap in Hu as (w & [= -> ->] & Hb). by rewrite elem_of_on in Ha, Hb.
      - destruct H as (a & b & Ha & Hb & H). exists (a, b). split; [|done]. unfold product. apply elem_of_list_bind. exists a.
        rewrite elem_of_on, elem_of_list_fmap. split; [|done]. exists b. by rewrite elem_of_on. }
    set (L := combinations2 (on o [94] (g_nodes g))).
    assert (∀ i j, (i, j) ∈ L → i ≠ j ∧ i ∈ g_nodes g ∧ j ∈ g_nodes g) as HL.
    { intros i j Hij. apply combinations2_ne in Hij as (? & Hi & Hj); [|apply NoDup_on]. by rewrite !elem_of_on in Hi, Hj. }
    assert (∀ l acc, (∀ e, e ∈ l → e ∈ L) → ∃ r,
      loopR (λ e acc, if has_any_edge g e.1 e.2 then Ok acc else
        loopR (λ n acc,
          match comp !! n.1, comp !! n.2 with
          | Some c1, Some c2 =>
              if decide (c1 = c2 ∧ n.1 ∈ dget anc e.2 ∧ n.2 ∈ dget anc e.1) then
                res_bind (reachable_to (λ v, g_spouses g v ∩ (dget anc e.1 ∪ dget anc e.2)) o n.2 (dfs_fuel (g_nodes g)) n.1 ∅)
                  (λ r, Ok (if r.1 then acc ++ [e] else acc))
              else Ok acc
          | _, _ => Raise KeyError
          end) (product (on o [98; e.1; e.2] (into_of g e.1)) (on o [98; e.2; e.1] (into_of g e.2))) acc) l acc = Ok r ∧
      ∀ x, x ∈ r ↔ x ∈ acc ∨ x ∈ l ∧ ¬ madj G x.1 x.2 ∧ P x) as Hall.
    { intros l. induction l as [|e l IH]; intros acc Hl.
      - exists acc. split; [done|]. intros x. rewrite elem_of_nil. tauto.
      - cbn [loopR]. assert (e ∈ L) as HeL by (apply Hl, elem_of_list_here).
        assert (∀ e', e' ∈ l → e' ∈ L) as Hl' by (intros e' He'; apply Hl; by apply elem_of_list_further).
        destruct (HL e.1 e.2) as (_ & H1 & H2); [by destruct e|].
        pose proof (has_any_edge_spec g e.1 e.2 Hg) as Hedge. destruct (has_any_edge g e.1 e.2).
        + destruct (IH acc Hl') as (r & -> & Hr). exists r. split; [done|]. intros x. rewrite Hr, elem_of_cons.
          assert (madj G e.1 e.2) as He by by apply Hedge. clear -He. naive_solver.
        + destruct (Hpair e acc H1 H2) as (r1 & -> & Hr1). destruct (IH r1 Hl') as (r & -> & Hr). exists r. split; [done|].
          intros x. rewrite Hr, Hr1, elem_of_cons. assert (¬ madj G e.1 e.2) as He by (intros H; by apply Hedge in H). clear -He. naive_solver. }
    destruct (Hall L []) as (l & E & Hl); [done|]. exists l. split; [exact E|]. split.
    - intros i j Hij. apply Hl in Hij as [Hij|(H1 & H2 & H3)]; [by apply elem_of_nil in Hij|]. apply HP in H3.
      destruct (HL i j H1) as (? & ? & ?). cbn in H2. done.
    - intros i j Hi Hj Hne Hna Hb. destruct (combinations2_total (on o [94] (g_nodes g)) i j) as [[H _]|[H _]].
      { apply NoDup_on. }
      { by rewrite elem_of_on. }
      { by rewrite elem_of_on. }
      { done. }
      + left. apply Hl. right. split; [done|]. split; [done|]. by apply HP.
      + right. apply Hl. right. split; [done|]. cbn. split; [intros H'; by apply Hna, madj_sym|]. apply HP.
        by apply binduced_sym.
  Qed.
End graph.

(** ** Adding bidirected edges between induced pairs *)
Record ext (g h : ag) : Prop := Ext {
  ext_ok : gok h;
  ext_anc : ancestral (gmix h);
  ext_nodes : g_nodes h = g_nodes g;
  ext_dir : g_dir h = g_dir g;
  ext_un : g_un h = g_un g;
  ext_bi : g_bi g ⊆ g_bi h;
  ext_reach : ∀ C a b, mreach (gmix g) C a b ↔ mreach (gmix h) C a b
}.
Lemma ext_refl g : gok g → ancestral (gmix g) → ext g g.
Proof. intros. by split. Qed.
Lemma ext_trans g h k : ext g h → ext h k → ext g k.
Proof.
  intros [A1 A2 A3 A4 A5 A6 A7] [B1 B2 B3 B4 B5 B6 B7]. split; [done|done|congruence|congruence|congruence|by etrans|].
  intros C a b. by rewrite A7, B7.
Qed.

Lemma add_pairs g l :
  gok g → (∀ i j, (i, j) ∈ l → i ≠ j ∧ i ∈ g_nodes g ∧ j ∈ g_nodes g ∧ g_neighbors g i = ∅ ∧ g_neighbors g j = ∅ ∧
    (spouse (gmix g) i j ∨ ¬ madj (gmix g) i j)) →
  ∃ h, mfor l (λ e, add_bidirected e.1 e.2) g = (h, Ok tt) ∧ gok h ∧ g_nodes h = g_nodes g ∧ g_dir h = g_dir g ∧ g_un h = g_un g ∧
    ∀ x y, spouse (gmix h) x y ↔ spouse (gmix g) x y ∨ (x, y) ∈ l ∨ (y, x) ∈ l.
Proof.
  revert g. induction l as [|[i j] l IH]; intros g Hg Hl.
  { exists g. cbn. split; [done|]. split_and!; [done..|]. intros x y. rewrite !elem_of_nil. tauto. }
  destruct (Hl i j) as (Hne & Hi & Hj & Hni & Hnj & Hadj); [apply elem_of_list_here|].
  cbn [mfor fst snd]. unfold mthen, mbind'. pose proof (add_bidirected_spec i j g Hg Hne) as Hs. cbn zeta in Hs.
  destruct (add_bidirected i j g) as [g1 r]. cbn [fst snd] in Hs. destruct Hs as [Hg1 Hs].
  assert (r = Ok tt) as ->.
  { destruct r as [[]|[]]; try done; exfalso.
    - destruct Hs as (_ & Hn & Ha). apply (gadj g Hg) in Ha. rewrite spouse_upair in Hadj by done. tauto.
    - destruct Hs as (_ & _ & [H|H]); tauto. }
  destruct Hs as (HN & HD & HB & HU).
  assert (∀ x y, spouse (gmix g1) x y ↔ spouse (gmix g) x y ∨ (x, y) = (i, j) ∨ (y, x) = (i, j)) as Hsp.
  { intros x y. rewrite !spouse_upair by done. rewrite HB, elem_of_union, elem_of_singleton, upair_eq_or. naive_solver. }
  assert (g_nodes g1 = g_nodes g) as HN' by (rewrite HN; clear -Hi Hj; set_solver).
  destruct (IH g1 Hg1) as (h & E & Hh & H1 & H2 & H3 & H4).
  { intros i' j' Hij. destruct (Hl i' j') as (Hne' & Hi' & Hj' & Hni' & Hnj' & Hadj'); [by apply elem_of_list_further|].
    assert (∀ v, g_neighbors g1 v = g_neighbors g v) as Hnn.
    { intros v. apply set_eq. intros w. rewrite !(gok_nei _ Hg1), !(gok_nei _ Hg), HU. done. }
    rewrite HN', !Hnn. split_and!; [done..|]. unfold madj. rewrite !Hsp.
    unfold madj in Hadj'. cbn [mx_dir gmix]. rewrite HD. rewrite (neighbor_upair g1), HU by done. rewrite (neighbor_upair g) in Hadj' by done.
    destruct (decide ((i', j') = (i, j))); [tauto|]. destruct (decide ((j', i') = (i, j))); [tauto|]. cbn in Hadj'. tauto. }
  exists h. split; [exact E|]. split; [done|]. split; [congruence|]. split; [congruence|]. split; [congruence|].
  intros x y. rewrite H4, Hsp, !elem_of_cons. tauto.
Qed.

Lemma add_induced g l :
  gok g → ancestral (gmix g) →
  (∀ i j, (i, j) ∈ l → i ∈ g_nodes g ∧ j ∈ g_nodes g ∧ i ≠ j ∧ ¬ madj (gmix g) i j ∧ binduced (gmix g) i j) →
  ∃ h, mfor l (λ e, add_bidirected e.1 e.2) g = (h, Ok tt) ∧ ext g h ∧
    ∀ x y, spouse (gmix h) x y ↔ spouse (gmix g) x y ∨ (x, y) ∈ l ∨ (y, x) ∈ l.
Proof.
  intros Hg Han Hl.
  assert (∀ v, (∃ w, spouse (gmix g) v w) → g_neighbors g v = ∅) as Hnn.
  { intros v [w Hw]. apply set_eq. intros z. split; [|set_solver]. intros Hz. apply (gnei g Hg) in Hz.
    destruct (gmix_separate g Hg w v z); [right; by apply spouse_sym|done]. }
  destruct (add_pairs g l Hg) as (h & E & Hh & HN & HD & HU & Hsp).
  { intros i j Hij. destruct (Hl i j Hij) as (Hi & Hj & Hne & Hna & (a & b & Ha & Hb & _)).
    split_and!; [done..| | |by right]; apply Hnn; eauto. }
  exists h. split; [done|]. split; [|done].
  assert (∀ x y, (x, y) ∈ l ∨ (y, x) ∈ l → binduced (gmix g) x y) as Hbi.
  { intros x y [H|H]; [by apply Hl|]. apply binduced_sym. by apply Hl. }
  assert (ancestral (gmix h)) as Han'.
  { split; [cbn; rewrite HD; apply Han|]. intros x y Hs. cbn [mx_dir gmix]. rewrite HD. apply Hsp in Hs as [Hs|Hs].
    - by apply Han.
    - by destruct (binduced_noanc _ Han x y (Hbi x y Hs)). }
  assert (∀ x y k m, medge (gmix g) x y k m → medge (gmix h) x y k m) as Hsub.
  { intros x y [] []; cbn; rewrite ?HD; [|done|done|].
    - rewrite !neighbor_upair, HU by done. done.
    - rewrite Hsp. tauto. }
  assert (∀ x y k m, medge (gmix h) x y k m →
    medge (gmix g) x y k m ∨ (ip (gmix g) ∅ x y ∧ anc_mark (gmix g) x y k ∧ anc_mark (gmix g) y x m)) as Hedge.
  { intros x y [] [] He; cbn in He; [left|left|left|].
    - revert He. cbn. rewrite !neighbor_upair, HU by done. done.
    - by rewrite HD in He.
    - by rewrite HD in He.
    - apply Hsp in He as [He|He]; [by left|right]. apply Hbi in He. destruct (binduced_noanc _ Han x y He) as [N1 N2].
      split; [by apply binduced_ip|]. unfold anc_mark. split; (split; [done|]); intros Ht; exfalso; [apply N1|apply N2]; by apply tc_rtc. }
  split; [done|done|done|done|done| |].
  - intros [x y] He. assert (x < y) as Hlt by (by apply (gok_bilt _ Hg)).
    assert (upair x y = (x, y)) as Eu by by apply (upair_id (x, y)). rewrite <-Eu in He |- *. apply spouse_upair; [done|]. apply Hsp. left. by apply spouse_upair.
  - intros C a b. split.
    + apply (sub_mreach (gmix g) (gmix h) ∅ C); [apply Han|done|cbn; by rewrite HD|done].
    + apply (ip_mreach (gmix g) (gmix h) ∅ C); [apply Han|set_solver|done|cbn; by rewrite HD].
Qed.

Lemma length_pairs (l1 l2 : list node) : length (x ← l1; y ← l2; [(x, y)]) = length l1 * length l2.
Proof.
  induction l1 as [|x l1 IH]; [done|]. rewrite bind_cons, app_length, IH. cbn [length].
  assert (length (y ← l2; [(x, y)]) = length l2) as ->; [|lia].
  clear. induction l2 as [|y l2 IH]; [done|]. rewrite bind_cons. cbn. by rewrite IH.
Qed.
Lemma bi_bound g : gok g → size (g_bi g) ≤ size (g_nodes g) * size (g_nodes g).
Proof.
  intros Hg. set (l := x ← elements (g_nodes g); y ← elements (g_nodes g); [(x, y)]).
  assert (g_bi g ⊆ list_to_set l) as Hs.
  { intros [x y] Hx. apply elem_of_list_to_set. unfold l. apply elem_of_list_bind. exists x.
    pose proof (gok_biN _ Hg _ _ Hx) as [H1 H2]. rewrite elem_of_elements. split; [|done]. apply elem_of_list_bind. exists y.
    rewrite elem_of_elements. split; [|done]. by apply elem_of_list_singleton. }
  apply subseteq_size in Hs. etrans; [exact Hs|]. etrans; [apply size_list_to_set_le|].
  unfold l. rewrite length_pairs. done.
Qed.

Definition no_induced (g : ag) : Prop :=
  ∀ i j, i ∈ g_nodes g → j ∈ g_nodes g → i ≠ j → ¬ madj (gmix g) i j → ¬ binduced (gmix g) i j.

Lemma max_loop_spec o fuel g :
  gok g → ancestral (gmix g) → size (g_nodes g) * size (g_nodes g) < fuel + size (g_bi g) →
  ∃ h, max_loop o fuel g = (h, Ok tt) ∧ ext g h ∧ no_induced h.
Proof.
  revert g. induction fuel as [|fuel IH]; intros g Hg Han Hf.
  { pose proof (bi_bound g Hg). lia. }
  cbn [max_loop]. destruct (induced_pairs_spec g Hg Han (at_call o [99; S fuel])) as (l & -> & Hl1 & Hl2).
  unfold mthen, mbind'. destruct (add_induced g l Hg Han Hl1) as (h & -> & Hx & Hsp).
  destruct (decide (l = [])) as [->|Hne].
  - exists h. split; [done|]. split; [done|]. intros i j Hi Hj Hij Hna Hb.
    assert (∀ x y, spouse (gmix h) x y ↔ spouse (gmix g) x y) as Hsp' by (intros x y; rewrite Hsp, !elem_of_nil; tauto).
    rewrite (ext_nodes _ _ Hx) in Hi, Hj. destruct (Hl2 i j Hi Hj Hij) as [H|H]; [| |by apply elem_of_nil in H..].
    + intros Ha. apply Hna. unfold madj in Ha |- *. rewrite Hsp'. rewrite (neighbor_upair h), (ext_un _ _ Hx) by apply Hx.
      rewrite (neighbor_upair g) in Ha by done. cbn in Ha |- *. by rewrite (ext_dir _ _ Hx).
    + destruct Hb as (a & b & H1 & H2 & H3 & H4 & H5). cbn [mx_dir gmix] in H3, H4, H5. rewrite (ext_dir _ _ Hx) in H3, H4, H5.
      exists a, b. rewrite <-!Hsp'. split_and!; [done..|]. eapply tc_iff; [|exact H5]. intros u w. cbn. by rewrite Hsp'.
  - destruct (IH h) as (h' & -> & Hx' & Hno); [apply Hx|apply Hx| |].
    + rewrite (ext_nodes _ _ Hx). assert (size (g_bi g) < size (g_bi h)); [|lia]. apply subset_size. split; [apply Hx|]. intros Hc.
      destruct l as [|[i j] l]; [done|]. destruct (Hl1 i j) as (_ & _ & _ & Hna & _); [apply elem_of_list_here|].
      apply Hna. right. right. left. apply spouse_upair; [done|]. apply Hc. apply spouse_upair; [apply Hx|]. apply Hsp. right. left. apply elem_of_list_here.
    + exists h'. split; [done|]. split; [by eapply ext_trans|done].
Qed.

(** ** What the result is *)
Section result.
  Context (g h : ag) (Hg : gok g) (Hx : ext g h).
  Notation N := (g_nodes g).

  Lemma ext_msepd A B C : A ## C → msepd (gmix g) A B C ↔ msepd (gmix h) A B C.
  Proof using Hg Hx.
    intros HAC. pose proof (ext_ok _ _ Hx) as Hh.
    rewrite (msepd_reach (gmix g)) by (done || by apply gmix_simple || by apply gmix_separate).
    rewrite (msepd_reach (gmix h)) by (done || by apply gmix_simple || by apply gmix_separate).
    by setoid_rewrite (ext_reach _ _ Hx C).
  Qed.
  Lemma adj_not_sep i j C : i ∉ C → madj (gmix h) i j → ¬ msepd (gmix h) {[i]} {[j]} C.
  Proof using Hg Hx.
    intros HiC Ha. pose proof (ext_ok _ _ Hx) as Hh.
    rewrite msepd_reach by (by apply gmix_simple || by apply gmix_separate || set_solver). intros H. apply (H i j); [set_solver..|].
    apply madj_medge in Ha as (k & m & He). exists m. apply rtc_once. exists k. by split.
  Qed.
  Context (Hno : no_induced h).
  Lemma no_induced_sep i j : i ∈ N → j ∈ N → i ≠ j → ¬ madj (gmix h) i j →
    ∃ C, C ⊆ N ∖ {[i; j]} ∧ msepd (gmix h) {[i]} {[j]} C.
  Proof using Hg Hx Hno.
    intros Hi Hj Hne Hna. pose proof (ext_ok _ _ Hx) as Hh. exists (ante_set (gmix h) (g_nodes h) i j). split.
    - intros v Hv. apply elem_of_ante_set in Hv as (H1 & H2 & H3 & _). rewrite (ext_nodes _ _ Hx) in H1. set_solver.
    - apply ante_separates; [by apply gmix_simple|by apply gmix_separate|apply Hx|by apply madj_nodes|done|done|].
      apply Hno; [by rewrite (ext_nodes _ _ Hx)..|done|done].
  Qed.
  Lemma ext_spouse x y : spouse (gmix h) x y ↔
    spouse (gmix g) x y ∨ (x ∈ N ∧ y ∈ N ∧ x ≠ y ∧ ¬ madj (gmix g) x y ∧ ∀ C, C ⊆ N ∖ {[x; y]} → ¬ msepd (gmix g) {[x]} {[y]} C).
  Proof using Hg Hx Hno.
    pose proof (ext_ok _ _ Hx) as Hh.
    assert (∀ x y, spouse (gmix g) x y → spouse (gmix h) x y) as Hmono.
    { intros u v. rewrite !spouse_upair by done. apply Hx. }
    assert (madj (gmix h) x y ↔ madj (gmix g) x y ∨ spouse (gmix h) x y) as Hadj.
    { unfold madj. rewrite (neighbor_upair h), (neighbor_upair g), (ext_un _ _ Hx) by done. cbn. rewrite (ext_dir _ _ Hx).
      specialize (Hmono x y). tauto. }
    split.
    - intros Hs. destruct (decide (spouse (gmix g) x y)) as [|Hn]; [by left|right].
      assert (madj (gmix h) x y) as Ha by (unfold madj; tauto).
      destruct (madj_nodes h Hh x y Ha) as [H1 H2]. rewrite (ext_nodes _ _ Hx) in H1, H2. split_and!; [done|done| | |].
      + intros ->. by apply (simple_irr _ (gmix_simple h Hh) y).
      + intros [H|[H|[H|H]]]; [| |done|].
        * destruct (simple_dir _ (gmix_simple h Hh) x y) as (_ & Hd & _); [|by apply Hd]. cbn. by rewrite (ext_dir _ _ Hx).
        * destruct (simple_dir _ (gmix_simple h Hh) y x) as (_ & Hd & _); [|by apply Hd, spouse_sym]. cbn. by rewrite (ext_dir _ _ Hx).
        * apply (simple_bi _ (gmix_simple h Hh) x y Hs). rewrite neighbor_upair, (ext_un _ _ Hx) by done. by rewrite neighbor_upair in H.
      + intros C HC. rewrite ext_msepd by set_solver. apply adj_not_sep; [set_solver|done].
    - intros [Hs|(H1 & H2 & H3 & H4 & H5)]; [by apply Hmono|].
      destruct (decide (spouse (gmix h) x y)) as [|Hn]; [done|]. exfalso.
      destruct (no_induced_sep x y H1 H2 H3) as (C & HC & Hsep); [tauto|]. apply (H5 C HC). apply ext_msepd; [set_solver|done].
  Qed.
End result.

Lemma binduced_no_sep g i j C :
  gok g → ancestral (gmix g) → i ∈ g_nodes g → j ∈ g_nodes g → i ≠ j → ¬ madj (gmix g) i j → binduced (gmix g) i j → i ∉ C →
  ¬ msepd (gmix g) {[i]} {[j]} C.
Proof.
  intros Hg Han Hi Hj Hne Hna Hb HC. destruct (add_induced g [(i, j)] Hg Han) as (h & _ & Hx & Hsp).
  { intros i' j' H%elem_of_list_singleton. injection H as -> ->. done. }
  rewrite (ext_msepd g h Hg Hx) by (clear -HC; set_solver). apply (adj_not_sep g h Hg Hx); [done|].
  right. right. left. apply Hsp. right. left. apply elem_of_list_here.
Qed.

Lemma no_induced_maximal g : gok g → ancestral (gmix g) → no_induced g ↔ maximal (g_nodes g) (gmix g).
Proof.
  intros Hg Han. split.
  - intros Hno x y Hx Hy Hne Hna. by apply (no_induced_sep g g Hg (ext_refl g Hg Han) Hno).
  - intros Hm i j Hi Hj Hne Hna Hb. destruct (Hm i j Hi Hj Hne Hna) as (C & HC & Hs).
    revert Hs. apply binduced_no_sep; try done. clear -HC. set_solver.
Qed.

(** ** The exhaustive variant *)
Lemma any_msep_spec g o p i j ls :
  gok g → i ≠ j → (∀ s, s ∈ ls → i ∉ s) →
  ∃ b, any_msep g o p i j ls = Ok b ∧ (b = true ↔ ∃ s, s ∈ ls ∧ msepd (gmix g) {[i]} {[j]} (list_to_set s)).
Proof.
  intros Hg Hne. induction ls as [|s ls IH]; intros Hs.
  { exists false. split; [done|]. split; [done|]. intros (s & H & _). by apply elem_of_nil in H. }
  cbn [any_msep]. assert (i ∉ s) as His by (apply Hs, elem_of_list_here).
  destruct (msep_spec g Hg o p {[i]} {[j]} (list_to_set s)) as (b & -> & Hb); [clear -Hne His; set_solver|]. cbn [res_bind].
  assert (({[i]} : nset) ∖ list_to_set s = {[i]}) as E by (clear -His; set_solver). rewrite E in Hb.
  destruct b.
  - exists true. split; [done|]. split; [|done]. intros _. exists s. split; [apply elem_of_list_here|by apply Hb].
  - destruct IH as (b & -> & Hb'); [intros t Ht; apply Hs; by apply elem_of_list_further|]. exists b. split; [done|]. rewrite Hb'. split.
    + intros (t & Ht & H). exists t. split; [by apply elem_of_list_further|done].
    + intros (t & [-> |Ht]%elem_of_cons & H); [by apply Hb in H|]. by exists t.
Qed.

Definition resolved (g : ag) (i j : node) : Prop :=
  madj (gmix g) i j ∨ ∃ C, C ⊆ g_nodes g ∖ {[i; j]} ∧ msepd (gmix g) {[i]} {[j]} C.
Lemma ext_resolved g h i j : gok g → ext g h → resolved g i j → resolved h i j.
Proof.
  intros Hg Hx [Ha|(C & HC & Hs)].
  - left. pose proof (ext_ok _ _ Hx) as Hh. unfold madj in *. rewrite (neighbor_upair h), (spouse_upair h), (ext_un _ _ Hx) by done.
    rewrite (neighbor_upair g), (spouse_upair g) in Ha by done. cbn in *. rewrite (ext_dir _ _ Hx). pose proof (ext_bi _ _ Hx) as Hb.
    destruct Ha as [H|[H|[H|H]]]; auto.
  - right. exists C. rewrite (ext_nodes _ _ Hx). split; [done|]. apply (ext_msepd g h Hg Hx); [clear -HC; set_solver|done].
Qed.
Lemma binduced_dec_nodes g (o : oracle) i j : gok g → ancestral (gmix g) → i ∈ g_nodes g → j ∈ g_nodes g → i ≠ j → ¬ madj (gmix g) i j →
  binduced (gmix g) i j ∨ ¬ binduced (gmix g) i j.
Proof.
  intros Hg Han Hi Hj Hne Hna. destruct (induced_pairs_spec g Hg Han o) as (l & _ & Hl1 & Hl2).
  destruct (decide ((i, j) ∈ l)) as [H|H1]; [left; by apply Hl1|].
  destruct (decide ((j, i) ∈ l)) as [H|H2]; [left; apply binduced_sym; by apply Hl1|].
  right. intros Hb. destruct (Hl2 i j Hi Hj Hne Hna Hb); tauto.
Qed.

Definition old_step (o : oracle) (p : popper (node * bool)) (e : node * node) : M ag unit := λ g,
  if has_any_edge g e.1 e.2 then (g, Ok tt)
  else match any_msep g o p e.1 e.2 (powerset (on o [100; e.1; e.2] (g_nodes g ∖ {[e.1; e.2]})) 0) with
       | Raise x => (g, Raise x)
       | Ok true => (g, Ok tt)
       | Ok false => add_bidirected e.1 e.2 g
       end.
Lemma old_step_spec o p i j g :
  gok g → ancestral (gmix g) → i ∈ g_nodes g → j ∈ g_nodes g → i ≠ j →
  ∃ h, old_step o p (i, j) g = (h, Ok tt) ∧ ext g h ∧ resolved h i j.
Proof.
  intros Hg Han Hi Hj Hne. unfold old_step. cbn [fst snd].
  destruct (has_any_edge g i j) eqn:Ea.
  { exists g. split; [done|]. split; [by apply ext_refl|]. left. by apply has_any_edge_spec. }
  assert (¬ madj (gmix g) i j) as Hna by (rewrite <-has_any_edge_spec by done; by rewrite Ea).
  set (ls := powerset (on o [100; i; j] (g_nodes g ∖ {[i; j]})) 0).
  assert (∀ s, s ∈ ls → list_to_set s ⊆ g_nodes g ∖ {[i; j]}) as Hls.
  { intros s [Hs _]%elem_of_powerset v Hv%elem_of_list_to_set. rewrite <-(elem_of_on o [100; i; j]).
    by eapply elem_of_submseteq, sublist_submseteq. }
  destruct (any_msep_spec g o p i j ls Hg Hne) as (b & -> & Hb).
  { intros s Hs Hv. apply (elem_of_list_to_set (C := nset)) in Hv. apply (Hls s Hs) in Hv. clear -Hv. set_solver. }
  destruct b.
  - exists g. split; [done|]. split; [by apply ext_refl|]. right. destruct Hb as [(s & Hs & Hsep) _]; [done|].
    exists (list_to_set s). split; [by apply Hls|done].
  - destruct (binduced_dec_nodes g o i j Hg Han Hi Hj Hne Hna) as [Hbi|Hbi].
    + destruct (add_induced g [(i, j)] Hg Han) as (h & E & Hx & Hsp).
      { intros i' j' H%elem_of_list_singleton. injection H as -> ->. done. }
      exists h. cbn [mfor fst snd] in E. unfold mthen, mbind' in E. split.
      * destruct (add_bidirected i j g) as [g1 [[]|e]]; [injection E as ->; done|discriminate E].
      * split; [done|]. left. right. right. left. apply Hsp. right. left. apply elem_of_list_here.
    + exfalso. assert (false = true) as H; [|done]. apply Hb.
      exists (filter (λ v, v ∈ ante_set (gmix g) (g_nodes g) i j) (on o [100; i; j] (g_nodes g ∖ {[i; j]}))). split.
      * apply elem_of_powerset. split; [apply filter_sublist|lia].
      * assert (list_to_set (filter (λ v, v ∈ ante_set (gmix g) (g_nodes g) i j) (on o [100; i; j] (g_nodes g ∖ {[i; j]}))) =
          ante_set (gmix g) (g_nodes g) i j) as ->.
        { apply set_eq. intros v. rewrite elem_of_list_to_set, elem_of_list_filter, elem_of_on. split; [tauto|]. intros Hv. split; [done|].
          apply elem_of_ante_set in Hv as (H1 & H2 & H3 & _). clear -H1 H2 H3. set_solver. }
        apply ante_separates; [by apply gmix_simple|by apply gmix_separate|done|by apply madj_nodes|done..].
Qed.

Lemma old_loop o p ps g :
  gok g → ancestral (gmix g) → (∀ i j, (i, j) ∈ ps → i ∈ g_nodes g ∧ j ∈ g_nodes g ∧ i ≠ j) →
  ∃ h, mfor ps (old_step o p) g = (h, Ok tt) ∧ ext g h ∧ ∀ i j, (i, j) ∈ ps → resolved h i j.
Proof.
  revert g. induction ps as [|[i j] ps IH]; intros g Hg Han Hps.
  { exists g. split; [done|]. split; [by apply ext_refl|]. intros i j H. by apply elem_of_nil in H. }
  destruct (Hps i j) as (Hi & Hj & Hne); [apply elem_of_list_here|].
  destruct (old_step_spec o p i j g Hg Han Hi Hj Hne) as (g1 & E & Hx & Hr).
  destruct (IH g1) as (h & E' & Hx' & Hr'); [apply Hx|apply Hx| |].
  { intros i' j' H. rewrite (ext_nodes _ _ Hx). apply Hps. by apply elem_of_list_further. }
  exists h. cbn [mfor]. unfold mthen, mbind'. rewrite E. split; [done|]. split; [by eapply ext_trans|].
  intros i' j' [H|H]%elem_of_cons; [|by apply Hr']. injection H as -> ->. eapply ext_resolved; [apply Hx|done|done].
Qed.
Lemma to_maximal_old_spec o p g :
  gok g → ancestral (gmix g) → ∃ h, to_maximal_old o p g = (h, Ok tt) ∧ ext g h ∧ no_induced h.
Proof.
  intros Hg Han. destruct (old_loop o p (combinations2 (on o [94] (g_nodes g))) g Hg Han) as (h & E & Hx & Hr).
  { intros i j Hij. apply combinations2_ne in Hij as (Hne & Hi & Hj); [|apply NoDup_on]. by rewrite !elem_of_on in *. }
  exists h. split; [exact E|]. split; [done|]. intros i j Hi Hj Hne Hna Hb.
  assert (∀ i j, i ∈ g_nodes h → j ∈ g_nodes h → i ≠ j → ¬ madj (gmix h) i j → binduced (gmix h) i j → resolved h i j → False) as Hgo.
  { clear i j Hi Hj Hne Hna Hb. intros i j Hi Hj Hne Hna Hb [|(C & HC & Hs)]; [done|].
    revert Hs. apply binduced_no_sep; [apply Hx|apply Hx|done..|]. clear -HC. set_solver. }
  destruct (combinations2_total (on o [94] (g_nodes g)) i j) as [[H _]|[H _]]; [apply NoDup_on| | |done| |].
  - by rewrite elem_of_on, <-(ext_nodes _ _ Hx).
  - by rewrite elem_of_on, <-(ext_nodes _ _ Hx).
  - by apply (Hgo i j), Hr.
  - apply (Hgo j i); [done|done|done| |by apply binduced_sym|by apply Hr]. intros Ha. apply Hna. by apply madj_sym.
Qed.
Lemma to_maximal_spec o g : gok g → ancestral (gmix g) → ∃ h, to_maximal o g = (h, Ok tt) ∧ ext g h ∧ no_induced h.
Proof. intros Hg Han. apply max_loop_spec; [done|done|lia]. Qed.
