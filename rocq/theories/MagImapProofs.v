(** Minimality of ancestral graphs without undirected edges can be decided by
    removing single edges. *)
From Verif Require Import Py Spec SpecDsep SpecMixed SpecMagImap TopoProofs StateProofs ReachProofs WalkProofs MWalkProofs InduceProofs GlobalProofs MagRemoveProofs.

Lemma binduced_reach (G : mixed) (C : nset) (x y : node) : ancestral G → binduced G x y → x ∉ C → mreach G C x y.
Proof.
  intros Han Hb HC. destruct (binduced_noanc G Han x y Hb) as [H1 H2].
  destruct (ip_traverse G ∅ (proj1 Han) x y C (disjoint_empty_r C) true false false) as (m & Hm & _).
  - by apply binduced_ip.
  - split; [done|]. intros H. by apply tc_rtc in H.
  - split; [done|]. intros H. by apply tc_rtc in H.
  - done.
  - by exists m.
Qed.

(** What is assumed of a graph: one of these on the nodes [N]. *)
Record mag (N : nset) (G : mixed) : Prop := Mag {
  mag_si : simple G;
  mag_un : mx_un G = ∅;
  mag_an : ancestral G;
  mag_N : ∀ x y, madj G x y → x ∈ N ∧ y ∈ N }.
Definition noind (N : nset) (G : mixed) : Prop :=
  ∀ x y, x ∈ N → y ∈ N → x ≠ y → ¬ madj G x y → ¬ binduced G x y.
(** The set of a pairwise statement. *)
Definition pset (D : arcset) (k l : node) (P : nset) : Prop :=
  ∀ x, x ∈ P ↔ (rtc (edge D) x k ∨ rtc (edge D) x l) ∧ x ≠ k ∧ x ≠ l.
Definition pwise (N : nset) (G H : mixed) : Prop :=
  ∀ k l P, k ∈ N → l ∈ N → k ≠ l → ¬ madj G k l → pset (mx_dir G) k l P → ¬ mreach H P k l.

Section one.
  Context (N : nset) (G : mixed) (HG : mag N G).
  Local Lemma mag_se : separate G.
  Proof using HG. intros x y z _ [H|H]; rewrite (mag_un _ _ HG) in H; clear -H; set_solver. Qed.
  Lemma mag_msepd A B C : A ## C → msepd G A B C ↔ ∀ a b, a ∈ A → b ∈ B → ¬ mreach G C a b.
  Proof using HG. apply msepd_reach; [apply HG|apply mag_se]. Qed.
  Lemma mag_rtcN a b : rtc (edge (mx_dir G)) a b → b ∈ N → a ∈ N.
  Proof using HG. intros Hr Hb. destruct Hr as [|a c b Hac' _]; [done|]. apply (mag_N _ _ HG a c). by left. Qed.
  Lemma pset_an2 k l P : k ∈ N → l ∈ N → pset (mx_dir G) k l P → P = an2 (mx_dir G) N k l ∖ {[k; l]}.
  Proof using HG.
    intros Hk Hl HP. apply set_eq. intros u. rewrite (HP u), elem_of_difference, elem_an2. split.
    - intros (H1 & H2 & H3). split; [|clear -H2 H3; set_solver]. split; [|done]. by destruct H1 as [H1|H1]; eapply mag_rtcN.
    - intros [[_ H1] H2]. split; [done|]. clear -H2. set_solver.
  Qed.
  Lemma an2_pset k l : k ∈ N → l ∈ N → pset (mx_dir G) k l (an2 (mx_dir G) N k l ∖ {[k; l]}).
  Proof using HG.
    intros Hk Hl u. rewrite elem_of_difference, elem_an2. split.
    - intros [[_ H1] H2]. split; [done|]. clear -H2. set_solver.
    - intros (H1 & H2 & H3). split; [|clear -H2 H3; set_solver]. split; [|done]. by destruct H1 as [H1|H1]; eapply mag_rtcN.
  Qed.
  Lemma noind_sep : noind N G → pwise N G G.
  Proof using HG.
    intros Hno k l P Hk Hl Hkl Hna HP.
    pose proof (ante_separates G (mag_si _ _ HG) mag_se (mag_an _ _ HG) N (mag_N _ _ HG) k l Hkl Hna (Hno k l Hk Hl Hkl Hna)) as Hs.
    assert (P = ante_set G N k l) as ->.
    { apply set_eq. intros u. rewrite elem_of_ante_set, (HP u).
      assert (∀ u v, rtc (ante G) u v ↔ rtc (edge (mx_dir G)) u v) as HR.
      { intros a b. apply rtc_iff. intros c d. unfold ante, neighbor. rewrite (mag_un _ _ HG). unfold edge. clear. set_solver. }
      rewrite !HR. split; [|tauto]. intros (H1 & H2 & H3). split_and!; [|done..]. destruct H1 as [H1|H1]; by eapply mag_rtcN. }
    rewrite mag_msepd in Hs; [apply Hs; by apply elem_of_singleton|].
    intros u ->%elem_of_singleton Hu. rewrite elem_of_ante_set in Hu. tauto.
  Qed.
  Lemma maximal_noind : maximal N G ↔ noind N G.
  Proof using HG.
    split.
    - intros Hm x y Hx Hy Hxy Hna Hb. destruct (Hm x y Hx Hy Hxy Hna) as (C & HC & Hs).
      rewrite mag_msepd in Hs by (clear -HC; set_solver). apply (Hs x y); [by apply elem_of_singleton..|].
      apply binduced_reach; [apply HG|done|]. clear -HC. set_solver.
    - intros Hno x y Hx Hy Hxy Hna. exists (an2 (mx_dir G) N x y ∖ {[x; y]}). split.
      + intros u Hu. rewrite elem_of_difference, elem_an2 in Hu. clear -Hu. set_solver.
      + rewrite mag_msepd by (clear; set_solver). intros a b ->%elem_of_singleton ->%elem_of_singleton.
        apply (noind_sep Hno x y); [done..|]. by apply an2_pset.
  Qed.
  Context (H : mixed) (HsH : simple H) (HeH : separate H).
  Lemma imap_pwise : noind N G → mag_imap N G H → pwise N G H.
  Proof using HG HsH HeH.
    intros Hno Him k l P Hk Hl Hkl Hna HP. pose proof (pset_an2 k l P Hk Hl HP) as EP.
    assert (({[k]} : nset) ## P) as HkP by (rewrite EP; clear; set_solver).
    assert (msepd H {[k]} {[l]} P) as Hs.
    { apply Him; [|done|rewrite EP; clear; set_solver|].
      - rewrite EP. intros u Hu. rewrite elem_of_union, elem_of_difference, elem_an2 in Hu. clear -Hu Hk Hl. set_solver.
      - rewrite mag_msepd by done. intros a b ->%elem_of_singleton ->%elem_of_singleton. by apply (noind_sep Hno k l). }
    rewrite msepd_reach in Hs by done. apply Hs; by apply elem_of_singleton.
  Qed.
  Lemma pwise_imap : pwise N G H → mag_imap N G H.
  Proof using HG HsH HeH.
    intros Hp A B C HN HAC HBC Hs. rewrite mag_msepd in Hs by done. rewrite msepd_reach by done. intros a b Ha Hb.
    assert (a ≠ b) as Hab. { intros ->. apply (Hs b b Ha Hb). exists true. apply rtc_refl. }
    apply (pairwise_global G H N); [apply HG|apply HG|apply HG|done| |clear -HN; set_solver|clear -HN HAC Ha; set_solver|clear -HN HBC Hb; set_solver|done|by apply Hs].
    intros i j P Hi Hj Hij Hna HP. by apply (Hp i j P).
  Qed.
End one.

(** ** Subgraphs *)
Section sub.
  Context (N : nset) (G G' : mixed) (HG : mag N G) (Hsub : sub_mixed G' G).
  Lemma sub_un x y : ¬ neighbor G' x y.
  Proof using HG Hsub. intros Hn. apply Hsub in Hn as [Hn|Hn]; rewrite (mag_un _ _ HG) in Hn; clear -Hn; set_solver. Qed.
  Lemma sub_rtc x y : rtc (edge (mx_dir G')) x y → rtc (edge (mx_dir G)) x y.
  Proof using Hsub. intros Hr. eapply rtc_subrel; [|exact Hr]. intros a b. apply Hsub. Qed.
  Lemma sub_tc x y : tc (edge (mx_dir G')) x y → tc (edge (mx_dir G)) x y.
  Proof using Hsub. intros Hr. eapply (tc_congruence (λ x, x)); [|exact Hr]. intros a b. apply Hsub. Qed.
  Lemma sub_adj x y : madj G' x y → madj G x y.
  Proof using Hsub. intros [H|[H|[H|H]]]; apply Hsub in H; unfold madj; tauto. Qed.
  Lemma sub_into x y : into G' x y → into G x y.
  Proof using Hsub. intros [H|H]; apply Hsub in H; [by left|by right]. Qed.
  Lemma sub_mag : mag N G'.
  Proof using HG Hsub.
    split.
    - split.
      + intros x Hx. apply (simple_irr _ (mag_si _ _ HG) x). by apply sub_adj.
      + intros x y Hxy. pose proof Hxy as H%(proj1 Hsub). apply (simple_dir _ (mag_si _ _ HG)) in H as (H1 & H2 & H3).
        split; [intros H; apply H1; by apply Hsub|]. split; intros H; [apply H2|apply H3]; by apply Hsub.
      + intros x y _. apply sub_un.
    - apply set_eq. intros [x y]. split; [|clear; set_solver]. intros Hn. destruct (sub_un x y). by left.
    - split.
      + intros v Hv. apply (proj1 (mag_an _ _ HG) v). by apply sub_tc.
      + intros x y Hs Hr. apply (proj2 (mag_an _ _ HG) x y); [by apply Hsub|by apply sub_rtc].
    - intros x y Ha. apply (mag_N _ _ HG). by apply sub_adj.
  Qed.
  Lemma sub_binduced x y : binduced G' x y → binduced G x y.
  Proof using Hsub.
    intros (a & b & H1 & H2 & H3 & H4 & H5). exists a, b. split_and!; [by apply Hsub|by apply Hsub|by apply sub_tc|by apply sub_tc|].
    eapply (tc_congruence (λ x, x)); [|exact H5]. intros u w [Hu Hw]. split; [by apply Hsub|]. destruct Hw as [Hw|Hw]; apply sub_tc in Hw; auto.
  Qed.

  (** A directed edge of [G] that [G'] lacks. *)
  Lemma missing_dir i j P : (i, j) ∈ mx_dir G → (i, j) ∉ mx_dir G' → pset (mx_dir G) i j P → ¬ mreach G' P i j.
  Proof using HG Hsub.
    intros Hij Hij' HP Hr. destruct (mag_N _ _ HG i j) as [Hi Hj]; [by left|].
    assert (i ≠ j) as Hne by (intros ->; apply (simple_irr _ (mag_si _ _ HG) j); by left).
    set (U := an2 (mx_dir G) N i j). rewrite (pset_an2 N G HG i j P Hi Hj HP) in Hr. fold U in Hr.
    assert (∀ u, u ∈ U → rtc (edge (mx_dir G)) u j) as HUj.
    { intros u Hu. unfold U in Hu. rewrite elem_an2 in Hu. destruct Hu as [_ [Hu|Hu]]; [|done]. by eapply rtc_r. }
    apply (reach_cc G' U) in Hr.
    - destruct Hr as [[H|[H|[H|H]]]|(v & w & H1 & H2 & H3 & H4)].
      + done.
      + apply Hsub in H. apply (simple_dir _ (mag_si _ _ HG)) in Hij as (? & _). done.
      + apply Hsub in H. apply (simple_dir _ (mag_si _ _ HG)) in Hij as (_ & ? & _). done.
      + by apply sub_un in H.
      + assert (w ∈ U) as Hw.
        { apply rtc_inv_r in H3 as [<-|(u & _ & _ & _ & Hw)]; done. }
        apply HUj in Hw. apply sub_into in H4 as [H4|H4].
        * apply (acyclic_rtc _ _ _ (proj1 (mag_an _ _ HG)) H4 Hw).
        * apply spouse_sym in H4. by apply (proj2 (mag_an _ _ HG) w j).
    - apply sub_mag.
    - intros a b Hab Hb. apply Hsub in Hab. unfold U in *. rewrite elem_an2 in *. split; [apply (mag_N _ _ HG a b); by left|].
      destruct Hb as [_ [Hb|Hb]]; [left|right]; by eapply rtc_l.
    - unfold U. rewrite elem_an2. split; [done|]. left. apply rtc_refl.
    - unfold U. rewrite elem_an2. split; [done|]. right. apply rtc_refl.
    - done.
  Qed.
End sub.

(** ** Removing one edge *)
Definition less_dir (G : mixed) (i j : node) : mixed := Mixed (mx_dir G ∖ {[(i, j)]}) (mx_bi G) (mx_un G).
Definition less_bi (G : mixed) (i j : node) : mixed := Mixed (mx_dir G) (mx_bi G ∖ {[(i, j); (j, i)]}) (mx_un G).
Lemma less_dir_sub G i j : sub_mixed (less_dir G i j) G.
Proof. split; [|done]. cbn. intros x y H. clear -H. set_solver. Qed.
Lemma less_bi_spouse G i j x y : spouse (less_bi G i j) x y ↔ spouse G x y ∧ (x, y) ≠ (i, j) ∧ (x, y) ≠ (j, i).
Proof.
  unfold spouse. cbn. rewrite !elem_of_difference, !not_elem_of_union, !not_elem_of_singleton. split.
  - intros [(H1 & H2 & H3)|(H1 & H2 & H3)]; (split; [auto|]); split; congruence.
  - intros [[H|H] [H1 H2]]; [left|right]; (split; [done|]); split; congruence.
Qed.
Lemma less_bi_sub G i j : sub_mixed (less_bi G i j) G.
Proof. split; [done|]. split; [|done]. intros x y H%less_bi_spouse. tauto. Qed.

Section main.
  Context (N : nset) (G H : mixed) (HG : mag N G) (Hno : noind N G) (HsH : simple H) (HeH : separate H) (Hpw : pwise N G H).
  Notation D := (mx_dir G).

  Lemma less_dir_noind i j : (i, j) ∈ D → noind N (less_dir G i j).
  Proof using HG Hno.
    intros Hij x y Hx Hy Hxy Hna Hb. pose proof (sub_binduced _ _ (less_dir_sub G i j) _ _ Hb) as HbG.
    pose proof (binduced_noanc G (mag_an _ _ HG) x y HbG) as [H1 H2].
    apply (Hno x y Hx Hy Hxy); [|done]. intros [Ha|[Ha|Ha]].
    - apply H1. by apply rtc_once.
    - apply H2. by apply rtc_once.
    - apply Hna. right. by right.
  Qed.
  Lemma less_dir_pwise i j : (i, j) ∈ D → (∀ P, pset D i j P → ¬ mreach H P i j) → pwise N (less_dir G i j) H.
  Proof using HG Hno Hpw HsH.
    intros Hij Hex. unfold pwise, pset. cbn.
    apply (remove_pairwise G N (λ W x y, ¬ mreach H W x y) i j); [apply HG|apply HG|apply HG|done| | | | | | | |done].
    - intros W x y z H1 H2 Hr. apply mreach_weaken in Hr as [?|?]; [by apply H1|by apply H2].
    - intros W x y z H1 H2 Hr. apply (mreach_contract H W x y z) in Hr as [?|?]; [by apply H1|by apply H2].
    - intros W x y z _ H1 H2 Hr. apply (mreach_intersect H W x y z) in Hr as [?|?]; [by apply H1|by apply H2].
    - intros W x y Hx Hy H1 Hr. apply H1. by apply mreach_sym.
    - intros W x y H1 H2. apply H1. auto.
    - exact (noind_sep N G HG Hno).
    - exact Hpw.
  Qed.
  Lemma less_bi_pwise i j : spouse G i j → (∀ P, pset D i j P → ¬ mreach H P i j) → pwise N (less_bi G i j) H.
  Proof using HG Hpw HsH.
    intros Hij Hex k l P Hk Hl Hkl Hna HP. cbn in HP.
    destruct (decide ((k, l) = (i, j))) as [[= -> ->]|H1]; [by apply Hex|].
    destruct (decide ((k, l) = (j, i))) as [[= -> ->]|H2].
    { intros Hr. apply (Hex P); [intros u; rewrite (HP u); tauto|]. apply mreach_sym; [done| |done]. intros Hi%HP. tauto. }
    apply (Hpw k l P); [done..| |done]. intros [Ha|[Ha|[Ha|Ha]]]; apply Hna; [by left|right; by left| |right; right; by right].
    right. right. left. rewrite less_bi_spouse. done.
  Qed.

  (** If some smaller graph will do, then one with one edge less. *)
  Lemma smaller_single G' : sub_mixed G' G → ¬ sub_mixed G G' → maximal N G' → mag_imap N G' H →
    (∃ i j, (i, j) ∈ D ∧ maximal N (less_dir G i j) ∧ mag_imap N (less_dir G i j) H) ∨
    (∃ i j, spouse G i j ∧ maximal N (less_bi G i j) ∧ mag_imap N (less_bi G i j) H).
  Proof using HG Hno Hpw HsH HeH.
    intros Hsub Hns Hm Him. pose proof (sub_mag N G G' HG Hsub) as HG'. apply (maximal_noind N G' HG') in Hm.
    pose proof (imap_pwise N G' HG' H HsH HeH Hm Him) as Hpw'.
    destruct (decide (D ∖ mx_dir G' = ∅)) as [ED|ED].
    2: { apply set_choose_L in ED as [[i j] Hij]. apply elem_of_difference in Hij as [Hij Hij'].
      left. exists i, j. split; [done|]. pose proof (sub_mag N G _ HG (less_dir_sub G i j)) as HL. split.
      - apply maximal_noind; [done|]. by apply less_dir_noind.
      - apply pwise_imap; [done..|]. apply less_dir_pwise; [done|]. intros P HP.
        pose proof (missing_dir N G G' HG Hsub i j P Hij Hij' HP) as Hn.
        destruct (mag_N _ _ HG i j) as [Hi Hj]; [by left|]. pose proof (pset_an2 N G HG i j P Hi Hj HP) as EP.
        assert (msepd H {[i]} {[j]} P) as Hs.
        { apply Him; [|rewrite EP; clear; set_solver|rewrite EP; clear; set_solver|].
          - rewrite EP. intros u Hu. rewrite elem_of_union, elem_of_difference, elem_an2 in Hu. clear -Hu Hi Hj. set_solver.
          - rewrite (mag_msepd N G' HG') by (rewrite EP; clear; set_solver). by intros a b ->%elem_of_singleton ->%elem_of_singleton. }
        rewrite msepd_reach in Hs; [|done|done|rewrite EP; clear; set_solver]. apply Hs; by apply elem_of_singleton. }
    assert (mx_dir G' = D) as HD.
    { apply set_eq. intros [x y]. split; [apply Hsub|]. intros Hxy. destruct (decide ((x, y) ∈ mx_dir G')) as [?|Hd]; [done|]. clear -ED Hxy Hd. set_solver. }
    right.
    set (X := filter (λ e : arc, (e.1, e.2) ∉ mx_bi G' ∧ (e.2, e.1) ∉ mx_bi G') (mx_bi G)).
    assert (∀ a b, spouse G a b → ¬ spouse G' a b → (a, b) ∈ X ∨ (b, a) ∈ X) as HX1.
    { intros a b [Hab|Hab] Hn; [left|right]; apply elem_of_filter; cbn; (split; [|done]); split; intros Hab'; apply Hn; unfold spouse; tauto. }
    assert (∀ a b, (a, b) ∈ X → spouse G a b ∧ ¬ spouse G' a b) as HX2.
    { intros a b [[H1 H2] H3]%elem_of_filter. cbn in *. split; [by left|]. intros [?|?]; done. }
    assert (∃ a b, (a, b) ∈ X ∧ ∀ c d, (c, d) ∈ X → size (an2 D N a b) ≤ size (an2 D N c d)) as (a & b & HabX & Hmin).
    { assert (X ≠ ∅) as HXne.
      { intros EX. apply Hns. split; [intros x y; by rewrite HD|]. split.
        - intros x y Hxy. destruct (decide (spouse G' x y)) as [?|Hd]; [done|]. apply HX1 in Hxy; [|done]. rewrite EX in Hxy. clear -Hxy. set_solver.
        - intros x y [Hn|Hn]; rewrite (mag_un _ _ HG) in Hn; clear -Hn; set_solver. }
      apply set_choose_L in HXne as [[a0 b0] H0]. clear -H0. clearbody X.
      remember (size (an2 D N a0 b0)) as n eqn:Hn. revert a0 b0 H0 Hn. induction n as [n IH] using (well_founded_induction lt_wf). intros a0 b0 H0 Hn.
      destruct (decide (set_Forall (λ e : arc, size (an2 D N a0 b0) ≤ size (an2 D N e.1 e.2)) X)) as [Hall|Hex].
      - exists a0, b0. split; [done|]. intros c d Hcd. apply (Hall _ Hcd).
      - apply not_set_Forall_Exists in Hex as ([c d] & Hcd & Hlt); [|apply _]. cbn in Hlt. apply (IH (size (an2 D N c d))) with c d; [lia|done|done]. }
    destruct (HX2 a b HabX) as [Hab Hab']. destruct (mag_N _ _ HG a b) as [Ha Hb]; [right; right; by left|].
    assert (a ≠ b) as Hne by (intros ->; apply (simple_irr _ (mag_si _ _ HG) b); right; right; by left).
    pose proof (mag_an _ _ HG) as Han. pose proof (proj1 Han) as Hac.
    assert (¬ rtc (edge D) a b) as Nab by by apply (proj2 Han).
    assert (¬ rtc (edge D) b a) as Nba by (apply (proj2 Han); by apply spouse_sym).
    assert (¬ madj G' a b) as Hna'.
    { intros [Hd|[Hd|[Hd|Hd]]].
      - apply Nab. apply rtc_once. by apply Hsub.
      - apply Nba. apply rtc_once. by apply Hsub.
      - done.
      - by apply (sub_un N G G' HG Hsub) in Hd. }
    exists a, b. split; [done|]. pose proof (sub_mag N G _ HG (less_bi_sub G a b)) as HL. split.
    2: { apply pwise_imap; [done..|]. apply less_bi_pwise; [done|]. intros P HP. apply (Hpw' a b P Ha Hb Hne Hna'). by rewrite HD. }
    apply maximal_noind; [done|].
    (* the edges of an inducing path are edges of the smaller graph *)
    assert (∀ u w, spouse (less_bi G a b) u w → (u = a ∨ u = b ∨ tc (edge D) u a ∨ tc (edge D) u b) → (tc (edge D) w a ∨ tc (edge D) w b) → spouse G' u w) as Hpath.
    { intros u w Huw Hu Hw. destruct (decide (spouse G' u w)) as [?|Hn]; [done|]. exfalso.
      rewrite less_bi_spouse in Huw. destruct Huw as (Huw & N1 & N2).
      assert (size (an2 D N a b) ≤ size (an2 D N u w)) as Hs.
      { destruct (HX1 u w Huw Hn) as [Hx|Hx]; apply Hmin in Hx; [done|].
        assert (an2 D N u w = an2 D N w u) as -> by (apply set_eq; intros x; rewrite !elem_an2; tauto). done. }
      assert (∀ x, tc (edge D) x a ∨ tc (edge D) x b → rtc (edge D) x a ∨ rtc (edge D) x b) as Htr by (intros x [Hx|Hx]; apply tc_rtc in Hx; auto).
      assert (∀ x, ¬ (tc (edge D) x a ∨ tc (edge D) x b) → True) as _ by done.
      assert (∀ x, tc (edge D) x a ∨ tc (edge D) x b → ¬ rtc (edge D) a x ∧ ¬ rtc (edge D) b x) as Hno2.
      { intros x [Hx|Hx]; split; intros Hr.
        - by eapply acyclic_tc_rtc.
        - apply Nba. etrans; [exact Hr|by apply tc_rtc].
        - apply Nab. etrans; [exact Hr|by apply tc_rtc].
        - by eapply acyclic_tc_rtc. }
      assert (an2 D N u w ⊂ an2 D N a b) as Hlt%subset_size; [|lia].
      assert (rtc (edge D) u a ∨ rtc (edge D) u b) as Hu' by (destruct Hu as [->|[->|Hu]]; [left; apply rtc_refl|right; apply rtc_refl|by apply Htr]).
      pose proof (Htr w Hw) as Hw'. split.
      - intros x. rewrite !elem_an2. intros [Hx [Hr|Hr]]; (split; [done|]).
        + destruct Hu' as [Hu'|Hu']; [left|right]; by etrans.
        + destruct Hw' as [Hw'|Hw']; [left|right]; by etrans.
      - intros Hs'. destruct (Hno2 w Hw) as [W1 W2].
        assert (a ∈ an2 D N u w) as Ia by (apply Hs'; rewrite elem_an2; split; [done|left; apply rtc_refl]).
        assert (b ∈ an2 D N u w) as Ib by (apply Hs'; rewrite elem_an2; split; [done|right; apply rtc_refl]).
        rewrite elem_an2 in Ia, Ib. destruct Ia as [_ [Ia|Ia]]; [|done]. destruct Ib as [_ [Ib|Ib]]; [|done].
        destruct Hu as [->|[->|Hu]]; [done|done|]. by destruct (Hno2 u Hu). }
    intros x y Hx Hy Hxy Hna Hbi. pose proof (sub_binduced _ _ (less_bi_sub G a b) _ _ Hbi) as HbG.
    assert (binduced (less_bi G a b) a b) as Hbab.
    { destruct (decide ((x, y) = (a, b))) as [[= -> ->]|N1]; [done|]. destruct (decide ((x, y) = (b, a))) as [[= -> ->]|N2]; [by apply binduced_sym|].
      exfalso. apply (Hno x y Hx Hy Hxy); [|done]. intros [Hd|[Hd|[Hd|Hd]]]; apply Hna; [by left|right; by left| |right; right; by right].
      right. right. left. by rewrite less_bi_spouse. }
    apply (Hm a b Ha Hb Hne Hna'). destruct Hbab as (c & d & H1 & H2 & H3 & H4 & H5). cbn in H3, H4.
    exists c, d. rewrite !HD. split; [apply Hpath; auto|]. split; [apply Hpath; auto|]. split; [done|]. split; [done|].
    assert (∀ u w, tc (λ u w, spouse (less_bi G a b) u w ∧ (tc (edge D) w a ∨ tc (edge D) w b)) u w → tc (edge D) u a ∨ tc (edge D) u b →
      tc (λ u w, spouse G' u w ∧ (tc (edge D) w a ∨ tc (edge D) w b)) u w) as Hgo; [|apply Hgo; [exact H5|by right]].
    clear -Hpath. intros u w Hr. induction Hr as [u w [Huw Hw]|u v w [Huv Hv] _ IH]; intros Hu.
    - apply tc_once. split; [|done]. apply Hpath; tauto.
    - eapply tc_l; [|by apply IH]. split; [|done]. apply Hpath; tauto.
  Qed.

  (** The independence tested for an edge. *)
  Lemma less_dir_tests i j P : (i, j) ∈ D → pset D i j P → mag_imap N (less_dir G i j) H ↔ ¬ mreach H P i j.
  Proof using HG Hno Hpw HsH HeH.
    intros Hij HP. pose proof (less_dir_sub G i j) as Hsub. pose proof (sub_mag N G _ HG Hsub) as HL.
    destruct (mag_N _ _ HG i j) as [Hi Hj]; [by left|]. pose proof (pset_an2 N G HG i j P Hi Hj HP) as EP. split.
    - intros Him. assert (msepd H {[i]} {[j]} P) as Hs.
      { apply Him; [|rewrite EP; clear; set_solver|rewrite EP; clear; set_solver|].
        - rewrite EP. intros u Hu. rewrite elem_of_union, elem_of_difference, elem_an2 in Hu. clear -Hu Hi Hj. set_solver.
        - rewrite (mag_msepd N _ HL) by (rewrite EP; clear; set_solver). intros a b ->%elem_of_singleton ->%elem_of_singleton.
          apply (missing_dir N G _ HG Hsub i j P Hij); [|done]. cbn. clear. set_solver. }
      rewrite msepd_reach in Hs; [|done|done|rewrite EP; clear; set_solver]. apply Hs; by apply elem_of_singleton.
    - intros Hn. apply pwise_imap; [done..|]. apply less_dir_pwise; [done|]. intros Q HQ. assert (Q = P) as ->; [|done].
      apply set_eq. intros u. by rewrite (HP u), (HQ u).
  Qed.
  Lemma less_bi_tests i j P : spouse G i j → pset D i j P → maximal N (less_bi G i j) → mag_imap N (less_bi G i j) H ↔ ¬ mreach H P i j.
  Proof using HG Hno Hpw HsH HeH.
    intros Hij HP Hm. pose proof (sub_mag N G _ HG (less_bi_sub G i j)) as HL. apply (maximal_noind N _ HL) in Hm.
    destruct (mag_N _ _ HG i j) as [Hi Hj]; [right; right; by left|].
    assert (i ≠ j) as Hne by (intros ->; apply (simple_irr _ (mag_si _ _ HG) j); right; right; by left). split.
    - intros Him. apply (imap_pwise N _ HL H HsH HeH Hm Him i j P Hi Hj Hne); [|done]. intros [Hd|[Hd|[Hd|Hd]]]; cbn in Hd.
      + by apply (simple_dir _ (mag_si _ _ HG)) in Hd as (_ & ? & _).
      + apply (simple_dir _ (mag_si _ _ HG)) in Hd as (_ & Hd & _). apply Hd. by apply spouse_sym.
      + apply less_bi_spouse in Hd. tauto.
      + destruct Hd as [Hd|Hd]; cbn in Hd; rewrite (mag_un _ _ HG) in Hd; clear -Hd; set_solver.
    - intros Hn. apply pwise_imap; [done..|]. apply less_bi_pwise; [done|]. intros Q HQ. assert (Q = P) as ->; [|done].
      apply set_eq. intros u. by rewrite (HP u), (HQ u).
  Qed.
End main.
