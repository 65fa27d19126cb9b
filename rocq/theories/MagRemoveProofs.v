(** Removing one edge of a maximal ancestral graph without undirected edges: the
    pairwise Markov property of the remaining graph follows from the one of the
    given graph and one further independence. *)
From Verif Require Import Py Spec SpecDsep SpecMixed TopoProofs StateProofs ReachProofs WalkProofs MWalkProofs InduceProofs GlobalProofs.

(** ** m-connection given all of an ancestral set *)
Lemma reach_cc (G : mixed) (U : nset) (x y : node) :
  mx_un G = ∅ → anclosed G U → x ∈ U → y ∈ U → x ≠ y → mreach G (U ∖ {[x; y]}) x y → cc G U x y.
Proof.
  intros HU Hc Hx Hy Hxy [m Hr].
  assert (∀ a b, ¬ neighbor G a b) as Hnn by (intros a b; unfold neighbor; rewrite HU; clear; set_solver).
  set (C := U ∖ {[x; y]}) in *.
  assert (∀ v, v ∈ U → v ≠ x → v ≠ y → v ∈ C) as HC by (intros v ? ? ?; unfold C; clear -H H0 H1; set_solver).
  assert (∀ s, rtc (mstep G C) (x, true) s → cc G U x y ∨ (s.1 = x ∨ (s.1 ∉ U ∧ s.2 = false) ∨
    (s.1 ∈ C ∧ (s.2 = true ∨ ∃ v0, into G x v0 ∧ v0 ∈ U ∧ rtc (ustep G U) v0 s.1)))) as Hinv.
  { refine (rtc_ind_r _ _ _ _); [right; by left|]. intros [u mu] [w mw] _ (k & He & Hp) [IH|IH]; [by left|]. cbn [fst snd] in *.
    assert (madj G u w) as Ha by (apply madj_medge; by exists k, mw).
    destruct IH as [->|[[Hu ->]|[HuC IH]]].
    - destruct (decide (w = y)) as [->|Hwy]; [left; by left|]. destruct (decide (w = x)) as [->|Hwx]; [right; by left|]. right. right.
      destruct (decide (w ∈ U)) as [Hw|Hw].
      + right. split; [by apply HC|]. destruct mw; [by left|right]. exists w. split; [|split; [done|apply rtc_refl]].
        destruct k; cbn in He; [by left|by right].
      + left. split; [done|]. destruct mw; [|done]. destruct k; cbn in He; [by apply Hnn in He|]. destruct Hw. by apply (Hc w x).
    - right. right. left. unfold pass in Hp. destruct k; cbn [orb] in Hp.
      + destruct mw; cbn in He; [by apply Hnn in He|]. split; [|done]. intros Hw. apply Hu. by apply (Hc u w).
      + destruct Hp as (c & Hcc & Hrc). destruct Hu. apply (anclosed_rtc G U u c Hc Hrc). unfold C in Hcc. clear -Hcc. set_solver.
    - assert (mu = false ∧ k = false) as [-> ->].
      { unfold pass in Hp. destruct mu, k; cbn [orb] in Hp; (by split) || by destruct Hp. }
      destruct IH as [?|(v0 & V1 & V2 & V3)]; [done|]. assert (u ∈ U) as Hu by (clear -HuC; unfold C in HuC; set_solver).
      assert (into G w u) as Hwu by (destruct mw; cbn in He; [by left|right; by apply spouse_sym]).
      destruct (decide (w = y)) as [->|Hwy]; [left; right; exists v0, u; done|]. destruct (decide (w = x)) as [->|Hwx]; [right; by left|]. right. right.
      destruct mw; cbn in He.
      + right. split; [|by left]. apply HC; [by apply (Hc w u)|done|done].
      + destruct (decide (w ∈ U)) as [Hw|Hw]; [|by left]. right. split; [by apply HC|]. right. exists v0. split; [done|]. split; [done|].
        eapply rtc_r; [exact V3|]. done. }
  destruct (Hinv _ Hr) as [?|[H|[[H _]|[H _]]]]; [done|..]; cbn in H.
  - by symmetry in H.
  - done.
  - unfold C in H. clear -H. set_solver.
Qed.
Lemma cc_reach (G : mixed) (U : nset) (x y : node) :
  mx_un G = ∅ → x ∈ U → y ∈ U → x ≠ y → (∀ u, u ∈ U → rtc (edge (mx_dir G)) u x ∨ rtc (edge (mx_dir G)) u y) →
  cc G U x y → mreach G (U ∖ {[x; y]}) x y.
Proof.
  intros HU Hx Hy Hxy Hall Hcc. apply (aug_reach G HU U); [|done|].
  - intros u Hu. right. by apply Hall.
  - apply rtc_once. split; [done|]. clear -Hx Hy. set_solver.
Qed.
Lemma cc_sub (G G' : mixed) (U U' : nset) (x y : node) :
  (∀ a b k m, medge G' a b k m → medge G a b k m) → U' ⊆ U → cc G' U' x y → cc G U x y.
Proof.
  intros HE HU [Ha|(v & w & H1 & H2 & H3 & H4)].
  - left. apply madj_medge. apply madj_medge in Ha as (k & m & Ha). exists k, m. by apply HE.
  - assert (∀ a b, into G' a b → into G a b) as Hi by (intros a b [Hab|Hab]; [left; by apply (HE a b true false)|right; by apply (HE a b false false)]).
    right. exists v, w. split; [by apply Hi|]. split; [by apply HU|]. split; [|by apply Hi].
    eapply rtc_subrel; [|exact H3]. intros a b (S1 & S2 & S3). split; [by apply (HE a b false false)|]. split; by apply HU.
Qed.

(** ** Ancestors after removing a directed edge *)
Lemma rtc_cut (D : arcset) (i j u v : node) :
  rtc (edge D) u v → rtc (edge (D ∖ {[(i, j)]})) u v ∨ (rtc (edge (D ∖ {[(i, j)]})) u i ∧ rtc (edge (D ∖ {[(i, j)]})) j v).
Proof.
  intros Hr. induction Hr as [|u w v Huw _ IH]; [left; apply rtc_refl|].
  destruct (decide ((u, w) = (i, j))) as [[= -> ->]|Hne].
  - right. split; [apply rtc_refl|]. by destruct IH as [?|[_ ?]].
  - assert (edge (D ∖ {[(i, j)]}) u w) as He by (unfold edge in *; clear -Huw Hne; set_solver).
    destruct IH as [?|[? ?]]; [left; by eapply rtc_l|right; split; [by eapply rtc_l|done]].
Qed.
Lemma rtc_uncut (D : arcset) (i j u v : node) : rtc (edge (D ∖ {[(i, j)]})) u v → rtc (edge D) u v.
Proof. intros Hr. eapply rtc_subrel; [|exact Hr]. intros a b Hab. unfold edge in *. clear -Hab. set_solver. Qed.

(** The nodes of [N] that are [x] or [y] or ancestors of one of them. *)
Definition an2 (D : arcset) (N : nset) (x y : node) : nset :=
  filter (λ u, set_Exists (λ c, u = c ∨ reachb D u c = true) ({[x; y]} : nset)) N.
Lemma elem_an2 D N x y u : u ∈ an2 D N x y ↔ u ∈ N ∧ (rtc (edge D) u x ∨ rtc (edge D) u y).
Proof.
  unfold an2. rewrite elem_of_filter.
  assert (∀ c, (u = c ∨ reachb D u c = true) ↔ rtc (edge D) u c) as Hc.
  { intros c. rewrite reachb_spec. split; [intros [->|H]; [apply rtc_refl|by apply tc_rtc]|]. intros H. by apply rtc_tc in H. }
  split.
  - intros [(c & Hin & Hu) HN]. apply Hc in Hu. split; [done|]. apply elem_of_union in Hin as [->%elem_of_singleton| ->%elem_of_singleton]; auto.
  - intros [HN [Hu|Hu]]; (split; [|done]); [exists x|exists y]; (split; [clear; set_solver|by apply Hc]).
Qed.

(** ** Removing a directed edge *)
Section remove.
  Context (G : mixed) (N : nset) (I : nset → node → node → Prop) (i j : node).
  Notation D := (mx_dir G).
  Notation G' := (Mixed (D ∖ {[(i, j)]}) (mx_bi G) (mx_un G)).
  Notation D' := (D ∖ {[(i, j)]}).
  Context (HU : mx_un G = ∅) (Han : ancestral G) (HN : ∀ x y, madj G x y → x ∈ N ∧ y ∈ N).
  Context (Hij : (i, j) ∈ D).
  Context (Icomp : ∀ W x y z, I W x y → I W x z → I (W ∪ {[z]}) x y).
  Context (Icontr : ∀ W x y z, I W x y → I (W ∪ {[y]}) x z → I W x z).
  Context (Iint : ∀ W x y z, y ≠ z → I (W ∪ {[z]}) x y → I (W ∪ {[y]}) x z → I W x y).
  Context (Isym : ∀ W x y, x ∉ W → y ∉ W → I W x y → I W y x).
  Context (Istab : ∀ W x y, ¬ ¬ I W x y → I W x y).
  Context (Hmax : ∀ k l P, k ∈ N → l ∈ N → k ≠ l → ¬ madj G k l →
    (∀ x, x ∈ P ↔ (rtc (edge D) x k ∨ rtc (edge D) x l) ∧ x ≠ k ∧ x ≠ l) → ¬ mreach G P k l).
  Context (Hpw : ∀ k l P, k ∈ N → l ∈ N → k ≠ l → ¬ madj G k l →
    (∀ x, x ∈ P ↔ (rtc (edge D) x k ∨ rtc (edge D) x l) ∧ x ≠ k ∧ x ≠ l) → I P k l).
  Context (Hex : ∀ P, (∀ x, x ∈ P ↔ (rtc (edge D) x i ∨ rtc (edge D) x j) ∧ x ≠ i ∧ x ≠ j) → I P i j).

  Local Lemma sub_medge a b k m : medge G' a b k m → medge G a b k m.
  Proof using. destruct k, m; cbn; try done; clear; set_solver. Qed.
  Local Lemma Hac : acyclic D. Proof using Han. apply Han. Qed.
  Local Lemma Hac' : acyclic D'.
  Proof using Han. intros v Hv. apply (Hac v). eapply (tc_congruence (λ x, x)); [|exact Hv]. intros a b Hab. unfold edge in *. clear -Hab. set_solver. Qed.
  Local Lemma acy a b : rtc (edge D) a b → rtc (edge D) b a → a = b.
  Proof using Han.
    intros H1 H2. apply rtc_tc in H1 as [->|H1]; [done|]. exfalso. eapply acyclic_tc_rtc; [apply Hac|exact H1|exact H2].
  Qed.
  Local Lemma rtcN a b : rtc (edge D) a b → b ∈ N → a ∈ N.
  Proof using HN. intros Hr Hb. destruct Hr as [|a c b Hac' _]; [done|]. apply (HN a c). by left. Qed.

  Local Lemma full U x y : U ⊆ N → anclosed G U → x ∈ U → y ∈ U → x ≠ y → ¬ cc G U x y → I (U ∖ {[x; y]}) x y.
  Proof using HU Han Hpw Icomp Icontr Iint Isym Istab. intros HUN Hc. by apply (pairwise_aug G N I HU Hac Icomp Icontr Iint Isym Istab Hpw). Qed.

  (** Conditionally on the rest, pairwise and jointly are the same. *)
  Local Lemma joint x (V Y : nset) : (∀ y, y ∈ Y → I (V ∖ {[y]}) x y) → ∀ Y', Y' ⊆ Y → Y ⊆ V → ∀ y, y ∈ Y' → I (V ∖ Y') x y.
  Proof using Iint.
    clear -Iint. intros Hall Y'. remember (size Y') as n eqn:Hn. revert Y' Hn. induction n as [n IH] using (well_founded_induction lt_wf).
    intros Y' Hn HY HV y Hy. destruct (decide (Y' = {[y]})) as [->|Hne]; [by apply Hall, HY|].
    assert (∃ z, z ∈ Y' ∧ z ≠ y) as (z & Hz & Hzy).
    { destruct (decide (Y' ∖ {[y]} = ∅)) as [E|E].
      - exfalso. apply Hne. apply set_eq. intros u. rewrite elem_of_singleton. split; [|by intros ->]. intros Hu. destruct (decide (u = y)) as [?|Hd]; [done|]. clear -E Hu Hd. set_solver.
      - apply set_choose_L in E as [z Hz]. exists z. clear -Hz. set_solver. }
    assert (∀ w, w ∈ Y' → size (Y' ∖ {[w]}) < n) as Hs.
    { intros w Hw. rewrite Hn. apply subset_size. clear -Hw. set_solver. }
    assert (∀ w, w ∈ Y' → V ∖ Y' ∪ {[w]} = V ∖ (Y' ∖ {[w]})) as He.
    { intros w Hw. assert (w ∈ V) as HwV by (by apply HV, HY). apply set_eq. intros u. destruct (decide (u = w)) as [->|Hd]; [clear -Hw HwV; set_solver|clear -Hw HwV Hd; set_solver]. }
    apply (Iint _ x y z); [done| |].
    - rewrite He by done. eapply IH; [by apply (Hs z)|done|clear -HY; set_solver|done|clear -Hy Hzy; set_solver].
    - rewrite He by done. eapply IH; [by apply (Hs y)|done|clear -HY; set_solver|done|clear -Hz Hzy; set_solver].
  Qed.

  (** When [l] is an ancestor of [k], the ancestors of [k] that are lost are separated from [k]. *)
  Local Lemma below k l : k ∈ N → l ∈ N → k ≠ l → ¬ madj G' k l → rtc (edge D) l k → I (an2 D' N k l ∖ {[k; l]}) k l.
  Proof using HU Han HN Hij Icomp Icontr Iint Isym Istab Hpw Hex.
    intros Hk Hl Hkl Hna Hlk. set (U := an2 D N k l). set (C := an2 D' N k l).
    assert (∀ u, u ∈ U ↔ rtc (edge D) u k) as HUk.
    { intros u. unfold U. rewrite elem_an2. split; [|intros Hu; split; [by eapply rtcN|by left]]. intros [_ [Hu|Hu]]; [done|by etrans]. }
    assert (C ⊆ U) as HCU.
    { intros u Hu. unfold C in Hu. rewrite elem_an2 in Hu. unfold U. rewrite elem_an2. split; [by apply Hu|]. destruct Hu as [_ [Hu|Hu]]; apply rtc_uncut in Hu; auto. }
    assert (U ⊆ N) as HUN by (intros u Hu; unfold U in Hu; rewrite elem_an2 in Hu; by apply Hu).
    assert (anclosed G U) as HcU.
    { intros a b Hab Hb. rewrite HUk in *. by eapply rtc_l. }
    assert (∀ b, b ∈ U → b ≠ k → ¬ (b, k) ∈ D → ¬ cc G U k b) as Hncc.
    { intros b Hb Hbk Hnb Hcc.
      assert (∀ v, v ∈ U → ¬ into G k v) as Hi.
      { intros v Hv%HUk [Hkv|Hkv]; [|by apply (proj2 Han v k (spouse_sym _ _ _ Hkv))].
        apply (acyclic_rtc _ k v Hac Hkv Hv). }
      destruct Hcc as [[Ha|[Ha|[Ha|Ha]]]|(v & w & H1 & H2 & _)].
      - apply (Hi b Hb). by left.
      - done.
      - apply (Hi b Hb). by right.
      - unfold neighbor in Ha. rewrite HU in Ha. clear -Ha. set_solver.
      - by apply (Hi v). }
    assert (∀ b, b ∈ C → True) as _ by done.
    set (Y := (U ∖ C) ∪ {[l]}).
    assert (k ∈ C) as HkC by (unfold C; rewrite elem_an2; split; [done|left; apply rtc_refl]).
    assert (l ∈ C) as HlC by (unfold C; rewrite elem_an2; split; [done|right; apply rtc_refl]).
    assert (∀ y, y ∈ Y → I ((U ∖ {[k]}) ∖ {[y]}) k y) as HY.
    { intros y Hy. assert (y ∈ U) as HyU by (unfold Y in Hy; clear -Hy HCU HlC; set_solver).
      assert (y ≠ k) as Hyk by (intros ->; unfold Y in Hy; clear -Hy HkC Hkl; set_solver).
      replace ((U ∖ {[k]}) ∖ {[y]}) with (U ∖ {[k; y]}) by (clear; set_solver).
      destruct (decide ((y, k) ∈ D)) as [Hyd|Hyd].
      - destruct (decide ((y, k) = (i, j))) as [[= -> ->]|Hne].
        + assert (I (U ∖ {[i; j]}) i j) as Hx.
          { apply Hex. intros x. rewrite elem_of_difference, HUk. split.
            - intros [H1 H2]. split; [by right|]. clear -H2. set_solver.
            - intros (H1 & H2 & H3). split; [|clear -H2 H3; set_solver]. destruct H1 as [H1|H1]; [|done]. eapply rtc_r; [exact H1|done]. }
          replace (U ∖ {[j; i]}) with (U ∖ {[i; j]}) by (clear; set_solver). apply Isym; [clear; set_solver|clear; set_solver|done].
        + exfalso. unfold Y in Hy. apply elem_of_union in Hy as [Hy|Hy%elem_of_singleton].
          * apply elem_of_difference in Hy as [_ Hy]. apply Hy. unfold C. rewrite elem_an2. split; [by apply HUN|]. left. apply rtc_once. unfold edge. clear -Hyd Hne. set_solver.
          * subst y. apply Hna. right. left. cbn. clear -Hyd Hne. set_solver.
      - apply full; [done|done| | |done|by apply Hncc]; [rewrite HUk; apply rtc_refl|done]. }
    replace (C ∖ {[k; l]}) with ((U ∖ {[k]}) ∖ Y).
    - apply (joint k (U ∖ {[k]}) Y HY Y); [done| |unfold Y; clear; set_solver]. unfold Y. clear -HkC HlC HCU Hkl. set_solver.
    - apply set_eq. intros u. unfold Y. destruct (decide (u ∈ C)) as [Hu|Hu]; [pose proof (HCU _ Hu)|]; clear -Hu HCU; set_solver.
  Qed.

  (** Two nodes none of which is an ancestor of the other. *)
  Local Lemma aside k l : k ∈ N → l ∈ N → k ≠ l → ¬ madj G k l → ¬ rtc (edge D) l k → ¬ rtc (edge D) k l →
    (∀ x y, x ∈ an2 D N k l → y ∈ an2 D N k l → x ≠ y → ¬ madj G' x y → an2 D N x y ⊂ an2 D N k l → I (an2 D' N x y ∖ {[x; y]}) x y) →
    I (an2 D' N k l ∖ {[k; l]}) k l.
  Proof using HU Han HN Hij Icomp Icontr Iint Isym Istab Hpw Hex Hmax.
    intros Hk Hl Hkl Hna Hlk Hnkl IH. set (U := an2 D N k l) in *. set (C := an2 D' N k l).
    assert (C ⊆ U) as HCU.
    { intros u Hu. unfold C in Hu. rewrite elem_an2 in Hu. unfold U. rewrite elem_an2. split; [by apply Hu|]. destruct Hu as [_ [Hu|Hu]]; apply rtc_uncut in Hu; auto. }
    assert (U ⊆ N) as HUN by (intros u Hu; unfold U in Hu; rewrite elem_an2 in Hu; by apply Hu).
    assert (anclosed G U) as HcU.
    { intros a b Hab Hb. unfold U in *. rewrite elem_an2 in *. split; [apply (HN a b); by left|]. destruct Hb as [_ [Hb|Hb]]; [left|right]; by eapply rtc_l. }
    assert (anclosed G' C) as HcC.
    { intros a b Hab Hb. cbn in Hab. unfold C in *. rewrite elem_an2 in *.
      split; [apply (HN a b); left; clear -Hab; set_solver|]. destruct Hb as [_ [Hb|Hb]]; [left|right]; by eapply rtc_l. }
    assert (k ∈ C) as HkC by (unfold C; rewrite elem_an2; split; [done|left; apply rtc_refl]).
    assert (l ∈ C) as HlC by (unfold C; rewrite elem_an2; split; [done|right; apply rtc_refl]).
    assert (usink G U k) as HsK.
    { split; [by apply HCU|]. intros w Hw Hkw. unfold U in Hw. rewrite elem_an2 in Hw. destruct Hw as [_ [Hw|Hw]].
      - apply (acyclic_rtc _ k w Hac Hkw Hw).
      - apply Hnkl. by eapply rtc_l. }
    assert (usink G U l) as HsL.
    { split; [by apply HCU|]. intros w Hw Hlw. unfold U in Hw. rewrite elem_an2 in Hw. destruct Hw as [_ [Hw|Hw]].
      - apply Hlk. by eapply rtc_l.
      - apply (acyclic_rtc _ l w Hac Hlw Hw). }
    assert (¬ cc G U k l) as Hncc.
    { intros Hcc. apply cc_reach in Hcc; [|done|by apply HCU|by apply HCU|done|].
      - revert Hcc. apply (Hmax k l); [done..|]. intros x. rewrite elem_of_difference. unfold U. rewrite elem_an2. split.
        + intros [[_ H1] H2]. split; [done|]. clear -H2. set_solver.
        + intros (H1 & H2 & H3). split; [|clear -H2 H3; set_solver]. split; [|done]. by destruct H1 as [H1|H1]; eapply rtcN.
      - intros u Hu. unfold U in Hu. rewrite elem_an2 in Hu. by apply Hu. }
    (* the property on ancestral sets that lack one of the two *)
    assert (∀ z M, (z = k ∨ z = l) → M = U ∖ {[z]} → ∀ V, V ⊆ M → anclosed G' V → ∀ x y, x ∈ V → y ∈ V → x ≠ y → ¬ cc G' V x y → I (V ∖ {[x; y]}) x y) as Hsub.
    { intros z M Hz HM V HV HcV.
      assert (anclosed G M) as HcM by (subst M; apply anclosed_sink; [done|by destruct Hz as [->| ->]]).
      apply (pairwise_aug G' M I HU Hac' Icomp Icontr Iint Isym Istab); [|done|done]. cbn.
      intros x y P Hx Hy Hxy Hnaxy HP.
      assert (∀ u, (rtc (edge D) u x ∨ rtc (edge D) u y) → u ∈ M) as HuM by (intros u [Hu|Hu]; eapply (anclosed_rtc G); eauto).
      assert (an2 D N x y ⊆ M) as Hsm by (intros u Hu; rewrite elem_an2 in Hu; apply HuM; apply Hu).
      assert (M ⊆ U) as HMU by (subst M; clear; set_solver).
      replace P with (an2 D' N x y ∖ {[x; y]}).
      - apply IH; [by apply HMU|by apply HMU|done|done|]. split; [by etrans|]. intros Hs.
        assert (z ∈ U) as HzU by (destruct Hz as [->| ->]; by apply HCU). apply Hs, Hsm in HzU. subst M. clear -HzU. set_solver.
      - apply set_eq. intros u. rewrite elem_of_difference, elem_an2, HP. split.
        + intros [[_ H1] H2]. split; [done|]. clear -H2. set_solver.
        + intros (H1 & H2 & H3). split; [|clear -H2 H3; set_solver]. split; [|done].
          assert (rtc (edge D) u x ∨ rtc (edge D) u y) as H4 by (destruct H1 as [H1|H1]; apply rtc_uncut in H1; auto).
          apply HUN, HMU. by apply HuM. }
    assert (∀ z V, V ⊆ U → anclosed G' V → usink G U z → anclosed G' (V ∖ {[z]})) as Hcz.
    { intros z V HV Hc [_ Hs] a b Hab Hb. apply elem_of_difference in Hb as [Hb1 Hb2]. apply elem_of_difference. split; [by apply (Hc a b)|].
      intros ->%elem_of_singleton. apply (Hs b); [by apply HV|]. cbn in Hab. clear -Hab. set_solver. }
    assert (∀ n V, size (V ∖ C) = n → C ⊆ V → V ⊆ U → anclosed G' V → I (V ∖ {[k; l]}) k l → I (C ∖ {[k; l]}) k l) as Helim.
    { induction n as [n IHn] using (well_founded_induction lt_wf). intros V Hn HCV HVU HcV HI.
      destruct (decide (V ∖ C = ∅)) as [E|E].
      { assert (V = C) as ->; [|done]. apply set_eq. intros u. split; [|by apply HCV]. intros Hu. destruct (decide (u ∈ C)) as [?|Hd]; [done|]. clear -E Hu Hd. set_solver. }
      apply set_choose_L in E as [b0 Hb0]. apply elem_of_difference in Hb0 as [Hb0 Hb0'].
      destruct (usink_above G' Hac' V b0 Hb0) as (z & Hz & Hbz).
      assert (z ∉ C) as HzC by (intros HzC; apply Hb0'; by apply (anclosed_rtc G' C b0 z)).
      assert (z ∈ V) as HzV by apply Hz.
      assert (z ≠ k) as Hzk by (intros ->; done). assert (z ≠ l) as Hzl by (intros ->; done).
      assert (V ∖ {[k; l; z]} ∪ {[z]} = V ∖ {[k; l]}) as EW.
      { apply set_eq. intros u. destruct (decide (u = z)) as [->|Hd]; [clear -HzV Hzk Hzl; set_solver|clear -HzV Hzk Hzl Hd; set_solver]. }
      apply Istab. intros Hfin.
      assert (I (V ∖ {[k; l; z]}) k l → False) as Hstep.
      { intros HI'. apply Hfin. apply (IHn (size ((V ∖ {[z]}) ∖ C))) with (V := V ∖ {[z]}); [|done| | | |].
        - rewrite <-Hn. apply subset_size. split; [clear; set_solver|]. intros Hs. assert (z ∈ V ∖ C) as Hzin by (clear -HzV HzC; set_solver). apply Hs in Hzin. clear -Hzin. set_solver.
        - clear -HCV HzC. set_solver.
        - clear -HVU. set_solver.
        - by apply (anclosed_sink G').
        - by replace ((V ∖ {[z]}) ∖ {[k; l]}) with (V ∖ {[k; l; z]}) by (clear; set_solver). }
      assert (k ∈ V) as HkV by by apply HCV. assert (l ∈ V) as HlV by by apply HCV.
      assert (¬ ¬ cc G' V k z) as Hkz.
      { intros Hno. apply Hstep. apply (Icontr _ k z l); [|by rewrite EW].
        replace (V ∖ {[k; l; z]}) with ((V ∖ {[l]}) ∖ {[k; z]}) by (clear; set_solver).
        apply (Hsub l (U ∖ {[l]})); [by right|done|clear -HVU; set_solver|by apply Hcz|clear -HkV Hkl; set_solver|clear -HzV Hzl; set_solver|done|].
        intros Hcc. apply Hno. eapply cc_mono; [|exact Hcc]. clear. set_solver. }
      assert (¬ ¬ cc G' V l z) as Hlz.
      { intros Hno. apply Hstep. apply Isym; [clear; set_solver|clear; set_solver|]. apply (Icontr _ l z k).
        - replace (V ∖ {[k; l; z]}) with ((V ∖ {[k]}) ∖ {[l; z]}) by (clear; set_solver).
          apply (Hsub k (U ∖ {[k]})); [by left|done|clear -HVU; set_solver|by apply Hcz|clear -HlV Hkl; set_solver|clear -HzV Hzk; set_solver|done|].
          intros Hcc. apply Hno. eapply cc_mono; [|exact Hcc]. clear. set_solver.
        - rewrite EW. apply Isym; [clear; set_solver|clear; set_solver|done]. }
      apply Hkz. intros H1. apply Hlz. intros H2. apply Hncc.
      apply (cc_sub G G' U V); [apply sub_medge|done|]. by apply (cc_trans G' HU V k l z). }
    apply (Helim _ U eq_refl HCU); [done| |].
    - intros a b Hab. apply (HcU a b). cbn in Hab. clear -Hab. set_solver.
    - apply full; [done|done|by apply HCU|by apply HCU|done|done].
  Qed.

  Lemma remove_pairwise k l P : k ∈ N → l ∈ N → k ≠ l → ¬ madj G' k l →
    (∀ x, x ∈ P ↔ (rtc (edge D') x k ∨ rtc (edge D') x l) ∧ x ≠ k ∧ x ≠ l) → I P k l.
  Proof using HU Han HN Hij Icomp Icontr Iint Isym Istab Hpw Hex Hmax.
    intros Hk Hl Hkl Hna HP. replace P with (an2 D' N k l ∖ {[k; l]}).
    2: { apply set_eq. intros u. rewrite elem_of_difference, elem_an2, HP. split.
      - intros [[_ H1] H2]. split; [done|]. clear -H2. set_solver.
      - intros (H1 & H2 & H3). split; [|clear -H2 H3; set_solver]. split; [|done]. destruct H1 as [H1|H1]; apply rtc_uncut in H1; by eapply rtcN. }
    clear HP P. remember (size (an2 D N k l)) as n eqn:Hn. revert k l Hn Hk Hl Hkl Hna. induction n as [n IH] using (well_founded_induction lt_wf).
    intros k l Hn Hk Hl Hkl Hna.
    assert (an2 D' N k l ∖ {[k; l]} = an2 D' N l k ∖ {[l; k]}) as Ecomm by (apply set_eq; intros u; rewrite !elem_of_difference, !elem_an2; clear; set_solver).
    destruct (decide (reachb D l k = true)) as [Hr%reachb_spec|Hr].
    { apply below; [done..|]. by apply tc_rtc. }
    destruct (decide (reachb D k l = true)) as [Hr'%reachb_spec|Hr'].
    { apply Isym; [clear; set_solver|clear; set_solver|]. rewrite Ecomm. apply below; [done|done|done| |by apply tc_rtc]. intros Ha. by apply Hna, madj_sym. }
    assert (∀ a b, a ≠ b → ¬ reachb D a b = true → ¬ rtc (edge D) a b) as Hn2.
    { intros a b Hab Hnr Hab'. apply Hnr, reachb_spec. by apply rtc_tc in Hab' as [?|?]. }
    apply aside; [done|done|done| |by apply Hn2|by apply Hn2|].
    - intros [Ha|[Ha|Ha]].
      + apply Hr'. apply reachb_spec. by apply tc_once.
      + apply Hr. apply reachb_spec. by apply tc_once.
      + apply Hna. right. right. done.
    - intros x y Hx Hy Hxy Hnaxy Hs. apply (IH (size (an2 D N x y))); [|done| | |done|done].
      + rewrite Hn. by apply subset_size.
      + rewrite elem_an2 in Hx. apply Hx.
      + rewrite elem_an2 in Hy. apply Hy.
  Qed.
End remove.
