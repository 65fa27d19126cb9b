(** Marginal graphs: joining the observed nodes that have an inducing walk keeps
    all separations among observed nodes. *)
From Verif Require Import Py Spec SpecDsep SpecMixed TopoProofs StateProofs ReachProofs WalkProofs MWalkProofs InduceProofs.

Definition lab (G : mixed) (x y : node) : bool := reachb (mx_dir G) x y.
Lemma lab_mark G x y : anc_mark G x y (lab G x y).
Proof. apply reachb_spec. Qed.
Lemma mark_lab G x y k : anc_mark G x y k → k = lab G x y.
Proof. intros H. apply eq_true_iff_eq. pose proof (reachb_spec (mx_dir G) x y). unfold anc_mark, lab in *. tauto. Qed.

Lemma rtc_with {A} (R : relation A) (P : A → Prop) x y :
  rtc R x y → (∀ s, rtc R x s → rtc R s y → P s) → rtc (λ s t, R s t ∧ P s ∧ P t) x y.
Proof.
  intros Hr. induction Hr as [x|x z y Hxz Hr IH]; intros HP; [apply rtc_refl|].
  eapply rtc_l; [split; [done|split]|].
  - apply HP; [apply rtc_refl|]. by eapply rtc_l.
  - apply HP; [by apply rtc_once|done].
  - apply IH. intros s H1 H2. apply HP; [by eapply rtc_l|done].
Qed.

Lemma ip_step_sym G L x y s t k : medge G s.1 t.1 k t.2 → k && t.2 = false →
  (if s.2 || k then s.1 ∈ L else rtc (edge (mx_dir G)) s.1 x ∨ rtc (edge (mx_dir G)) s.1 y) →
  ∀ u ku, medge G s.1 u s.2 ku → s.2 && ku = false → ip_step G L y x (s.1, k) (u, ku).
Proof.
  intros He Hk Hc u ku Hu Hku. exists s.2. split; [done|]. split; [done|]. cbn [fst snd]. rewrite orb_comm. destruct (s.2 || k); [done|]. tauto.
Qed.
Lemma ip_from_sym G L x y k m : ip_from G L x y k m → ip_from G L y x m k.
Proof.
  intros (v & m1 & He & Hk & Hr).
  assert (∀ s, rtc (ip_step G L x y) (v, m1) s → ∃ u ku, medge G s.1 u s.2 ku ∧ s.2 && ku = false ∧ rtc (ip_step G L y x) (u, ku) (x, k)) as Hinv.
  { intros s Hs. refine (rtc_ind_r (λ s, ∃ u ku, medge G s.1 u s.2 ku ∧ s.2 && ku = false ∧ rtc (ip_step G L y x) (u, ku) (x, k)) (v, m1) _ _ s Hs).
    - exists x, k. cbn [fst snd]. split; [by apply medge_sym|]. split; [by rewrite andb_comm|]. apply rtc_refl.
    - intros s1 t _ (k' & E1 & E2 & E3) (u & ku & U1 & U2 & U3). exists s1.1, k'. split; [by apply medge_sym|]. split; [by rewrite andb_comm|].
      eapply rtc_l; [|exact U3]. by eapply ip_step_sym. }
  destruct (Hinv _ Hr) as (u & ku & U1 & U2 & U3). by exists u, ku.
Qed.
Lemma ip_sym G L x y : ip G L x y → ip G L y x.
Proof. intros (k & m & H). exists m, k. by apply ip_from_sym. Qed.

Section marg.
  Context (G : mixed) (L : nset) (Ha : acyclic (mx_dir G)) (Hun : ∀ u v, ¬ neighbor G u v).
  Notation D := (mx_dir G).
  Notation an := (rtc (edge D)).

  Lemma medge_proper u v k m : medge G u v k m → k && m = false.
  Proof using Hun. destruct k, m; cbn; try done. intros H. by apply Hun in H. Qed.

  (** ** The test performed by the code *)
  Section test.
    Context (i j : node) (S : nset) (Hij : i ≠ j)
      (HS : ∀ v, v ∈ S ↔ (tc (edge D) v i ∨ tc (edge D) v j) ∧ v ≠ i ∧ v ≠ j ∧ v ∉ L).
    Definition An (v : node) : Prop := an v i ∨ an v j.
    Lemma An_S v : v ∈ S → An v.
    Proof using HS. intros [[H|H] _]%HS; [left|right]; by apply tc_rtc. Qed.
    Lemma An_up u v : (u, v) ∈ D → An v → An u.
    Proof using. intros Huv [H|H]; [left|right]; by eapply rtc_l. Qed.
    Lemma An_opened v : opened D S v → An v.
    Proof using HS. intros (c & Hc & Hv). destruct (An_S c Hc) as [H|H]; [left|right]; by etrans. Qed.
    Lemma test_back s m : rtc (mstep G S) s (j, m) → s.2 = false → An s.1.
    Proof using HS Hun.
      intros Hr. remember (j, m) as t eqn:Et. induction Hr as [s|[v mv] [w mw] t (k & He & Hp) Hr IH]; intros Hs.
      - subst s. right. apply rtc_refl.
      - cbn [fst snd] in *. subst mv. destruct k; cbn in Hp; [|by apply An_opened].
        pose proof (medge_proper _ _ _ _ He) as Hk. cbn in Hk. subst mw. cbn in He. eapply An_up; [exact He|]. by apply IH.
    Qed.
    Lemma test_forth s : rtc (mstep G S) (i, true) s → s.2 = true → An s.1.
    Proof using HS Hun.
      intros Hr. refine (rtc_ind_r (λ s, s.2 = true → An s.1) (i, true) _ _ s Hr); [left; apply rtc_refl|].
      intros [v mv] [w mw] _ (k & He & Hp) IH Hw. cbn [fst snd] in *. subst mw.
      pose proof (medge_proper _ _ _ _ He) as Hk. rewrite andb_true_r in Hk. subst k. cbn in He. eapply An_up; [exact He|].
      destruct mv; [by apply IH|]. cbn in Hp. by apply An_opened.
    Qed.
    Lemma test_ip : mreach G S i j → ip G L i j.
    Proof using HS Hun Hij.
      intros [m Hr]. apply (rtc_with _ (λ s, An s.1)) in Hr.
      2:{ intros [v []] H1 H2; [by apply (test_forth (v, true))|by apply (test_back (v, false) m)]. }
      assert (∀ s, rtc (λ s t, mstep G S s t ∧ An s.1 ∧ An t.1) (i, true) s →
        ip G L i j ∨ s.1 = i ∨ ∃ k w m1, medge G i w k m1 ∧ k && m1 = false ∧ rtc (ip_step G L i j) (w, m1) s) as Hinv.
      { intros s Hs. refine (rtc_ind_r (λ s, ip G L i j ∨ s.1 = i ∨ ∃ k w m1, medge G i w k m1 ∧ k && m1 = false ∧
          rtc (ip_step G L i j) (w, m1) s) (i, true) _ _ s Hs); [by right; left|].
        intros [v mv] [w mw] _ ((k & He & Hp) & Hv & _) [IH|IH]; [by left|]. cbn [fst snd] in *.
        pose proof (medge_proper _ _ _ _ He) as Hk.
        destruct (decide (v = i)) as [->|Hvi].
        { right. right. exists k, w, mw. split; [done|]. split; [done|]. apply rtc_refl. }
        destruct IH as [?|(k0 & w0 & m0 & H1 & H2 & H3)]; [done|].
        destruct (decide (v = j)) as [->|Hvj].
        { left. exists k0, mv, w0, m0. done. }
        right. right. exists k0, w0, m0. split; [done|]. split; [done|]. eapply rtc_r; [exact H3|]. exists k. split; [done|]. split; [done|].
        cbn [fst snd]. unfold pass in Hp. destruct (mv || k); [|done]. apply dec_stable. intros HvL. apply Hp. apply HS.
        split; [|done]. destruct Hv as [Hv|Hv]; apply rtc_tc in Hv as [->|Hv]; try done; [by left|by right]. }
      destruct (Hinv _ Hr) as [?|[?|(k & w & m1 & H1 & H2 & H3)]]; [done|cbn in *; congruence|]. by exists k, m, w, m1.
    Qed.
  End test.
  Lemma ip_mconn i j C : C ## L → i ∉ C → ip G L i j → mreach G C i j.
  Proof using Ha.
    intros HCL Hi Hip. destruct (ip_traverse G L Ha i j C HCL true (lab G i j) (lab G j i) Hip) as (m & Hr & _); [apply lab_mark..|done|].
    by exists m.
  Qed.
  Lemma edge_ip u v k m : medge G u v k m → ip G L u v.
  Proof using Hun. intros He. exists k, m, v, m. split; [done|]. split; [by eapply medge_proper|]. apply rtc_refl. Qed.
  Lemma edge_mark u v k m : (∀ a b, ¬ spouse G a b) → medge G u v k m → anc_mark G u v k ∧ anc_mark G v u m.
  Proof using Ha Hun.
    intros Hsp He. unfold anc_mark. destruct k, m; cbn in He; [by apply Hun in He| | |by apply Hsp in He].
    - split; split; [|done..|]; [intros _; by apply tc_once|]. intros Ht. exfalso. apply (acyclic_rtc D u v Ha He). by apply tc_rtc.
    - split; split; [done| |intros _; by apply tc_once|done]. intros Ht. exfalso. apply (acyclic_rtc D v u Ha He). by apply tc_rtc.
  Qed.

  (** ** Walks through observed nodes *)
  Context (C : nset) (HCL : C ## L).
  (** Segments whose inner nodes are latent non-colliders. *)
  Definition nc_step (s t : node * bool) : Prop :=
    ∃ k, medge G s.1 t.1 k t.2 ∧ s.2 || k = true ∧ s.1 ∈ L.
  Definition seg (x : node) (k : bool) (s : node * bool) : Prop :=
    ∃ w m, medge G x w k m ∧ rtc nc_step (w, m) s.
  Lemma seg_ip x k y m : seg x k (y, m) → ip_from G L x y k m.
  Proof using Hun.
    intros (w & m1 & He & Hr). exists w, m1. split; [done|]. split; [by eapply medge_proper|].
    eapply (rtc_congruence id); [|exact Hr]. intros s t (k' & He' & Hk & HL). exists k'. split; [done|]. split; [by eapply medge_proper|]. cbn [id]. by rewrite Hk.
  Qed.
  Lemma first_out v c : an v c → v ∈ L → c ∉ L →
    ∃ e, e ∉ L ∧ an e c ∧ (∀ m, rtc nc_step (v, m) (e, false)) ∧ seg e false (v, true).
  Proof using.
    intros Hr. induction Hr as [v|v v' c Hvv Hr IH]; intros Hv Hc; [done|].
    assert (∀ m, nc_step (v, m) (v', false)) as Hone by (intros m; exists true; split; [done|]; by rewrite orb_true_r).
    destruct (decide (v' ∈ L)) as [Hv'|Hv'].
    - destruct (IH Hv' Hc) as (e & H1 & H2 & H3 & (w & m & Hw & Hs)). exists e. split; [done|]. split; [done|]. split.
      + intros m'. eapply rtc_l; [apply Hone|]. apply H3.
      + exists w, m. split; [done|]. eapply rtc_r; [exact Hs|]. by exists false.
    - exists v'. split; [done|]. split; [done|]. split; [intros m; by apply rtc_once|]. exists v, true. split; [done|]. apply rtc_refl.
  Qed.

  Definition kvia (k : bool) (s t : node * bool) : Prop :=
    s.1 ≠ t.1 ∧ t.1 ∉ L ∧ ip_from G L s.1 t.1 k t.2 ∧ pass D C s.1 s.2 k.
  Definition kstep (s t : node * bool) : Prop := ∃ k, kvia k s t.

  Lemma cov_loop x mx k m : pass D C x mx k → ip_from G L x x k m → cov G C x m mx.
  Proof using Ha.
    intros Hp Hip. assert (m = false) as ->.
    { destruct m; [|done]. exfalso. apply (Ha x). by eapply ip_tail_y. }
    intros k2. unfold pass in *. destruct k2, mx, k; cbn in *; done.
  Qed.
  Section walk.
    Context (a : node) (HaL : a ∉ L).
    Definition J (s : node * bool) : Prop := ∃ m, rtc kstep (a, true) (s.1, m) ∧ cov G C s.1 s.2 m.
    Lemma J_ext x mx k y m : J (x, mx) → pass D C x mx k → ip_from G L x y k m → y ∉ L → J (y, m).
    Proof using Ha.
      intros (mx' & Hr & Hcov) Hp Hip Hy. cbn [fst snd] in *. apply Hcov in Hp. destruct (decide (x = y)) as [<-|Hne].
      - exists mx'. split; [done|]. by eapply cov_loop.
      - exists m. split; [|by intros ?]. eapply rtc_r; [exact Hr|]. by exists k.
    Qed.
    Definition Inv (s : node * bool) : Prop :=
      (s.1 ∉ L ∧ J s) ∨ (s.1 ∈ L ∧ ∃ x mx k, J (x, mx) ∧ pass D C x mx k ∧ seg x k s).
    Lemma leave x mx k v' m' v mv k' :
      J (x, mx) → pass D C x mx k → seg x k (v, mv) → v ∈ L → mv || k' = true → medge G v v' k' m' → Inv (v', m').
    Proof using Ha Hun.
      intros HJ Hp (w & m1 & Hw & Hs) Hv Hk He.
      assert (seg x k (v', m')) as Hseg by (exists w, m1; split; [done|]; eapply rtc_r; [exact Hs|]; by exists k').
      destruct (decide (v' ∈ L)) as [Hv'|Hv'].
      - right. split; [done|]. by exists x, mx, k.
      - left. split; [done|]. eapply J_ext; [exact HJ|exact Hp|by apply seg_ip|done].
    Qed.
    Lemma walk_inv s : rtc (mstep G C) (a, true) s → Inv s.
    Proof using Ha HaL HCL Hun.
      intros Hr. refine (rtc_ind_r Inv (a, true) _ _ s Hr).
      { left. split; [done|]. exists true. split; [apply rtc_refl|]. by intros ?. }
      intros [v mv] [v' m'] _ (k' & He & Hp) [[Hv HJ]|(Hv & x & mx & k & HJ & Hpx & Hseg)]; cbn [fst snd] in *.
      - destruct (decide (v' ∈ L)) as [Hv'|Hv'].
        + right. split; [done|]. exists v, mv, k'. split; [done|]. split; [done|]. exists v', m'. split; [done|]. apply rtc_refl.
        + left. split; [done|]. eapply J_ext; [exact HJ|exact Hp| |done]. apply seg_ip. exists v', m'. split; [done|]. apply rtc_refl.
      - destruct (mv || k') eqn:Hk; [by eapply leave|].
        unfold pass in Hp. rewrite Hk in Hp. apply orb_false_iff in Hk as [-> ->].
        destruct Hp as (c & Hc & Hvc). destruct (first_out v c Hvc Hv) as (e & He1 & He2 & He3 & He4); [set_solver|].
        eapply (leave e false false v' m' v true false); [| |exact He4|done|done|exact He].
        + eapply J_ext; [exact HJ|exact Hpx| |done]. apply seg_ip. destruct Hseg as (w & m1 & Hw & Hs). exists w, m1. split; [done|].
          etrans; [exact Hs|]. apply He3.
        + cbn. exists c. done.
    Qed.
  End walk.

  (** ** From such walks to walks in the marginal graph *)
  Lemma ip_merge u v z k m :
    ip_from G L u v k false → ip_from G L v z false m → tc (edge D) v u ∨ tc (edge D) v z → ip_from G L u z k m.
  Proof using.
    intros (w & m1 & H1 & H2 & H3) (w' & m1' & H1' & H2' & H3') Hv.
    assert (an v u ∨ an v z) as Hv' by (destruct Hv as [H|H]; apply tc_rtc in H; auto).
    exists w, m1. split; [done|]. split; [done|]. trans (v, false).
    { eapply (rtc_congruence id); [|exact H3]. intros s t (k' & E1 & E2 & E3). exists k'. split; [done|]. split; [done|].
      cbn [id] in *. destruct (s.2 || k'); [done|]. destruct E3 as [E3|E3]; [by left|]. destruct Hv' as [H|H]; [left|right]; by etrans. }
    eapply (rtc_l _ _ (w', m1')).
    { exists false. split; [exact H1'|]. split; [done|]. cbn. exact Hv'. }
    eapply (rtc_congruence id); [|exact H3']. intros s t (k' & E1 & E2 & E3). exists k'. split; [done|]. split; [done|].
    cbn [id] in *. destruct (s.2 || k'); [done|]. destruct E3 as [E3|E3]; [|by right]. destruct Hv' as [H|H]; [left|right]; by etrans.
  Qed.

  Definition triple (s v t : node * bool) : Prop :=
    ∃ k, kvia k s v ∧ kvia false v t ∧ v.2 = false ∧ (tc (edge D) v.1 s.1 ∨ tc (edge D) v.1 t.1).
  Lemma triple_short s v t : triple s v t → kstep s t ∨ (s.1 = t.1 ∧ cov G C t.1 t.2 s.2).
  Proof using Ha.
    intros (k & (N1 & L1 & I1 & P1) & (N2 & L2 & I2 & P2) & E & Hv). rewrite E in I1.
    pose proof (ip_merge _ _ _ _ _ I1 I2 Hv) as Hm. destruct (decide (s.1 = t.1)) as [Hst|Hst].
    - right. split; [done|]. rewrite <-Hst in *. by eapply cov_loop.
    - left. by exists k.
  Qed.
  Lemma triple_steps s v t q r : triple s v t → nsteps kstep q t r → ∃ q' r', q' ≤ S q ∧ nsteps kstep q' s r' ∧ r'.1 = r.1.
  Proof using Ha.
    intros [Hs|[Hs Hcov]]%triple_short Hr.
    - exists (S q), r. split; [done|]. split; [by eapply nsteps_l|done].
    - destruct Hr as [t|q t t' r (k & N & HL & Hip & Hp) Hr].
      + exists 0, s. split; [lia|]. split; [apply nsteps_O|done].
      + exists (S q), r. split; [lia|]. split; [|done]. eapply nsteps_l; [|exact Hr]. exists k. split; [congruence|]. split; [done|].
        split; [by rewrite Hs|]. rewrite Hs. by apply Hcov.
  Qed.

  Context (H : mixed).
  Context (HK : ∀ x y k m, x ∉ L → y ∉ L → x ≠ y → ip G L x y → anc_mark G x y k → anc_mark G y x m → medge H x y k m).

  Lemma H_tc x y : tc (edge D) x y → x ∉ L → y ∉ L → tc (edge (mx_dir H)) x y.
  Proof using Ha HK Hun.
    intros Hxy Hx Hy.
    assert (∀ u z, u ∉ L → z ∉ L → tc (edge D) u z → seg u true (z, false) → (u, z) ∈ mx_dir H) as Hedge.
    { intros u w Hu Hw Hr' Hs. change (medge H u w true false). apply HK; [done|done| | |done|].
      - intros ->. by apply (Ha w).
      - exists true, false. by apply seg_ip.
      - split; [done|]. intros Ht. exfalso. apply (acyclic_tc_rtc D u w Ha Hr'). by apply tc_rtc. }
    assert (∀ z, an x z → (z ∉ L → rtc (edge (mx_dir H)) x z) ∧
      (z ∈ L → ∃ u, u ∉ L ∧ rtc (edge (mx_dir H)) x u ∧ tc (edge D) u z ∧ seg u true (z, false))) as Hgo.
    { intros z Hz. refine (rtc_ind_r (λ z, (z ∉ L → rtc (edge (mx_dir H)) x z) ∧
        (z ∈ L → ∃ u, u ∉ L ∧ rtc (edge (mx_dir H)) x u ∧ tc (edge D) u z ∧ seg u true (z, false))) x _ _ z Hz).
      { split; [intros _; apply rtc_refl|done]. }
      intros v w _ Hvw [IH1 IH2].
      assert (∃ u, u ∉ L ∧ rtc (edge (mx_dir H)) x u ∧ tc (edge D) u w ∧ seg u true (w, false)) as (u & U1 & U2 & U3 & U4).
      { destruct (decide (v ∈ L)) as [Hv|Hv].
        - destruct (IH2 Hv) as (u & U1 & U2 & U3 & (z0 & m0 & S1 & S2)). exists u. split; [done|]. split; [done|]. split; [by eapply tc_r|].
          exists z0, m0. split; [done|]. eapply rtc_r; [exact S2|]. by exists true.
        - exists v. split; [done|]. split; [by apply IH1|]. split; [by apply tc_once|]. exists w, false. split; [done|apply rtc_refl]. }
      split; intros Hw; [|by exists u]. eapply rtc_r; [exact U2|]. by apply Hedge. }
    destruct (Hgo y (tc_rtc _ _ Hxy)) as [Hg _]. specialize (Hg Hy). apply rtc_tc in Hg as [->|Hg]; [|done].
    exfalso. by apply (Ha y).
  Qed.
  Lemma H_opened v : v ∉ L → opened D C v → opened (mx_dir H) C v.
  Proof using Ha HK Hun HCL.
    intros Hv (c & Hc & Hr). exists c. split; [done|]. apply rtc_tc in Hr as [->|Hr]; [apply rtc_refl|]. apply tc_rtc, H_tc; [done..|set_solver].
  Qed.

  Lemma kvia_H k s t : kvia k s t → s.1 ∉ L → medge H s.1 t.1 (lab G s.1 t.1) (lab G t.1 s.1).
  Proof using HK. intros (N & HL & Hip & _) Hs. apply HK; [done..| |apply lab_mark|apply lab_mark]. by exists k, t.2. Qed.
  (** Marks only turn from arrowheads into tails. *)
  Lemma kvia_marks k s t : kvia k s t → (k = true → lab G s.1 t.1 = true) ∧ (t.2 = true → lab G t.1 s.1 = true).
  Proof using Ha.
    intros (N & HL & Hip & _). split; intros E; apply lab_mark.
    - rewrite E in Hip. by eapply ip_tail_x.
    - rewrite E in Hip. by eapply ip_tail_y.
  Qed.

  Lemma relabel n s v k r :
    s.1 ∉ L → kvia k s v → nsteps kstep n v r →
    (∃ m, rtc (mstep H C) (v.1, lab G v.1 s.1) (r.1, m)) ∨ ∃ q r', q ≤ n ∧ nsteps kstep q s r' ∧ r'.1 = r.1.
  Proof using Ha HCL HK Hun.
    revert s v k r. induction n as [|n IH]; intros s v k r Hs Hv Hr.
    { inversion Hr; subst. left. eexists. apply rtc_refl. }
    inversion Hr as [|? ? t ? (k' & Ht) Hr']; subst.
    assert (v.1 ∉ L) as HvL by (by destruct Hv as (_ & ? & _)).
    destruct (IH v t k' r HvL Ht Hr') as [[m Hm]|(q & r' & Q1 & Q2 & Q3)].
    2:{ right. exists (S q), r'. split; [lia|]. split; [|done]. eapply nsteps_l; [by exists k|done]. }
    destruct (kvia_marks _ _ _ Hv) as [_ Mv]. destruct (kvia_marks _ _ _ Ht) as [Mt _].
    assert (pass D C v.1 v.2 k') as Hp by (by destruct Ht as (_ & _ & _ & ?)).
    assert (pass (mx_dir H) C v.1 (lab G v.1 s.1) (lab G v.1 t.1) ∨ v.2 = false ∧ k' = false ∧
      (lab G v.1 s.1 = true ∨ lab G v.1 t.1 = true)) as [Hpass|(E1 & -> & Hb)].
    { unfold pass in *. destruct (v.2 || k') eqn:E.
      - left. assert (lab G v.1 s.1 || lab G v.1 t.1 = true) as ->; [|done]. apply orb_true_iff.
        apply orb_true_iff in E as [E|E]; [left; by apply Mv|right; by apply Mt].
      - apply orb_false_iff in E as [E1 E2]. destruct (lab G v.1 s.1); [right; auto|]. destruct (lab G v.1 t.1); [right; auto|].
        left. cbn. by apply H_opened. }
    - left. exists m. eapply rtc_l; [|exact Hm]. exists (lab G v.1 t.1). split; [exact (kvia_H k' v t Ht HvL)|done].
    - right. apply (triple_steps s v t n r); [|done]. exists k. split; [done|]. split; [done|]. split; [done|].
      destruct Hb as [Hb|Hb]; apply lab_mark in Hb; auto.
  Qed.
  Lemma kwalk_H n a r : a ∉ L → a ∉ C → nsteps kstep n (a, true) r → mreach H C a r.1.
  Proof using Ha HCL HK Hun.
    intros HaL HaC. revert r. induction (lt_wf n) as [n _ IH]. intros r Hr.
    inversion Hr as [|n' ? v ? (k & Hv) Hr']; subst; [eexists; apply rtc_refl|].
    destruct (relabel n' (a, true) v k r HaL Hv Hr') as [[m Hm]|(q & r' & Q1 & Q2 & Q3)].
    - exists m. eapply rtc_l; [|exact Hm]. exists (lab G a v.1). split; [exact (kvia_H k (a, true) v Hv HaL)|]. done.
    - rewrite <-Q3. apply (IH q); [lia|done].
  Qed.
  Lemma marg_complete a b : a ∉ L → b ∉ L → a ∉ C → mreach G C a b → mreach H C a b.
  Proof using Ha HCL HK Hun.
    intros HaL Hb HaC [m Hr]. apply walk_inv in Hr as [[_ (m' & Hr & _)]|[? _]]; [|done|done]. cbn in Hr.
    apply rtc_nsteps in Hr as [n Hr]. by apply (kwalk_H n a (b, m')).
  Qed.
End marg.

(** ** Conversely, every walk of the marginal graph comes from one of the graph *)
Section back.
  Context (G : mixed) (L : nset) (Ha : acyclic (mx_dir G)) (C : nset) (HCL : C ## L) (H : mixed).
  Context (Hedge : ∀ x y k m, medge H x y k m → ip G L x y ∧ anc_mark G x y k ∧ anc_mark G y x m).
  Lemma H_dir_tc x y : rtc (edge (mx_dir H)) x y → rtc (edge (mx_dir G)) x y.
  Proof using Hedge.
    intros Hr. induction Hr as [|x z y Hxz _ IH]; [apply rtc_refl|]. etrans; [|exact IH]. apply tc_rtc.
    destruct (Hedge x z true false Hxz) as (_ & Hm & _). by apply Hm.
  Qed.
  Lemma back_sim a s : rtc (mstep H C) (a, true) s → ∃ m', rtc (mstep G C) (a, true) (s.1, m') ∧ cov G C s.1 s.2 m'.
  Proof using Ha HCL Hedge.
    intros Hr. refine (rtc_ind_r (λ s, ∃ m', rtc (mstep G C) (a, true) (s.1, m') ∧ cov G C s.1 s.2 m') (a, true) _ _ s Hr).
    { exists true. split; [apply rtc_refl|by intros ?]. }
    intros [v mv] [w mw] _ (k & He & Hp) (m' & IH1 & IH2). cbn [fst snd] in *.
    destruct (Hedge _ _ _ _ He) as (Hip & Hk & Hm).
    assert (pass (mx_dir G) C v mv k) as Hp'.
    { unfold pass in *. destruct (mv || k); [done|]. destruct Hp as (c & Hc & Hr'). exists c. split; [done|]. by apply H_dir_tc. }
    destruct (ip_traverse G L Ha v w C HCL m' k mw Hip Hk Hm (IH2 _ Hp')) as (m2 & R1 & R2).
    exists m2. split; [by etrans|done].
  Qed.
  Lemma marg_sound a b : mreach H C a b → mreach G C a b.
  Proof using Ha HCL Hedge. intros [m Hr]. apply back_sim in Hr as (m' & Hr & _). by exists m'. Qed.
End back.
