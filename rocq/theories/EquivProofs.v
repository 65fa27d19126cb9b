(** Equivalence of acyclic graphs: covered arcs, Chickering's theorem, and
    equality of separations. *)
From Verif Require Import Py Spec SpecDsep SpecMec DagModel TopoProofs StateProofs ReachProofs OrderProofs QueryProofs WalkProofs DsepProofs MarkovProofs ImapProofs ProtProofs.

(** ** Positions *)
Definition pos_of (l : list node) (x : node) : nat := default 0 (fst <$> list_find (x =.) l).

Lemma acyclic_pos E : acyclic E → ∃ pos : node → nat, ∀ x y, (x, y) ∈ E → pos x < pos y.
Proof.
  intros Hac. pose (N := (set_map fst E : nset) ∪ (set_map snd E : nset)).
  destruct (exists_topo N E) as [l (Hnd & Hin & Hlt)]; [done|..].
  { intros x y Hxy. unfold N. rewrite !elem_of_union, !elem_of_map. split; [left; by exists (x, y)|right; by exists (x, y)]. }
  exists (pos_of l). intros x y Hxy.
  assert (∀ z, z ∈ N → l !! pos_of l z = Some z) as Hz.
  { intros z Hz. apply Hin in Hz. unfold pos_of. destruct (list_find (z =.) l) as [[k z']|] eqn:Hf.
    - apply list_find_Some in Hf as (Hf & <- & _). done.
    - apply list_find_None in Hf. rewrite Forall_forall in Hf. by destruct (Hf z Hz). }
  apply (Hlt _ _ x y Hxy); apply Hz; unfold N; rewrite elem_of_union, !elem_of_map; [left|right]; by exists (x, y).
Qed.

(** The arc whose head comes first and, among those, whose tail comes last. *)
Lemma pick_arc (pos : node → nat) (X : arcset) : X ≠ ∅ →
  ∃ x y, (x, y) ∈ X ∧ (∀ u v, (u, v) ∈ X → pos y ≤ pos v) ∧ (∀ u, (u, y) ∈ X → pos u ≤ pos x).
Proof.
  intros HX.
  assert (∀ l : list arc, l ≠ [] → ∃ x y, (x, y) ∈ l ∧ (∀ u v, (u, v) ∈ l → pos y < pos v ∨ (pos y = pos v ∧ pos u ≤ pos x))) as H.
  { induction l as [|[a b] l IH]; [done|]. intros _. destruct l as [|c l].
    - exists a, b. split; [left|]. intros u v. rewrite elem_of_list_singleton. intros [= -> ->]. lia.
    - destruct IH as (x & y & Hxy & Hm); [done|].
      destruct (decide (pos y < pos b ∨ (pos y = pos b ∧ pos a ≤ pos x))) as [Hd|Hd].
      + exists x, y. split; [by right|]. intros u v [[= -> ->]|Hu]%elem_of_cons; [done|by apply Hm].
      + exists a, b. split; [left|]. intros u v [[= -> ->]|Hu]%elem_of_cons; [lia|]. specialize (Hm u v Hu). lia. }
  destruct (H (elements X)) as (x & y & Hxy & Hm).
  { intros He. apply HX. apply leibniz_equiv. by apply elements_empty_inv. }
  setoid_rewrite elem_of_elements in Hm. apply elem_of_elements in Hxy.
  exists x, y. split; [done|]. split.
  - intros u v Hu. specialize (Hm u v Hu). lia.
  - intros u Hu. specialize (Hm u y Hu). lia.
Qed.

(** ** Equivalence *)
Lemma same_skeleton_sym E1 E2 : same_skeleton E1 E2 → same_skeleton E2 E1.
Proof. intros H x y. by rewrite (H x y). Qed.
Lemma equivalent_refl E : equivalent E E.
Proof. by split. Qed.
Lemma equivalent_sym E1 E2 : equivalent E1 E2 → equivalent E2 E1.
Proof. intros [H1 H2]. split; [intros x y; by rewrite (H1 x y)|intros x y z; by rewrite (H2 x y z)]. Qed.
Lemma equivalent_trans E1 E2 E3 : equivalent E1 E2 → equivalent E2 E3 → equivalent E1 E3.
Proof. intros [H1 H2] [H3 H4]. split; [intros x y; by rewrite (H1 x y), (H3 x y)|intros x y z; by rewrite (H2 x y z), (H4 x y z)]. Qed.

Lemma elem_of_flip E x y u v : (u, v) ∈ flip_arc E x y ↔ (u = y ∧ v = x) ∨ ((u, v) ∈ E ∧ ¬ (u = x ∧ v = y)).
Proof. unfold flip_arc. rewrite elem_of_union, elem_of_difference, !elem_of_singleton. naive_solver. Qed.

Lemma flip_adjacent E x y u v : (x, y) ∈ E → adjacent (flip_arc E x y) u v ↔ adjacent E u v.
Proof.
  intros Hxy. unfold adjacent. rewrite !elem_of_flip.
  destruct (decide (u = x ∧ v = y)) as [[-> ->]|]; [tauto|]. destruct (decide (v = x ∧ u = y)) as [[-> ->]|]; [tauto|]. tauto.
Qed.

Section covered.
  Context (E : arcset) (Hac : acyclic E) (x y : node) (Hcov : covered E x y).

  Lemma covered_ne : x ≠ y.
  Proof. destruct Hcov as [H _]. intros Heq. rewrite Heq in H. by apply (acyclic_irr E y Hac). Qed.

  (** A path to [y] other than the arc itself gives a path to [x]'s parents. *)
  Lemma flip_acyclic : acyclic (flip_arc E x y).
  Proof.
    pose proof covered_ne as Hne. destruct Hcov as [Hxy Hc].
    assert (acyclic (E ∖ {[(x, y)]})) as Hac'.
    { intros z. apply (acyclic_mono E); [clear; set_solver|done]. }
    intros z Hz. unfold flip_arc in Hz. apply tc_add_arc in Hz as [Hz|[H1 H2]]; [by apply (Hac' z)|].
    assert (rtc (edge (E ∖ {[(x, y)]})) x y) as H3 by (etrans; [exact H2|exact H1]).
    apply rtc_tc in H3 as [?|H3]; [done|]. apply tc_last in H3 as (w & H3 & Hw).
    apply elem_of_difference in Hw as [Hw Hwn].
    assert ((w, x) ∈ E) as Hwx. { apply Hc. split; [done|]. intros ->. clear -Hwn. set_solver. }
    apply (Hac x). apply (rtc_mono _ E) in H3; [|clear; set_solver]. eapply tc_rtc_l; [exact H3|]. by apply tc_once.
  Qed.

  Lemma flip_covered : covered (flip_arc E x y) y x.
  Proof.
    pose proof covered_ne as Hne. destruct Hcov as [Hxy Hc]. split; [apply elem_of_flip; by left|].
    intros z. rewrite !elem_of_flip, Hc. pose proof (acyclic_irr E x Hac) as Hxx. pose proof (acyclic_irr E y Hac) as Hyy.
    pose proof (acyclic_asym E x y Hac Hxy) as Hyx. naive_solver.
  Qed.

  Lemma flip_equivalent : equivalent E (flip_arc E x y).
  Proof.
    pose proof covered_ne as Hne. destruct Hcov as [Hxy Hc].
    assert (∀ u v, adjacent (flip_arc E x y) u v ↔ adjacent E u v) as Hadj by (intros; by apply flip_adjacent).
    split; [intros u v; by rewrite Hadj|]. intros u z v. unfold vstruct. rewrite Hadj.
    pose proof (acyclic_asym E x y Hac Hxy) as Hyx.
    assert (∀ w, (w, x) ∈ E → adjacent E w y) as Hwx by (intros w Hw; left; by apply Hc in Hw as []).
    assert (∀ w, (w, y) ∈ E → w ≠ x → adjacent E w x) as Hwy by (intros w Hw Hn; left; by apply Hc).
    split.
    - intros (H1 & H2 & H3 & H4). split_and!; [..|done|done]; apply elem_of_flip; right; (split; [done|]); intros [-> ->].
      + apply H4. rewrite adjacent_sym. by apply Hwy.
      + apply H4. by apply Hwy.
    - rewrite !elem_of_flip. intros (H1 & H2 & H3 & H4). split_and!; [..|done|done].
      + destruct H1 as [[-> ->]|[? ?]]; [|done]. destruct H4. rewrite adjacent_sym. apply Hwx. destruct H2 as [[-> _]|[? _]]; done.
      + destruct H2 as [[-> ->]|[? ?]]; [|done]. destruct H4. apply Hwx. destruct H1 as [[-> _]|[? _]]; done.
  Qed.
End covered.

(** Chickering: two different equivalent graphs disagree on a covered arc of the first. *)
Lemma covered_exists E E' : acyclic E → acyclic E' → equivalent E E' → E ≠ E' →
  ∃ x y, covered E x y ∧ (y, x) ∈ E'.
Proof.
  intros Hac Hac' [Hs Hv] Hne. destruct (acyclic_pos E Hac) as [pos Hpos].
  assert (∀ u v, (u, v) ∈ E → (u, v) ∉ E' → (v, u) ∈ E') as Hrev.
  { intros u v H1 H2. assert (adjacent E' u v) as [?|?] by (apply Hs; by left); done. }
  assert (E ∖ E' ≠ ∅) as Hd.
  { intros Hd. apply Hne. assert (E ⊆ E') as Hsub by (clear -Hd; set_solver). apply set_eq. intros [u v]. split; [apply Hsub|].
    intros Huv. assert (adjacent E u v) as [?|Hvu] by (apply Hs; by left); [done|]. apply Hsub in Hvu. exfalso. by apply (acyclic_asym E' u v). }
  destruct (pick_arc pos _ Hd) as (x & y & Hxy & H1 & H2). apply elem_of_difference in Hxy as [Hxy HxyE'].
  assert ((y, x) ∈ E') as Hyx by auto.
  assert (∀ u v, (u, v) ∈ E → pos v < pos y → (u, v) ∈ E') as Hmin.
  { intros u v Huv Hlt. destruct (decide ((u, v) ∈ E')) as [|Hn]; [done|]. assert ((u, v) ∈ E ∖ E') as Hin by by apply elem_of_difference.
    apply H1 in Hin. lia. }
  assert (∀ u, (u, y) ∈ E → pos x < pos u → (u, y) ∈ E') as Hmax.
  { intros u Huy Hlt. destruct (decide ((u, y) ∈ E')) as [|Hn]; [done|]. assert ((u, y) ∈ E ∖ E') as Hin by by apply elem_of_difference.
    apply H2 in Hin. lia. }
  exists x, y. split; [|done]. split; [done|]. intros z. split.
  - intros Hzx. assert (z ≠ x) as Hzne by (intros ->; by apply (acyclic_irr E x)). split; [|done].
    assert (z ≠ y) as Hzy by (intros ->; by apply (acyclic_asym E x y)).
    assert ((z, x) ∈ E') as HzxE' by (apply Hmin; [done|by apply Hpos]).
    assert (adjacent E z y) as [?|Hyz].
    { destruct (decide ((z, y) ∈ E)) as [|Hn1]; [by left|]. destruct (decide ((y, z) ∈ E)) as [|Hn2]; [by right|].
      assert (¬ adjacent E z y) as Hna by (intros [?|?]; done).
      assert (vstruct E z x y) as (_ & Hyx' & _).
      { apply Hv. split; [done|]. split; [done|]. split; [done|]. by rewrite <-(Hs z y). }
      exfalso. by apply (acyclic_asym E x y). }
    + done.
    + exfalso. by apply (acyclic_3 E z x y).
  - intros [Hzy Hzx]. assert (z ≠ y) as Hzyne by (intros ->; by apply (acyclic_irr E y)).
    assert (adjacent E z x) as [?|Hxz].
    { destruct (decide ((z, x) ∈ E)) as [|Hn1]; [by left|]. destruct (decide ((x, z) ∈ E)) as [|Hn2]; [by right|].
      assert (¬ adjacent E z x) as Hna by (intros [?|?]; done).
      assert (vstruct E' z y x) as (_ & Hxy' & _).
      { apply Hv. split; [done|]. split; [done|]. done. }
      done. }
    + done.
    + exfalso. destruct (decide ((z, y) ∈ E')) as [HzyE'|HzyE'].
      * assert ((x, z) ∈ E') as Hxz' by (apply Hmin; [done|by apply Hpos]). by apply (acyclic_3 E' x z y).
      * apply HzyE', Hmax; [done|by apply Hpos].
Qed.

(** Induction along covered flips. *)
Lemma chickering (P : arcset → Prop) E' :
  acyclic E' → P E' →
  (∀ E x y, acyclic E → covered E x y → P (flip_arc E x y) → P E) →
  ∀ E, acyclic E → equivalent E E' → P E.
Proof.
  intros Hac' HP Hstep E. remember (size (E ∖ E')) as n eqn:Hn. revert E Hn.
  induction (lt_wf n) as [n _ IH]. intros E -> Hac Heq.
  destruct (decide (E = E')) as [->|Hne]; [done|].
  destruct (covered_exists E E' Hac Hac' Heq Hne) as (x & y & Hcov & Hyx).
  apply (Hstep E x y Hac Hcov). eapply (IH (size (flip_arc E x y ∖ E'))); [|done|by apply flip_acyclic|].
  - apply subset_size. assert ((x, y) ∉ E') as Hxy by by apply acyclic_asym. destruct Hcov as [Hxy' _]. unfold flip_arc. split.
    + clear -Hyx. set_solver.
    + intros Hsub. assert ((x, y) ∈ ({[(y, x)]} ∪ E ∖ {[(x, y)]}) ∖ E') as Hin by (apply Hsub; by apply elem_of_difference).
      clear -Hin Hyx Hxy. apply elem_of_difference in Hin as [Hin _]. apply elem_of_union in Hin as [Hin|Hin].
      * apply elem_of_singleton in Hin. injection Hin as H1 H2. subst. done.
      * apply elem_of_difference in Hin as [_ Hin]. by rewrite elem_of_singleton in Hin.
  - eapply equivalent_trans; [|exact Heq]. apply equivalent_sym. by apply flip_equivalent.
Qed.

(** ** Separations *)

Lemma in_set_list (l : list node) x : x ∈ (list_to_set l : nset) → x ∈ l.
Proof. by rewrite elem_of_list_to_set. Qed.

Lemma topo_iff N E l : over N E →
  topo_order N E l ↔ NoDup l ∧ (∀ x, x ∈ l ↔ x ∈ N) ∧ ∀ l1 v l2, l = l1 ++ v :: l2 → pa E v ⊆ list_to_set l1.
Proof.
  intros Ho. split.
  - intros Hl. pose proof Hl as (H1 & H2 & _). split; [done|]. split; [done|]. intros l1 v l2 Heq. by eapply topo_split.
  - intros (Hnd & HN & Hp). split; [done|]. split; [done|]. intros i j x y Hxy Hi Hj.
    assert (x ∈ (list_to_set (take j l) : nset)) as Hx.
    { apply (Hp (take j l) y (drop (S j) l)); [by rewrite take_drop_middle|]. by apply elem_of_pa. }
    apply elem_of_list_to_set in Hx. apply elem_of_list_lookup in Hx as [i' Hi']. apply lookup_take_Some in Hi' as [Hi' Hlt].
    assert (i = i') as ->; [|done]. by eapply NoDup_lookup.
Qed.

Lemma ordered_local N E l l1 v l2 : acyclic E → over N E → topo_order N E l → l = l1 ++ v :: l2 →
  dsepd E {[v]} (list_to_set l1 ∖ pa E v) (pa E v).
Proof.
  intros Hac Ho Hl Heq. destruct (topo_split N E l l1 v l2 Ho Hl Heq) as [H1 _].
  apply local_markov; [done|]. intros x. rewrite elem_of_difference, elem_of_list_to_set. intros [Hx ?].
  destruct (H1 x Hx) as (? & ? & ?). done.
Qed.

Lemma filter_split {A} (P : A → Prop) `{∀ x, Decision (P x)} l l1 v l2 :
  filter P l = l1 ++ v :: l2 → ∃ p q, l = p ++ v :: q ∧ filter P p = l1.
Proof.
  revert l1. induction l as [|a l IH]; intros l1; [by destruct l1|]. rewrite filter_cons. case_decide as Ha.
  - destruct l1 as [|b l1]; cbn.
    + intros [= -> _]. by exists [], l.
    + intros [= -> Hl]. destruct (IH _ Hl) as (p & q & -> & Hp). exists (b :: p), q. split; [done|].
      rewrite filter_cons, decide_True by done. by rewrite Hp.
  - intros Hl. destruct (IH _ Hl) as (p & q & -> & Hp). exists (a :: p), q. split; [done|].
    by rewrite filter_cons, decide_False by done.
Qed.

Lemma app_mid_cases {A} (L1 L2 l1 l2 : list A) (x y v : A) :
  L1 ++ x :: y :: L2 = l1 ++ v :: l2 →
  (∃ q, L1 = l1 ++ v :: q) ∨ (v = x ∧ l1 = L1) ∨ (v = y ∧ l1 = L1 ++ [x]) ∨ (∃ p, l1 = L1 ++ x :: y :: p ∧ L2 = p ++ v :: l2).
Proof.
  intros Heq. revert l1 Heq. induction L1 as [|a L1 IH]; intros l1 Heq; cbn in Heq.
  - destruct l1 as [|b [|c l1]]; simplify_eq/=; [right; by left|right; right; by left|]. right; right; right. by exists l1.
  - destruct l1 as [|b l1]; simplify_eq/=; [left; by exists (L1)|].
    destruct (IH l1) as [(q & ->)|[[-> ->]|[[-> ->]|(p & -> & ->)]]]; [done|left; by exists q|right; by left|right; right; by left|].
    right; right; right. by exists p.
Qed.

Lemma covered_order N E x y : acyclic E → over N E → covered E x y →
  ∃ L1 L2, topo_order N E (L1 ++ x :: y :: L2).
Proof.
  intros Hac Ho Hcov. pose proof (covered_ne E Hac x y Hcov) as Hne. destruct Hcov as [Hxy Hc].
  destruct (exists_topo N E Hac Ho) as [l0 Hl0]. apply topo_iff in Hl0 as (Hnd & HN & Hpa); [|done].
  destruct (Ho x y Hxy) as [HxN HyN].
  pose (P := λ u, u ≠ x ∧ u ≠ y ∧ ¬ tc (edge E) x u). pose (Q := λ u, u ≠ x ∧ u ≠ y ∧ tc (edge E) x u).
  exists (filter P l0), (filter Q l0). apply topo_iff; [done|].
  assert (∀ u, u ∈ filter P l0 ++ x :: y :: filter Q l0 ↔ u ∈ N) as Hmem.
  { intros u. rewrite elem_of_app, !elem_of_cons, !elem_of_list_filter, HN. unfold P, Q.
    destruct (decide (u = x)) as [->|]; [tauto|]. destruct (decide (u = y)) as [->|]; [tauto|]. destruct (decide (tc (edge E) x u)); tauto. }
  split; [|split; [exact Hmem|]].
  - apply NoDup_app. split; [by apply NoDup_filter|]. split.
    + intros u. rewrite !elem_of_cons, !elem_of_list_filter. unfold P, Q. naive_solver.
    + apply NoDup_cons. rewrite elem_of_cons, elem_of_list_filter. split; [unfold Q; naive_solver|].
      apply NoDup_cons. rewrite elem_of_list_filter. split; [unfold Q; naive_solver|]. by apply NoDup_filter.
  - assert (∀ u, (u, x) ∈ E → u ∈ filter P l0) as Hxp.
    { intros u Hu. apply elem_of_list_filter. split; [|apply HN; by apply Ho in Hu as []]. unfold P. split_and!.
      - intros ->. by apply (acyclic_irr E x).
      - intros ->. by apply (acyclic_asym E x y).
      - intros Htc. apply (Hac x). by eapply tc_r. }
    intros l1 v l2 Heq. intros u Hu. apply elem_of_pa in Hu. rewrite elem_of_list_to_set.
    apply app_mid_cases in Heq as [(q & Heq)|[[-> ->]|[[-> ->]|(p & -> & Heq)]]].
    + assert (v ∈ filter P l0) as Hv. { rewrite Heq. clear; set_solver. }
      apply elem_of_list_filter in Hv as [(Hv1 & Hv2 & Hv3) _].
      destruct (filter_split P l0 _ _ _ Heq) as (p' & q' & Heq' & <-).
      apply elem_of_list_filter. split.
      * unfold P. assert (u ≠ x) as Hux by (intros ->; apply Hv3; by apply tc_once). split; [done|]. split.
        -- intros ->. apply Hv3. eapply tc_l; [exact Hxy|by apply tc_once].
        -- intros Htc. apply Hv3. by eapply tc_r.
      * apply in_set_list. apply (Hpa p' v q' Heq'). by apply elem_of_pa.
    + by apply Hxp.
    + apply elem_of_app. destruct (decide (u = x)) as [->|Hux]; [right; left|]. left. apply Hxp. by apply Hc.
    + destruct (filter_split Q l0 _ _ _ Heq) as (p' & q' & Heq' & Hp).
      destruct (decide (u = x)) as [->|Hux]; [clear; set_solver|]. destruct (decide (u = y)) as [->|Huy]; [clear; set_solver|].
      rewrite elem_of_app, !elem_of_cons. destruct (decide (tc (edge E) x u)) as [Htc|Htc].
      * right. right. right. rewrite <-Hp. apply elem_of_list_filter. split; [done|].
        apply in_set_list. apply (Hpa p' v q' Heq'). by apply elem_of_pa.
      * left. apply elem_of_list_filter. split; [done|]. apply HN. by apply Ho in Hu as [].
Qed.

Lemma flip_over N E x y : over N E → (x, y) ∈ E → over N (flip_arc E x y).
Proof. intros Ho Hxy u v. rewrite elem_of_flip. intros [[-> ->]|[H _]]; [by apply Ho in Hxy as []|by apply Ho]. Qed.

(** The separations of the flipped graph hold in the graph. *)
Lemma covered_flip_imap N E x y : acyclic E → over N E → covered E x y → imap N (flip_arc E x y) E.
Proof.
  intros Hac Ho Hcov. pose proof (covered_ne E Hac x y Hcov) as Hne.
  destruct (covered_order N E x y Hac Ho Hcov) as (L1 & L2 & Hl).
  pose proof Hcov as [Hxy Hc]. pose proof (flip_over N E x y Ho Hxy) as Ho'.
  set (E' := flip_arc E x y) in *. set (P := pa E x).
  assert (pa E y = P ∪ {[x]}) as HPy.
  { apply set_eq. intros u. rewrite elem_of_union, elem_of_singleton. unfold P. rewrite !elem_of_pa, Hc.
    destruct (decide (u = x)) as [->|]; naive_solver. }
  assert (pa E' y = P) as HPy'.
  { apply set_eq. intros u. unfold P, E'. rewrite !elem_of_pa, elem_of_flip, Hc. naive_solver. }
  assert (pa E' x = P ∪ {[y]}) as HPx'.
  { apply set_eq. intros u. rewrite elem_of_union, elem_of_singleton. unfold P, E'. rewrite !elem_of_pa, elem_of_flip. naive_solver. }
  assert (∀ v, v ≠ x → v ≠ y → pa E' v = pa E v) as HPv.
  { intros v H1 H2. apply set_eq. intros u. unfold E'. rewrite !elem_of_pa, elem_of_flip. naive_solver. }
  pose proof Hl as Hl'. apply topo_iff in Hl' as (Hnd & HN & Hpa); [|done].
  assert (P ⊆ list_to_set L1) as HPL by (eapply Hpa; done).
  assert (x ∉ L1 ∧ y ∉ L1) as [HxL HyL].
  { apply NoDup_app in Hnd as (_ & Hd & _). split; intros H; apply (Hd _ H); clear; set_solver. }
  assert (x ∉ L2 ∧ y ∉ L2) as [HxL2 HyL2].
  { apply NoDup_app in Hnd as (_ & _ & Hd). rewrite !NoDup_cons in Hd. clear -Hd. set_solver. }
  set (W := list_to_set L1 ∖ P : nset).
  assert (x ∉ W ∧ y ∉ W ∧ x ∉ P ∧ y ∉ P) as (HxW & HyW & HxP & HyP).
  { unfold W. rewrite !elem_of_difference, !elem_of_list_to_set. split_and!; [tauto..| |]; intros H%HPL; by rewrite elem_of_list_to_set in H. }
  assert (W ## P) as HWP by (unfold W; clear; set_solver).
  assert (dsepd E W ({[x]} ∪ {[y]}) P) as Hxy_sep.
  { apply dsepd_contr; [done|done|clear -HxW; set_solver|..]; apply dsepd_sym.
    - eapply (ordered_local N E _ L1 x); [done..|]. reflexivity.
    - pose proof (ordered_local N E _ (L1 ++ [x]) y L2 Hac Ho Hl) as H. rewrite HPy in H.
      eapply dsepd_mono; [..|apply H]; [done| |by rewrite <-app_assoc].
      intros u. unfold W. rewrite list_to_set_app_L, !elem_of_difference, !elem_of_union, !elem_of_singleton, elem_of_list_to_set.
      intros [H1 H2]. split; [by left|]. intros [?|Hu]; [done|]. subst u. done. }
  assert (topo_order N E' (L1 ++ y :: x :: L2)) as Hlf.
  { apply topo_iff; [done|]. split; [|split].
    - eapply (NoDup_Permutation_proper (L1 ++ x :: y :: L2)); [|done]. apply Permutation_app_head, Permutation_swap.
    - intros u. rewrite <-HN. clear. set_solver.
    - intros l1 v l2 Heq. apply app_mid_cases in Heq as [(q & Heq)|[[-> ->]|[[-> ->]|(p & -> & Heq)]]].
      + rewrite HPv; [|intros ->; apply HxL; rewrite Heq; clear; set_solver|intros ->; apply HyL; rewrite Heq; clear; set_solver].
        eapply Hpa. by rewrite Heq, <-app_assoc.
      + by rewrite HPy'.
      + rewrite HPx', list_to_set_app_L. clear -HPL. set_solver.
      + rewrite HPv; [|intros ->; apply HxL2; rewrite Heq; clear; set_solver|intros ->; apply HyL2; rewrite Heq; clear; set_solver].
        intros u Hu. assert (u ∈ (list_to_set (L1 ++ x :: y :: p) : nset)) as Hin.
        { eapply (Hpa _ v l2); [|done]. by rewrite Heq, <-app_assoc. }
        clear -Hin. set_solver. }
  intros A B C. apply (ordered_global (dsepd E) (dsepd_semigraphoid E Hac) _ N E' Hlf Ho').
  intros l1 v l2 Heq. apply app_mid_cases in Heq as [(q & Heq)|[[-> ->]|[[-> ->]|(p & -> & Heq)]]].
  - rewrite HPv; [|intros ->; apply HxL; rewrite Heq; clear; set_solver|intros ->; apply HyL; rewrite Heq; clear; set_solver].
    eapply (ordered_local N E _ l1 v); [done..|]. by rewrite Heq, <-app_assoc.
  - rewrite HPy'. apply dsepd_sym. eapply dsepd_mono; [..|exact Hxy_sep]; [done|clear; set_solver].
  - rewrite HPx'. apply dsepd_sym. eapply (dsepd_mono _ W); [|done|].
    + intros u. unfold W. rewrite list_to_set_app_L. clear. set_solver.
    + apply dsepd_weak; [done|done|clear -HyW; set_solver|done].
  - rewrite HPv; [|intros ->; apply HxL2; rewrite Heq; clear; set_solver|intros ->; apply HyL2; rewrite Heq; clear; set_solver].
    replace (list_to_set (L1 ++ y :: x :: p) : nset) with (list_to_set (L1 ++ x :: y :: p) : nset) by (apply set_eq; clear; set_solver).
    eapply (ordered_local N E _ _ v); [done..|]. by rewrite Heq, <-app_assoc.
Qed.

Lemma flip_back E x y : (x, y) ∈ E → x ≠ y → (y, x) ∉ E → flip_arc (flip_arc E x y) y x = E.
Proof. intros H1 H2 H3. apply set_eq. intros [u v]. rewrite !elem_of_flip. destruct (decide ((u, v) = (x, y))), (decide ((u, v) = (y, x))); naive_solver. Qed.

Lemma covered_flip_seps N E x y : acyclic E → over N E → covered E x y → same_seps N E (flip_arc E x y).
Proof.
  intros Hac Ho Hcov A B C HA HB HC Hd. pose proof (covered_ne E Hac x y Hcov) as Hne. pose proof Hcov as [Hxy _]. split.
  - pose proof (covered_flip_imap N (flip_arc E x y) y x (flip_acyclic E Hac x y Hcov) (flip_over N E x y Ho Hxy) (flip_covered E Hac x y Hcov)) as H.
    rewrite flip_back in H by (done || by apply acyclic_asym). by apply H.
  - by apply (covered_flip_imap N E x y Hac Ho Hcov).
Qed.

Lemma equivalent_over N E E' : equivalent E E' → over N E → over N E'.
Proof.
  intros [Hs _] Ho u v Huv. assert (adjacent E u v) as [H|H] by (apply Hs; by left); apply Ho in H; tauto.
Qed.

Theorem equivalent_seps N E E' : acyclic E → acyclic E' → over N E → equivalent E E' → same_seps N E E'.
Proof.
  intros Hac Hac' Ho Heq.
  assert (over N E → same_seps N E E') as H; [|by apply H]. clear Ho.
  apply (chickering (λ E, over N E → same_seps N E E') E'); [done|by intros _ A B C| |done|done].
  clear E Hac Heq. intros E x y Hac Hcov IH Ho A B C HA HB HC Hd. pose proof Hcov as [Hxy _].
  rewrite (covered_flip_seps N E x y Hac Ho Hcov A B C) by done. apply IH; [by apply flip_over|done..].
Qed.

(** Conversely, separations determine the skeleton and the v-structures. *)
Lemma nonadjacent_separable N E x y : acyclic E → over N E → x ∈ N → y ∈ N → x ≠ y → ¬ adjacent E x y →
  ∃ C, C ⊆ N ∧ x ∉ C ∧ y ∉ C ∧ dsepd E {[x]} {[y]} C.
Proof.
  intros Hac Ho Hx Hy Hne Hna.
  assert (∀ x y, x ∈ N → y ∈ N → x ≠ y → ¬ adjacent E x y → ¬ tc (edge E) x y → ∃ C, C ⊆ N ∧ x ∉ C ∧ y ∉ C ∧ dsepd E {[x]} {[y]} C) as H.
  { clear x y Hx Hy Hne Hna. intros x y Hx Hy Hne Hna Htc. exists (pa E x). split; [by apply pa_sub|]. split; [by apply pa_not_self|].
    assert (y ∉ pa E x) as HyP by (rewrite elem_of_pa; intros ?; apply Hna; by right). split; [done|].
    apply local_markov; [done|]. intros u ->%elem_of_singleton. done. }
  destruct (decide (tc (edge E) x y)) as [Htc|Htc]; [|by apply H].
  destruct (H y x) as (C & H1 & H2 & H3 & H4); [done|done|done|by rewrite adjacent_sym| |].
  - intros Htc'. apply (Hac x). by eapply tc_transitive.
  - exists C. split_and!; [done..|]. by apply dsepd_sym.
Qed.

Lemma adjacent_not_separated E x y C : x ≠ y → adjacent E x y → ¬ dsepd E {[x]} {[y]} C.
Proof.
  intros Hne Ha H. apply (H x y [x; y]); [set_solver..|]. split_and!; [|done|done|..].
  - apply NoDup_cons. split; [set_solver|]. apply NoDup_singleton.
  - intros p a b q Heq. destruct p as [|? [|? [|? p]]]; simplify_eq/=; try done; by destruct p.
  - intros p a b c q Heq. destruct p as [|? [|? [|? p]]]; simplify_eq/=; try done; by destruct p.
Qed.

Lemma trip_not_separated E x z y C : NoDup [x; z; y] → adjacent E x z → adjacent E z y → active_at E C x z y →
  ¬ dsepd E {[x]} {[y]} C.
Proof.
  intros Hnd H1 H2 H3 H. apply (H x y [x; z; y]); [set_solver..|]. split_and!; [done|done|done|..].
  - intros p a b q Heq. destruct p as [|? [|? [|? p]]]; simplify_eq/=; try done; by destruct p.
  - intros p a b c q Heq. destruct p as [|? [|? [|? p]]]; simplify_eq/=; try done; by destruct p.
Qed.

Theorem seps_equivalent N E E' : acyclic E → acyclic E' → over N E → over N E' → same_seps N E E' → equivalent E E'.
Proof.
  intros Hac Hac' Ho Ho' H.
  assert (∀ E E', acyclic E → acyclic E' → over N E → over N E' → same_seps N E E' → ∀ x y, adjacent E x y → adjacent E' x y) as Hadj.
  { clear E E' Hac Hac' Ho Ho' H. intros E E' Hac Hac' Ho Ho' H x y Hxy.
    assert (x ≠ y) as Hne by (intros ->; by destruct Hxy as [?|?]; apply (acyclic_irr E y)).
    assert (x ∈ N ∧ y ∈ N) as [Hx Hy] by (destruct Hxy as [Hxy|Hxy]; apply Ho in Hxy as []; done).
    destruct (decide ((x, y) ∈ E')) as [|Hn1]; [by left|]. destruct (decide ((y, x) ∈ E')) as [|Hn2]; [by right|]. exfalso.
    destruct (nonadjacent_separable N E' x y) as (C & H1 & H2 & H3 & H4); [done..|intros [?|?]; done|].
    apply H in H4; [|clear -Hx; set_solver|clear -Hy; set_solver|done|unfold disjoint3; clear -Hne H2 H3; set_solver].
    by apply adjacent_not_separated in H4. }
  assert (same_seps N E' E) as H' by (intros A B C H1 H2 H3 H4; by rewrite (H A B C)).
  assert (same_skeleton E E') as Hs by (intros x y; split; by apply Hadj).
  split; [done|].
  assert (∀ E E', acyclic E → acyclic E' → over N E → over N E' → same_seps N E E' → same_skeleton E E' → ∀ x z y, vstruct E x z y → vstruct E' x z y) as Hvs.
  { clear. intros E E' Hac Hac' Ho Ho' H Hs x z y (H1 & H2 & H3 & H4).
    assert (x ∈ N ∧ z ∈ N) as [Hx Hz] by by apply Ho in H1. assert (y ∈ N) as Hy by by apply Ho in H2 as [].
    destruct (nonadjacent_separable N E x y) as (C & C1 & C2 & C3 & C4); [done..|].
    assert (NoDup [x; z; y]) as Hnd.
    { rewrite !NoDup_cons. split_and!; [|..|set_solver|apply NoDup_nil_2].
      - rewrite !elem_of_cons, elem_of_nil. intros [->|[->|?]]; [by apply (acyclic_irr E z)|done|done].
      - rewrite !elem_of_cons, elem_of_nil. intros [->|?]; [by apply (acyclic_irr E y)|done]. }
    assert (z ∉ C) as HzC.
    { intros HzC. revert C4. apply (trip_not_separated E x z y); [done|by left|by right|]. split.
      - intros _. exists z. split; [done|apply rtc_refl].
      - intros Hn. destruct Hn. done. }
    apply H in C4; [|clear -Hx; set_solver|clear -Hy; set_solver|done|unfold disjoint3; clear -H3 C2 C3; set_solver].
    destruct (decide ((x, z) ∈ E' ∧ (y, z) ∈ E')) as [[? ?]|Hn].
    - split_and!; [done..|]. by rewrite <-(Hs x y).
    - exfalso. revert C4. apply (trip_not_separated E' x z y); [done|apply Hs; by left|apply Hs; by right|]. split; [by intros [? ?]; destruct Hn|done]. }
  intros x z y. split; [by apply Hvs|apply Hvs; [done..|]]. by apply same_skeleton_sym.
Qed.
