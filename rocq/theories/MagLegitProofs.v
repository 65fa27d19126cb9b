(** The mark changes that keep a graph ancestral and Markov equivalent. *)
From Verif Require Import Py Spec SpecDsep SpecMixed SpecMagMec TopoProofs StateProofs ReachProofs MWalkProofs InduceProofs MagMecProofs MagMecCore MagMecMain MagMecNec MagMarkProofs.

Lemma tc_subrel {A} (R R' : A → A → Prop) x y : (∀ u v, R u v → R' u v) → tc R x y → tc R' x y.
Proof. intros Hs H. induction H as [x y H|x y z H _ IH]; [by apply tc_once, Hs|]. eapply tc_l; [by apply Hs|done]. Qed.
Lemma tc_r' {A} (R : A → A → Prop) x y : tc R x y → ∃ c, rtc R x c ∧ R c y.
Proof. intros H. induction H as [x y H|x y z H _ (c & H1 & H2)]; [by exists x|]. exists c. split; [by eapply rtc_l|done]. Qed.

(** The conditions on the edge between [a] and [b], whichever of [a -> b] and [a <-> b] it is. *)
Record legit (G : mixed) (a b : node) : Prop := Legit {
  lg_sh : shadowed G a b;
  lg_path : ∀ c, (a, c) ∈ mx_dir G → c ≠ b → ¬ rtc (edge (mx_dir G)) c b
}.

Section swap.
  Context (D B : mixed) (a b : node) (Hsw : swap D B a b).
  Notation "'ED'" := (edge (mx_dir D)). Notation "'EB'" := (edge (mx_dir B)).

  Lemma swap_dir_D x y : (x, y) ∈ mx_dir D ↔ (x, y) ∈ mx_dir B ∨ (x, y) = (a, b).
  Proof using Hsw.
    rewrite (sw_dir _ _ _ _ Hsw). split.
    - intros H. destruct (decide ((x, y) = (a, b))); tauto.
    - intros [[H _]|E]; [done|]. injection E as -> ->. apply Hsw.
  Qed.
  Lemma swap_spo_B x y : spouse B x y ↔ spouse D x y ∨ (x, y) = (a, b) ∨ (x, y) = (b, a).
  Proof using Hsw.
    rewrite (sw_spo _ _ _ _ Hsw). split.
    - intros H. destruct (decide ((x, y) = (a, b))); [tauto|]. destruct (decide ((x, y) = (b, a))); tauto.
    - intros [[H _]|[E|E]]; [done| |]; injection E as -> ->; [|apply spouse_sym]; apply Hsw.
  Qed.
  Lemma swap_rel : simple B → mark_rel D B a b.
  Proof using Hsw.
    intros HsB. assert ((b, a) ∉ mx_dir B) as Hba.
    { intros H. apply (simple_dir _ HsB) in H as (_ & H & _). apply H, spouse_sym, Hsw. }
    assert ((a, b) ∉ mx_dir B) as Hab by (rewrite (sw_dir _ _ _ _ Hsw); tauto).
    split.
    - intros x y. unfold madj. rewrite !swap_dir_D, swap_spo_B, (sw_nei _ _ _ _ Hsw). naive_solver.
    - intros x y Hne. unfold into. rewrite swap_dir_D, swap_spo_B. naive_solver.
    - intros x y Hne. rewrite swap_dir_D. tauto.
    - intros x y H1 H2. rewrite swap_spo_B. tauto.
  Qed.
  Lemma swap_ED x y : ED x y ↔ EB x y ∨ (x, y) = (a, b).
  Proof using Hsw. apply swap_dir_D. Qed.
  Lemma swap_rtc x y : rtc EB x y → rtc ED x y.
  Proof using Hsw. intros H. eapply rtc_subrel; [|exact H]. intros u v Huv. apply swap_ED. by left. Qed.

  (** From [D] to [B]. *)
  Lemma swap_anc_B : ancestral D → (∀ c, (a, c) ∈ mx_dir D → c ≠ b → ¬ rtc ED c b) → ancestral B.
  Proof using Hsw.
    intros [Hac Hsp] Hp. split.
    - intros x Hx. apply (Hac x). eapply tc_subrel; [|exact Hx]. intros u v Huv. apply swap_ED. by left.
    - intros x y Hs Hr. apply swap_spo_B in Hs as [Hs|[E|E]].
      + by apply (Hsp x y Hs), swap_rtc.
      + injection E as -> ->. inversion Hr as [|? c ? Hc Hr']; subst.
        * apply (Hac b). apply tc_once. apply Hsw.
        * apply (sw_dir _ _ _ _ Hsw) in Hc as [Hc Hne]. apply (Hp c Hc); [naive_solver|by apply swap_rtc].
      + injection E as -> ->. apply (Hac b). apply swap_rtc in Hr. eapply tc_rtc_l; [exact Hr|]. apply tc_once. apply Hsw.
  Qed.
  Lemma swap_simple_B : simple D → simple B.
  Proof using Hsw.
    intros HsD. assert ((b, a) ∉ mx_dir D ∧ ¬ neighbor D a b ∧ a ≠ b) as (Hba & Hn & Hab).
    { pose proof (simple_dir _ HsD _ _ (sw_D _ _ _ _ Hsw)) as (? & _ & ?). split_and!; [done|done|]. intros E. pose proof (sw_D _ _ _ _ Hsw) as HD.
      rewrite E in HD. apply (simple_irr _ HsD b). by left. }
    split.
    - intros x Hx. apply (simple_irr _ HsD x). unfold madj in *. rewrite swap_spo_B, <-(sw_nei _ _ _ _ Hsw), (sw_dir _ _ _ _ Hsw) in Hx. naive_solver.
    - intros x y [H Hne]%(sw_dir _ _ _ _ Hsw). pose proof (simple_dir _ HsD _ _ H) as (H1 & H2 & H3).
      rewrite swap_spo_B, <-(sw_nei _ _ _ _ Hsw), (sw_dir _ _ _ _ Hsw). naive_solver.
    - intros x y [H|[E|E]]%swap_spo_B; rewrite <-(sw_nei _ _ _ _ Hsw).
      + by apply (simple_bi _ HsD).
      + by injection E as -> ->.
      + injection E as -> ->. intros H%neighbor_sym. done.
  Qed.
  Lemma swap_simple_D : simple B → simple D.
  Proof using Hsw.
    intros HsB. assert ((b, a) ∉ mx_dir B ∧ (a, b) ∉ mx_dir B ∧ ¬ neighbor B a b ∧ a ≠ b) as (Hba & Hba' & Hn & Hab).
    { pose proof (simple_bi _ HsB _ _ (sw_B _ _ _ _ Hsw)). pose proof (sw_B _ _ _ _ Hsw) as Hs. split_and!; [| |done|].
      - intros H1%(simple_dir _ HsB). apply spouse_sym in Hs. tauto.
      - intros H1%(simple_dir _ HsB). tauto.
      - intros E. rewrite E in Hs. apply (simple_irr _ HsB b). right. right. by left. }
    split.
    - intros x Hx. apply (simple_irr _ HsB x). unfold madj in *. rewrite (sw_nei _ _ _ _ Hsw), swap_dir_D, (sw_spo _ _ _ _ Hsw) in Hx. naive_solver.
    - intros x y [H|E]%swap_dir_D.
      + pose proof (simple_dir _ HsB _ _ H) as (H1 & H2 & H3). rewrite (sw_nei _ _ _ _ Hsw), swap_dir_D, (sw_spo _ _ _ _ Hsw). naive_solver.
      + injection E as -> ->. rewrite (sw_nei _ _ _ _ Hsw), swap_dir_D, (sw_spo _ _ _ _ Hsw). naive_solver.
    - intros x y [H _]%(sw_spo _ _ _ _ Hsw). rewrite (sw_nei _ _ _ _ Hsw). by apply (simple_bi _ HsB).
  Qed.
  (** From [B] to [D]. *)
  Lemma swap_anc_D : ancestral B → shadowed B a b → ancestral D.
  Proof using Hsw.
    intros [Hac Hsp] [_ Hpar Hspo _].
    assert (∀ x y, tc ED x y → tc EB x y ∨ (rtc EB x a ∧ rtc EB b y)) as Hadd.
    { intros x y H. apply (tc_add_arc (mx_dir B) a b x y). eapply tc_subrel; [|exact H]. intros u v [H'|E]%swap_ED; [by apply elem_of_union_r|].
      injection E as -> ->. apply elem_of_union_l. by apply elem_of_singleton. }
    split.
    - intros x [H|[H1 H2]]%Hadd; [by apply (Hac x)|]. apply (Hsp b a); [apply spouse_sym, Hsw|]. by etrans.
    - intros x y [Hs [H1 H2]]%(sw_spo _ _ _ _ Hsw) Hr.
      apply rtc_tc in Hr as [->|Hr].
      { (* a loop *) apply (Hsp y y Hs). done. }
      apply Hadd in Hr as [Hr|[Hxa Hby]]; [by apply (Hsp x y Hs), tc_rtc|].
      apply rtc_tc in Hxa as [->|Hxa].
      + destruct (Hspo y) as [Hd|Hd]; [naive_solver|by apply spouse_sym| |].
        * apply (Hac b). eapply tc_rtc_l; [exact Hby|]. by apply tc_once.
        * apply (Hsp b y); [by apply spouse_sym|done].
      + apply (Hsp x y Hs). trans b; [|done]. apply tc_r' in Hxa as (c & Hxc & Hca). eapply rtc_r; [exact Hxc|]. by apply Hpar.
  Qed.
End swap.

Lemma last_two (x q : node) m : ∃ p u q', x :: q :: m = p ++ [u; q'].
Proof.
  destruct m as [|z m _] using rev_ind; [by exists [], x, q|].
  destruct (exists_last (l := x :: q :: m)) as (p & u & E); [done|]. exists p, u, z. rewrite app_comm_cons, app_comm_cons, E, <-(assoc_L app). done.
Qed.
(** Both graphs ancestral, with the same unshielded colliders and the same status on shared discriminating paths. *)
Lemma swap_legit D B a b : simple D → separate D → ancestral D → simple B → separate B → ancestral B → swap D B a b → agree D B → legit D a b.
Proof.
  intros HsD HseD HaD HsB HseB HaB Hsw [_ Hvs Hdi]. pose proof (swap_rel D B a b Hsw HsB) as Hmr.
  pose proof (sw_D _ _ _ _ Hsw) as Hab. pose proof (sw_B _ _ _ _ Hsw) as Hab'. pose proof HaD as [Hac Hsp]. pose proof HaB as [_ HspB].
  assert (a ≠ b) as Hne by (intros ->; apply (simple_irr _ HsD b); by left).
  assert (∀ c, c ≠ b → c ≠ a → into D c a → madj D c b) as Hadj.
  { intros c Hcb Hca Hin. destruct (madj_dec D c b) as [|Hna]; [done|]. exfalso.
    assert (mvstruct B c a b) as Hv.
    { split; [|split; [done|by rewrite <-(mr_adj _ _ _ _ Hmr)]]. split; [apply (mr_into _ _ _ _ Hmr); [naive_solver|done]|]. right. by apply spouse_sym. }
    apply Hvs in Hv as [[_ Hv] _]. by apply (dir_not_into D HsD a b). }
  assert (∀ c, (a, c) ∈ mx_dir D → c ≠ b → ¬ rtc (edge (mx_dir D)) c b) as Hpath.
  { intros c Hc Hcb Hr. apply (HspB a b Hab'). eapply rtc_l; [apply (sw_dir _ _ _ _ Hsw); split; [exact Hc|naive_solver]|].
    assert (∀ u z, rtc (edge (mx_dir D)) u z → rtc (edge (mx_dir D)) c u → rtc (edge (mx_dir B)) u z) as Hgo; [|by apply Hgo].
    clear Hr. intros u z Hu. induction Hu as [u|u w z Huw _ IH]; intros Hcu; [done|].
    eapply rtc_l; [apply (sw_dir _ _ _ _ Hsw); split; [exact Huw|]|apply IH; by eapply rtc_r].
    intros E. injection E as -> ->. apply (Hac a). eapply tc_rtc_r; [apply tc_once; exact Hc|exact Hcu]. }
  split; [|done]. split.
  - by left.
  - intros c Hc. assert (c ≠ a) by (intros ->; apply (simple_irr _ HsD a); by left).
    assert (c ≠ b) by (intros ->; apply (Hac b); eapply tc_l; [exact Hc|by apply tc_once]).
    apply (dir_up D HsD HseD HaD c a b); [done|done|]. apply Hadj; [done|done|by left].
  - intros d Hd Hs. assert (d ≠ a) by (intros ->; apply (simple_irr _ HsD a), into_adj; by right).
    apply (into_up D HsD HseD HaD d a b); [by right|done|]. apply Hadj; [done|done|by right].
  - intros l p Hl E. assert (discriminating B l) as Hl' by (apply (disc_mark B D a b l p); [by apply mark_rel_sym|done|done]).
    specialize (Hdi l Hl Hl'). destruct Hl as (_ & Htr & x & q & m & b' & y & El & _ & Hq).
    destruct (last_two x q m) as (p0 & u & q' & E2).
    assert (l = p0 ++ [u; q'; b'; y]) as E3 by (rewrite El; change (x :: q :: m ++ [b'; y]) with ((x :: q :: m) ++ [b'; y]); rewrite E2, <-(assoc_L app); done).
    rewrite E in E3. change [u; q'; b'; y] with ([u; q'] ++ [b'; y]) in E3. rewrite (assoc_L app) in E3. apply app_inj_2 in E3 as [Ep E4]; [|done].
    injection E4 as <- <-. rewrite Ep, <-(assoc_L app) in E. cbn [app] in E.
    destruct (Hq p0 u q' a [b] E) as [[_ Hin] Hd]; [done|].
    assert (¬ into D q' a) as Hn.
    { intros Hi. assert (discr_collider B l) as (p1 & a1 & b1 & y1 & E5 & Hc)%Hdi.
      { exists (p0 ++ [u]), q', a, b. rewrite <-(assoc_L app). split; [done|]. split; [|right; by apply spouse_sym].
        apply (mr_into _ _ _ _ Hmr); [|done]. intros E5. injection E5 as ->. apply (simple_irr _ HsD b). by left. }
      rewrite E in E5. change [u; q'; a; b] with ([u] ++ [q'; a; b]) in E5. rewrite (assoc_L app) in E5. apply app_inj_2 in E5 as [_ E5]; [|done].
      injection E5 as <- <- <-. destruct Hc as [_ Hc]. by apply (dir_not_into D HsD a b). }
    apply (Hpath q').
    + destruct Hin as [Hin|Hs]; [done|]. exfalso. apply Hn. right. by apply spouse_sym.
    + intros ->. apply (simple_irr _ HsD b). by left.
    + by apply rtc_once.
Qed.
