(** [get_marginals_new]. *)
From Coq Require Import QArith.Qcanon.
From Verif Require Import Py Spec DagModel QMatModel DiscreteModel SpecDiscrete TopoProofs StateProofs ReachProofs QueryProofs CoreProofs MarkovProofs QMatProofs PropertiesDag DiscreteProofs DiscreteElim PropertiesDiscrete.
#[local] Open Scope Qc_scope.

Section new.
  Context (D : ddag) (o : oracle) (Hwf : ddag_wf D) (Htiny : no_tiny D).
  Notation N := (d_nodes (dd_dag D)).
  Notation Ar := (d_arcs (dd_dag D)).
  Context (g : dag) (t : list node).
  Context (Hg : wf g) (HgN : d_nodes g ⊆ N) (HgA : ∀ x y, (x, y) ∈ d_arcs g ↔ (x, y) ∈ Ar ∧ y ∈ d_nodes g) (Ht : topo_order (d_nodes g) (d_arcs g) t).

  Lemma new_child_spec p cur E table c :
    NoDup p → (∀ v, v ∈ p → v ∈ t) → c ∉ p → c ∈ d_nodes g → Inv D g p cur E table →
    (∀ st, new_child D c (cur, table) = Ok st → ∀ u, (u, c) ∈ Ar → u ∈ cur) ∧
    ((∀ u, (u, c) ∈ Ar → u ∈ cur) → ∃ table', new_child D c (cur, table) = Ok (cur ++ [c], table') ∧ Inv D g (p ++ [c]) (cur ++ [c]) E table').
  Proof using All.
    intros Hndp Hpt Hcp Hcg HI. pose proof Hwf as (_ & _ & Hw). destruct (Hw c) as (al & ps & tc & Ea & Ep & Ec & Hnps & Hps & Hsh); [by apply HgN|].
    unfold new_child. rewrite Ec, Ep. cbn [fst snd]. split.
    - intros st. destruct (add_variable _ _ _ _ _) as [table'|] eqn:Eadd; [|done]. intros _.
      apply (add_variable_Ok _ _ _ _ _ _ (length ps)) in Eadd; [|by rewrite Hsh, fmap_length, app_length, Nat.add_1_r].
      assert (∀ l : list node, length (filter (λ x, x ∈ cur) l) = length l → ∀ u, u ∈ l → u ∈ cur) as Hf.
      { clear. induction l as [|x l IH]; intros Hl u Hu; [by apply elem_of_nil in Hu|]. rewrite filter_cons in Hl. pose proof (filter_length (λ x, x ∈ cur) l) as Hle.
        case_decide as H; [|cbn in Hl; lia]. cbn in Hl. apply elem_of_cons in Hu as [->|Hu]; [done|]. apply IH; [lia|done]. }
      intros u Hu. apply (Hf ps Eadd). by apply Hps.
    - intros Hpar. assert (filter (λ x, x ∈ cur) ps = ps) as ->.
      { assert (∀ u, u ∈ ps → u ∈ cur) as H by (intros u Hu; apply Hpar; by apply Hps). clear -H. induction ps as [|x ps IH]; [done|].
        rewrite filter_cons, decide_True by (apply H; by left). f_equal. apply IH. intros u Hu. apply H. by right. }
      destruct (add_step D Hwf g t Hg HgN HgA Ht clip (clip_prob D Htiny) p c [] cur E table ps tc) as (_ & table' & Eadd & HI').
      + right. split; [done|]. split; [done|]. split; [done|]. split; [done|]. intros u Hu. destruct HI as (Hperm & _). rewrite <-Hperm. apply elem_of_app. left. by apply Hpar.
      + done.
      + done.
      + done.
      + unfold add_variable. rewrite Eadd. by exists table'.
  Qed.
  Lemma new_children_spec cs : ∀ p cur E table,
    NoDup p → (∀ v, v ∈ p → v ∈ t) → NoDup cs → (∀ c, c ∈ cs → c ∉ p ∧ c ∈ d_nodes g) → Inv D g p cur E table →
    (∀ st, loopR (new_child D) cs (cur, table) = Ok st → ∃ table', st = (cur ++ cs, table') ∧ Inv D g (p ++ cs) (cur ++ cs) E table') ∧
    ((∀ c u, c ∈ cs → (u, c) ∈ Ar → u ∈ cur) → ∃ st, loopR (new_child D) cs (cur, table) = Ok st).
  Proof using All.
    induction cs as [|c cs IH]; intros p cur E table Hndp Hpt Hcs Hnew HI.
    - rewrite !app_nil_r. cbn. split; [intros st [= <-]; by exists table|]. intros _. by eexists.
    - apply NoDup_cons in Hcs as [Hc Hcs]. destruct (Hnew c) as [Hcp Hcg]; [by left|].
      destruct (new_child_spec p cur E table c Hndp Hpt Hcp Hcg HI) as [H1 H2]. cbn [loopR].
      assert (∀ table', Inv D g (p ++ [c]) (cur ++ [c]) E table' →
        (∀ st, loopR (new_child D) cs (cur ++ [c], table') = Ok st → ∃ table', st = (cur ++ c :: cs, table') ∧ Inv D g (p ++ c :: cs) (cur ++ c :: cs) E table') ∧
        ((∀ c' u, c' ∈ cs → (u, c') ∈ Ar → u ∈ cur ++ [c]) → ∃ st, loopR (new_child D) cs (cur ++ [c], table') = Ok st)) as Hrec.
      { intros table' HI'. rewrite (cons_middle c cur cs), (cons_middle c p cs), !app_assoc. apply IH; [| |done| |done].
        - apply NoDup_app. split; [done|]. split; [|apply NoDup_singleton]. intros v Hv ->%elem_of_list_singleton. done.
        - intros v [Hv| ->%elem_of_list_singleton]%elem_of_app; [by apply Hpt|]. by apply (g_in g t Ht).
        - intros c' Hc'. destruct (Hnew c') as [? ?]; [by right|]. split; [|done]. intros [?| ->%elem_of_list_singleton]%elem_of_app; done. }
      split.
      + intros st. destruct (new_child D c (cur, table)) as [st1|] eqn:E1; [|done]. destruct (H2 (H1 _ eq_refl)) as (table' & [= ->] & HI').
        by apply Hrec.
      + intros Hpar. destruct H2 as (table' & -> & HI'); [intros u; apply Hpar; by left|]. apply Hrec; [done|].
        intros c' u Hc' Hu. apply elem_of_app. left. apply (Hpar c'); [by right|done].
  Qed.

  Context (S : list node) (v0 : node).
  (** [q]: nodes whose turn is over; [p]: nodes added. *)
  Definition NInv (q p cur E : list node) (table : tensor) : Prop :=
    Inv D g p cur E table ∧ NoDup p ∧ (∀ v, v ∈ p → v ∈ t) ∧ (∀ v, v ∈ E ↔ v ∈ q ∧ v ∉ S) ∧
    (∀ v w, v ∈ q → w ∈ children g v → w ∈ p) ∧ (v0 ∈ p) ∧ (∀ v, v ∈ p → v = v0 ∨ ∃ u, (u, v) ∈ Ar).

  Lemma filter_ne (l : list node) v : filter (λ w, w ∉ [v]) l = filter (λ w, w ≠ v) l.
  Proof. apply list_filter_iff. intros w. rewrite elem_of_list_singleton. done. Qed.
  Lemma new_step_spec q v r p cur E table :
    t = q ++ v :: r → NInv q p cur E table →
    (∀ st, new_step o D g S v (cur, table) = Ok st → ∃ p' cur' E' table', st = (cur', table') ∧ NInv (q ++ [v]) p' cur' E' table') ∧
    ((v ∈ p) → (∀ c u, c ∈ children g v → (u, c) ∈ Ar → u = v) → ∃ st, new_step o D g S v (cur, table) = Ok st).
  Proof using All.
    intros Heq (HI & Hndp & Hpt & HE & Hch & Hv0 & Hroot). unfold new_step. cbn [fst snd].
    set (cs := on o _ _).
    assert (∀ c, c ∈ cs ↔ c ∈ children g v ∧ c ∉ cur) as Hcs.
    { intros c. unfold cs. rewrite elem_of_on, elem_of_difference, elem_of_list_to_set. done. }
    pose proof HI as (Hperm & _ & _).
    assert (v ∉ q) as Hvq.
    { destruct Ht as (Hnd & _). rewrite Heq in Hnd. apply NoDup_app in Hnd as (_ & Hd & _). intros H. apply (Hd v H). by left. }
    assert (∀ c, c ∈ cs → c ∉ p ∧ c ∈ d_nodes g) as Hnew.
    { intros c [Hc Hcc]%Hcs. assert (c ∈ d_nodes g) as Hcg by (by apply (g_children D g Hg HgA) in Hc as [_ ?]). split; [|done].
      intros Hcp. rewrite <-Hperm in Hcp. apply elem_of_app in Hcp as [?|HcE]; [done|]. apply HE in HcE as [HcE _].
      eapply (later D Hwf g t Hg HgA Ht q v r); [exact Heq|exact Hc|]. apply elem_of_app. by left. }
    destruct (new_children_spec cs p cur E table Hndp Hpt (NoDup_on _ _ _) Hnew HI) as [H1 H2].
    assert (NoDup (p ++ cs)) as Hndp'.
    { apply NoDup_app. split; [done|]. split; [|apply NoDup_on]. intros c Hc Hcc. by apply Hnew in Hcc as [? _]. }
    assert (∀ table', Inv D g (p ++ cs) (cur ++ cs) E table' → NoDup (p ++ cs) ∧ (∀ v, v ∈ p ++ cs → v ∈ t) ∧
      (∀ x w, x ∈ q ++ [v] → w ∈ children g x → w ∈ p ++ cs) ∧ (v0 ∈ p ++ cs) ∧ (∀ v, v ∈ p ++ cs → v = v0 ∨ ∃ u, (u, v) ∈ Ar)) as Hrest.
    { intros table' HI'. split; [done|]. split; [|split; [|split]].
      - intros w [Hw|Hw]%elem_of_app; [by apply Hpt|]. apply (g_in g t Ht). by apply Hnew in Hw as [_ ?].
      - intros x w [Hx| ->%elem_of_list_singleton]%elem_of_app Hw; apply elem_of_app; [left; by eapply Hch|].
        destruct (decide (w ∈ cur)) as [Hc|Hc]; [left; rewrite <-Hperm; apply elem_of_app; by left|right; by apply Hcs].
      - apply elem_of_app. by left.
      - intros w [Hw|Hw]%elem_of_app; [by apply Hroot|]. right. exists v. apply Hcs in Hw as [Hw _]. by apply (g_children D g Hg HgA) in Hw as [? _]. }
    split.
    - intros st. destruct (loopR _ _ _) as [st1|] eqn:El; [|done]. destruct (H1 st1 eq_refl) as (table' & -> & HI'). cbn [res_bind fst snd].
      destruct (Hrest table' HI') as (R1 & R2 & R3 & R4 & R5). case_decide as HvS.
      + intros [= <-]. exists (p ++ cs), (cur ++ cs), E, table'. split; [done|]. split; [done|]. split; [done|]. split; [done|]. split; [|done].
        intros w. rewrite HE, elem_of_app, elem_of_list_singleton. split; [tauto|]. intros [[?| ->] ?]; [done|done].
      + case_decide as Hvc; [|done]. intros [= <-]. eexists (p ++ cs), _, _, _. split; [done|]. split; [|split; [done|split; [done|split; [|done]]]].
        * rewrite <-filter_ne. apply (drop_step D Hwf g t Hg HgN HgA Ht clip (clip_prob D Htiny) (p ++ cs) (cur ++ cs) E table' [v]); [done|done| |].
          -- intros w ->%elem_of_list_singleton x Hx. apply (R3 v); [|done]. apply elem_of_app. right. by left.
          -- assert (NoDup (cur ++ cs)) as Hndc.
             { destruct HI' as (Hp' & _). rewrite <-Hp' in Hndp'. by apply NoDup_app in Hndp' as (? & _ & _). }
             intros i w Hi. rewrite !elem_of_list_singleton. split; [intros ->; rewrite pos_lookup in Hi by done; congruence|]. intros ->. symmetry. by apply pos_unique.
        * intros w. rewrite elem_of_app, elem_of_list_filter, HE, (elem_of_app q [v]), !elem_of_list_singleton. split.
          -- intros [[-> ?]|[? ?]]; (split; [|done]); [by right|by left].
          -- intros [[?| ->] ?]; [by right|left]. done.
    - intros Hvp Honly. assert (v ∈ cur) as Hvc.
      { rewrite <-Hperm in Hvp. apply elem_of_app in Hvp as [?|H]; [done|]. by apply HE in H as [? _]. }
      destruct H2 as [st1 El].
      { intros c u [Hc _]%Hcs Hu. by rewrite (Honly c u Hc Hu). }
      rewrite El. destruct (H1 st1 El) as (table' & -> & HI'). cbn [res_bind fst snd]. case_decide; [by eexists|]. rewrite decide_True; [by eexists|]. apply elem_of_app. by left.
  Qed.
  Lemma new_loop_spec r : ∀ q p cur E table, t = q ++ r → NInv q p cur E table →
    (∀ st, loopR (new_step o D g S) r (cur, table) = Ok st → ∃ p' cur' E' table', st = (cur', table') ∧ NInv t p' cur' E' table') ∧
    ((∀ c u u', (u, c) ∈ Ar → (u', c) ∈ Ar → c ∈ d_nodes g → u = u') → (∀ v, v ∈ t → v = v0 ∨ ∃ u, (u, v) ∈ Ar) → ∃ st, loopR (new_step o D g S) r (cur, table) = Ok st).
  Proof using All.
    induction r as [|v r IH]; intros q p cur E table Heq HI; cbn [loopR].
    - rewrite app_nil_r in Heq. subst q. split; [intros st [= <-]; by exists p, cur, E, table|]. intros _ _. by eexists.
    - destruct (new_step_spec q v r p cur E table Heq HI) as [H1 H2].
      assert (∀ st, new_step o D g S v (cur, table) = Ok st → ∃ p' cur' E' table', st = (cur', table') ∧ NInv (q ++ [v]) p' cur' E' table') as H1' by done.
      assert (t = (q ++ [v]) ++ r) as Heq' by (by rewrite <-app_assoc). split.
      + intros st. destruct (new_step o D g S v (cur, table)) as [st1|] eqn:E1; [|done]. destruct (H1 st1 eq_refl) as (p1 & cur1 & E' & table1 & -> & HI1).
        by apply (IH (q ++ [v]) p1 cur1 E' table1).
      + intros Htree Hsrc. destruct H2 as [st1 E1].
        * destruct HI as (_ & _ & _ & _ & Hch & Hv0 & _). assert (v ∈ t) as Hvt by (rewrite Heq; apply elem_of_app; right; by left).
          destruct (Hsrc v Hvt) as [->|[u Hu]]; [done|]. apply (Hch u).
          -- by eapply (g_pre D g t Hg HgA Ht q v r).
          -- apply (g_children D g Hg HgA). split; [done|]. by apply (g_in g t Ht).
        * intros c u Hc Hu. apply (g_children D g Hg HgA) in Hc as [Hc Hcg]. by eapply Htree.
        * rewrite E1. destruct (H1 st1 E1) as (p1 & cur1 & E' & table1 & -> & HI1). by apply (IH (q ++ [v]) p1 cur1 E' table1).
  Qed.
End new.

(** ** C80: [get_marginals_new] *)
(** Whenever it returns a table, this is the table of the marginals. *)
Lemma new_main (o : oracle) (D : ddag) (S : list node) :
  ddag_wf D → stochastic D → no_tiny D → S ≠ [] → (∀ v, v ∈ S → v ∈ d_nodes (dd_dag D)) →
  let anc x := ∃ y, y ∈ S ∧ rtc (edge (d_arcs (dd_dag D))) x y in
  (∀ t, get_marginals_new o D S = Ok t → NoDup S ∧ t_shape t = card D <$> S ∧
    (∀ a, in_range D S a → t_at t (vals a S) = marginal D (list_to_set S) a) ∧
    (∀ x y, anc x → anc y → (∀ u, (u, x) ∉ d_arcs (dd_dag D)) → (∀ u, (u, y) ∉ d_arcs (dd_dag D)) → x = y)) ∧
  (NoDup S → (∀ c u u', anc c → (u, c) ∈ d_arcs (dd_dag D) → (u', c) ∈ d_arcs (dd_dag D) → u = u') →
    (∀ x y, anc x → anc y → (∀ u, (u, x) ∉ d_arcs (dd_dag D)) → (∀ u, (u, y) ∉ d_arcs (dd_dag D)) → x = y) →
    ∃ t, get_marginals_new o D S = Ok t).
Proof.
  intros Hwf Hst Hti Hne HS anc. destruct (anc_setup D o Hwf S HS) as (g & t & Eg & Et & Hg & HgN & HgA & Ht & HgS & Hcl).
  unfold get_marginals_new. rewrite decide_False by done. rewrite Eg. cbn [res_bind]. rewrite Et. cbn [res_bind].
  assert (∀ v, v ∈ S → v ∈ t) as HSt by (intros v Hv; destruct Ht as (_ & H & _); apply H, HgS; by exists v).
  destruct t as [|v0 rest].
  { destruct S as [|s S]; [done|]. specialize (HSt s ltac:(by left)). by apply elem_of_nil in HSt. }
  set (t := v0 :: rest) in *.
  assert (v0 ∈ d_nodes g) as Hv0g by (destruct Ht as (_ & H & _); apply H; by left).
  assert (v0 ∈ d_nodes (dd_dag D)) as Hv0 by (by apply HgN).
  pose proof Hwf as (_ & _ & Hw). destruct (Hw v0 Hv0) as (_ & ps0 & c0 & _ & Ep0 & Ec & _ & Hps0 & _). rewrite Ec.
  destruct (first_Inv D Hwf g t Hg HgN HgA Ht v0 rest c0 eq_refl Ec) as (HI & _ & Ep). rewrite Ep in Ep0. injection Ep0 as <-.
  assert (∀ u, (u, v0) ∉ d_arcs (dd_dag D)) as Hsrc0 by (intros u Hu%Hps0; by apply elem_of_nil in Hu).
  assert (NInv D g t S v0 [] [v0] [v0] [] c0) as HN.
  { split; [done|]. split; [apply NoDup_singleton|]. split; [intros v ->%elem_of_list_singleton; by left|]. split.
    { intros v. rewrite elem_of_nil. split; [done|]. by intros [H _]. }
    split; [intros v w Hv; by apply elem_of_nil in Hv|]. split; [by left|]. intros v ->%elem_of_list_singleton. by left. }
  destruct (new_loop_spec D o Hwf Hti g t Hg HgN HgA Ht S v0 t [] [v0] [v0] [] c0 eq_refl HN) as [H1 H2].
  assert (∀ st, loopR (new_step o D g S) t ([v0], c0) = Ok st → ∃ p cur E table, st = (cur, table) ∧ NInv D g t S v0 t p cur E table) as H1' by done.
  split.
  - intros t'. destruct (loopR _ _ _) as [st|] eqn:El; [|done]. destruct (H1 st eq_refl) as (p & cur & E & table & -> & HN').
    cbn [res_bind fst snd]. intros Hr. destruct (repeat_Ok _ _ _ _ Hr) as [HndS HcS].
    destruct HN' as ((Hperm & _ & Hrep) & Hndp & Hpt & HE & Hch & _ & Hroot).
    assert (∀ v, v ∈ p ↔ v ∈ t) as Hp.
    { intros v. split; [apply Hpt|]. intros Hv. rewrite <-Hperm, elem_of_app. destruct (decide (v ∈ S)) as [H|H]; [left; by apply HcS|right; by apply HE]. }
    assert (NoDup cur) as Hndc by (rewrite <-Hperm in Hndp; by apply NoDup_app in Hndp as (? & _ & _)).
    destruct (repeat_rep D table cur S _ Hrep Hndc HndS HcS) as (t'' & Hr' & Hrep'). rewrite Hr in Hr'. injection Hr' as <-. destruct Hrep' as [Hsh Hat].
    split; [done|]. split; [done|]. split.
    + intros a Ha. rewrite Hat by done. apply (marginal_ancestral D Hwf Hst (d_nodes g)).
      * done.
      * done.
      * done.
      * intros v. rewrite Hp. apply (g_in g t Ht).
      * rewrite <-Hperm. apply Permutation_app_tail. apply NoDup_Permutation; [done|done|]. intros v. by rewrite HcS.
      * done.
    + assert (∀ x, anc x → (∀ u, (u, x) ∉ d_arcs (dd_dag D)) → x = v0) as H.
      { intros x Hx Hs. apply HgS, (g_in g t Ht), Hp in Hx. destruct (Hroot x Hx) as [?|[u Hu]]; [done|]. by apply Hs in Hu. }
      intros x y Hx Hy Hsx Hsy. by rewrite (H x), (H y).
  - intros HndS Htree Hone. destruct H2 as [st El].
    + intros c u u' Hu Hu' Hc. apply (Htree c); [by apply HgS|done|done].
    + intros v Hv. apply (g_in g t Ht) in Hv. destruct (decide (set_Exists (λ e : arc, e.2 = v) (d_arcs (dd_dag D)))) as [([u w] & Hu & Heq)|Hno].
      * cbn in Heq. subst w. right. by exists u.
      * left. apply Hone; [by apply HgS|by apply HgS| |done]. intros u Hu. apply Hno. by exists (u, v).
    + rewrite El. destruct (H1' st El) as (p & cur & E & table & -> & HN'). cbn [res_bind fst snd].
      destruct HN' as ((Hperm & _ & Hrep) & Hndp & Hpt & HE & Hch & Hv0p & Hroot).
      destruct (repeat_rep D table cur S _ Hrep) as (t'' & Hr' & _); [rewrite <-Hperm in Hndp; by apply NoDup_app in Hndp as (? & _ & _)|done| |by exists t''].
      intros v. split.
      * intros Hv. assert (v ∈ p) as Hvp by (rewrite <-Hperm; apply elem_of_app; by left). destruct (decide (v ∈ S)) as [|Hn]; [done|].
        assert (v ∈ E) as HvE by (apply HE; split; [by apply Hpt|done]). rewrite <-Hperm in Hndp. apply NoDup_app in Hndp as (_ & Hd & _). by apply Hd in HvE.
      * intros Hv. pose proof (HSt v Hv) as Hvt. assert (v ∈ p) as Hvp.
        { destruct (decide (v = v0)) as [->|Hne']; [done|]. destruct (decide (set_Exists (λ e : arc, e.2 = v) (d_arcs (dd_dag D)))) as [([u w] & Hu & Heq)|Hno].
          - cbn in Heq. subst w. apply (Hch u).
            + apply (g_in g t Ht). apply (Hcl u v Hu). by apply (g_in g t Ht).
            + apply (g_children D g Hg HgA). split; [done|]. by apply (g_in g t Ht).
          - destruct Hne'. apply Hone; [apply HgS; by apply (g_in g t Ht)|by apply HgS| |done]. intros u Hu. apply Hno. by exists (u, v). }
        rewrite <-Hperm in Hvp. apply elem_of_app in Hvp as [?|HvE]; [done|]. by apply HE in HvE as [_ ?].
Qed.
