(** Variable elimination along a topological order. *)
From Coq Require Import QArith.Qcanon.
From Verif Require Import Py Spec DagModel QMatModel DiscreteModel SpecDiscrete TopoProofs StateProofs ReachProofs QueryProofs CoreProofs MarkovProofs QMatProofs PropertiesDag DiscreteProofs.
#[local] Open Scope Qc_scope.

Lemma topo_pre N E l pre x post u : topo_order N E l → l = pre ++ x :: post → (u, x) ∈ E → u ∈ N → u ∈ pre.
Proof.
  intros (Hnd & Hl & Ho) -> He Hu. apply Hl in Hu. apply elem_of_list_lookup in Hu as [i Hi].
  assert ((pre ++ x :: post) !! length pre = Some x) as Hx by (by apply list_lookup_middle).
  pose proof (Ho _ _ _ _ He Hi Hx) as Hlt. rewrite lookup_app_l in Hi by done. by eapply elem_of_list_lookup_2.
Qed.

Section elim.
  Context (D : ddag) (Hwf : ddag_wf D).
  Notation N := (d_nodes (dd_dag D)).
  Notation Ar := (d_arcs (dd_dag D)).

  Lemma prob_agree a b v : v ∈ N → a !!! v = b !!! v → (∀ u, (u, v) ∈ Ar → a !!! u = b !!! u) → prob D a v = prob D b v.
  Proof using Hwf.
    intros Hv He Hp. destruct Hwf as (_ & _ & H). destruct (H v Hv) as (al & ps & c & _ & E1 & E2 & _ & Hps & _).
    unfold prob. rewrite E1, E2. f_equal. apply vals_ext. intros w [Hw| ->%elem_of_list_singleton]%elem_of_app; [|done]. apply Hp. by apply Hps.
  Qed.
  Lemma dims_card v : v ∈ N → dd_dims D !! v = Some (card D v).
  Proof using Hwf.
    intros Hv. destruct Hwf as (_ & _ & H). destruct (H v Hv) as (al & ps & c & E1 & _). unfold dd_dims, card. by rewrite lookup_fmap, E1.
  Qed.
  Lemma D_over : over N Ar.
  Proof using Hwf. destruct Hwf as (H & _ & _). apply wf_views_agree in H. apply H. Qed.

  Definition plist (p : list node) (a : assignment) : Qc := foldr (λ v acc, prob D a v * acc) 1 p.
  Lemma plist_app p q a : plist (p ++ q) a = plist p a * plist q a.
  Proof. unfold plist. induction p as [|v p IH]; cbn; [ring|]. rewrite IH. ring. Qed.
  Lemma plist_perm p q a : p ≡ₚ q → plist p a = plist q a.
  Proof. unfold plist. induction 1 as [|v p q Hp IH|v w p|p q r H1 IH1 H2 IH2]; cbn; [done|by rewrite IH|ring|congruence]. Qed.
  Lemma plist_one v a : plist [v] a = prob D a v.
  Proof. cbn. ring. Qed.
  Lemma plist_agree p a b : (∀ v, v ∈ p → v ∈ N) → (∀ v, v ∈ p → a !!! v = b !!! v) → (∀ u v, (u, v) ∈ Ar → v ∈ p → a !!! u = b !!! u) →
    plist p a = plist p b.
  Proof using Hwf.
    intros HN Hv Hu. unfold plist. induction p as [|x p IH]; cbn; [done|]. f_equal.
    - apply prob_agree; [apply HN; by left|apply Hv; by left|]. intros u He. apply (Hu u x He). by left.
    - apply IH.
      + intros v Hp. apply HN. by right.
      + intros v Hp. apply Hv. by right.
      + intros u v He Hp. apply (Hu u v He). by right.
  Qed.

  Lemma clip_prob (Ht : no_tiny D) v ps a : v ∈ N → dd_par D !! v = Some ps → in_range D (ps ++ [v]) a → clip (prob D a v) = prob D a v.
  Proof.
    intros Hv Hp Ha. unfold clip. destruct (Ht v ps a Hv Hp Ha) as [H|H].
    - rewrite H. by destruct (decide _).
    - by rewrite decide_True.
  Qed.

  (** Summing out nodes below an ancestral set. *)
  Lemma sum_below (Hst : stochastic D) (A : list node) l b :
    (∀ v, v ∈ A → v ∈ N) → (∀ v, v ∈ l → v ∈ N) → NoDup (A ++ l) → (∀ u v, (u, v) ∈ Ar → v ∈ A → u ∈ A) →
    (∀ pre x post u, l = pre ++ x :: post → (u, x) ∈ Ar → u ∈ A ∨ u ∈ pre) → in_range D A b →
    sum_over D l (plist (A ++ l)) b = plist A b.
  Proof using Hwf.
    intros HA. revert b. induction l as [|x l IH] using rev_ind; intros b Hl Hnd Hanc Ho Hb; [cbn; by rewrite app_nil_r|].
    rewrite sum_over_app, app_assoc. rewrite app_assoc in Hnd. apply NoDup_app in Hnd as (Hnd & Hx & _).
    rewrite <-IH; [|by intros v Hv; apply Hl, elem_of_app; left|done|done| |done].
    2:{ intros pre y post u -> He. apply (Ho pre y (post ++ [x])); [by rewrite <-app_assoc|done]. }
    apply sum_over_ext. intros c [Hc1 Hc2]. cbn [sum_over].
    assert (x ∈ N) as HxN by (apply Hl, elem_of_app; right; by left).
    assert (∀ u v, (u, v) ∈ Ar → v ∈ A ++ l → u ∈ A ++ l) as Hcl.
    { intros u v He [Hv|Hv]%elem_of_app; apply elem_of_app; [left; by eapply Hanc|].
      apply elem_of_list_split in Hv as (pre & post & ->). destruct (Ho pre v (post ++ [x]) u) as [?|?]; [by rewrite <-app_assoc|done|by left|].
      right. apply elem_of_app. by left. }
    assert (∀ v, v ∈ A ++ l → v ≠ x) as Hne by (intros v Hv ->; apply (Hx x Hv); by left).
    transitivity (qsum (card D x) (λ k, plist (A ++ l) c * prob D (<[x := k]> c) x)).
    { apply qsum_ext. intros k Hk. rewrite plist_app, plist_one. f_equal. apply plist_agree.
      - intros v [?|?]%elem_of_app; [by apply HA|by apply Hl, elem_of_app; left].
      - intros v Hv. apply ins_other. by apply not_eq_sym, Hne.
      - intros u v He Hv. apply ins_other. apply not_eq_sym, Hne. by eapply Hcl. }
    rewrite qsum_mul_l. destruct Hwf as (_ & _ & Hw). destruct (Hw x HxN) as (al & ps & t & _ & Ep & _ & _ & Hps & _).
    rewrite (Hst x ps); [ring|done|done|]. intros p Hp. apply Hps in Hp.
    destruct (Ho l x [] p) as [?|?]; [done|done| |by apply Hc2].
    rewrite Hc1; [by apply Hb|]. intros Hpl. apply NoDup_app in Hnd as (_ & Hd & _). by eapply Hd.
  Qed.
  Lemma marginal_ancestral (Hst : stochastic D) (A : nset) (S t E : list node) a :
    A ⊆ N → (∀ u v, (u, v) ∈ Ar → v ∈ A → u ∈ A) → NoDup t → (∀ v, v ∈ t ↔ v ∈ A) → S ++ E ≡ₚ t → in_range D S a →
    sum_over D E (plist t) a = marginal D (list_to_set S) a.
  Proof using Hwf.
    intros HAN Hcl Hnd HtA HSE Ha. unfold marginal.
    set (N' := N ∖ A). set (E' := filter (λ e : arc, e.1 ∉ A ∧ e.2 ∉ A) Ar).
    assert (over N' E') as Hov.
    { intros x y [[H1 H2] H3]%elem_of_filter. cbn in *. destruct (D_over _ _ H3). set_solver. }
    assert (acyclic E') as Hac.
    { destruct Hwf as (_ & Hac & _). eapply acyclic_mono; [|exact Hac]. intros e [_ ?]%elem_of_filter. done. }
    destruct (exists_topo N' E' Hac Hov) as [l Hl].
    assert (NoDup (S ++ E)) as HndSE by (by rewrite HSE).
    assert (elements (N ∖ list_to_set S) ≡ₚ E ++ l) as Hperm.
    { apply NoDup_Permutation; [apply NoDup_elements| |].
      - apply NoDup_app. split; [by apply NoDup_app in HndSE as (_ & _ & ?)|]. split; [|by destruct Hl].
        intros v Hv Hvl. destruct Hl as (_ & Hl & _). apply Hl in Hvl. assert (v ∈ t) as H by (rewrite <-HSE; apply elem_of_app; by right).
        apply HtA in H. set_solver.
      - intros v. rewrite elem_of_elements, elem_of_difference, elem_of_list_to_set, elem_of_app. destruct Hl as (_ & Hl & _). rewrite Hl.
        unfold N'. rewrite elem_of_difference. apply NoDup_app in HndSE as (_ & Hd & _). split.
        + intros [H1 H2]. destruct (decide (v ∈ A)) as [H|H]; [left|by right]. apply HtA in H. rewrite <-HSE in H. apply elem_of_app in H as [?|?]; done.
        + intros [H|[H1 H2]].
          * split; [apply HAN, HtA; rewrite <-HSE; apply elem_of_app; by right|]. intros H'. by apply (Hd v H').
          * split; [done|]. intros H. apply H2, HtA. rewrite <-HSE. apply elem_of_app. by left. }
    rewrite (sum_over_perm D _ _ _ _ (NoDup_elements _) Hperm), sum_over_app. apply sum_over_ext. intros b [Hb1 Hb2].
    rewrite <-(sum_below Hst t l b).
    - apply sum_over_ext. intros c _. unfold joint. change (foldr _ _ _) with (plist (elements N) c). apply plist_perm.
      apply NoDup_Permutation; [| apply NoDup_elements|].
      + apply NoDup_app. split; [done|]. split; [|by destruct Hl]. intros v Hv Hvl. destruct Hl as (_ & Hl & _). apply Hl in Hvl. apply HtA in Hv. set_solver.
      + intros v. rewrite elem_of_app, HtA, elem_of_elements. destruct Hl as (_ & -> & _). unfold N'. rewrite elem_of_difference.
        destruct (decide (v ∈ A)) as [H|H]; [|tauto]. split; [by intros _; apply HAN|by left].
    - intros v Hv. by apply HAN, HtA.
    - intros v Hv. destruct Hl as (_ & Hl & _). apply Hl in Hv. set_solver.
    - apply NoDup_app. split; [done|]. split; [|by destruct Hl]. intros v Hv Hvl. destruct Hl as (_ & Hl & _). apply Hl in Hvl. apply HtA in Hv. set_solver.
    - intros u v He Hv. apply HtA. apply HtA in Hv. by eapply Hcl.
    - intros pre x post u Heq He. destruct (decide (u ∈ A)) as [H|H]; [left; by apply HtA|right].
      assert (x ∈ N') as Hx by (destruct Hl as (_ & Hl & _); apply Hl; rewrite Heq; apply elem_of_app; right; by left).
      eapply (topo_pre N' E' l); [done|done| |].
      + apply elem_of_filter. split; [|done]. cbn. split; [done|]. set_solver.
      + destruct (D_over _ _ He). set_solver.
    - intros v Hv. apply HtA in Hv. destruct (decide (v ∈ E)) as [H|H]; [by apply Hb2|]. rewrite Hb1 by done. apply Ha.
      apply HtA in Hv. rewrite <-HSE in Hv. apply elem_of_app in Hv as [?|?]; done.
  Qed.

  (** The graph of the ancestors of the queried nodes. *)
  Context (g : dag) (t : list node).
  Context (Hg : wf g) (HgN : d_nodes g ⊆ N) (HgA : ∀ x y, (x, y) ∈ d_arcs g ↔ (x, y) ∈ Ar ∧ y ∈ d_nodes g) (Ht : topo_order (d_nodes g) (d_arcs g) t).
  Context (f : Qc → Qc) (Hf : ∀ v ps a, v ∈ N → dd_par D !! v = Some ps → in_range D (ps ++ [v]) a → f (prob D a v) = prob D a v).

  Lemma g_children v w : w ∈ children g v ↔ (v, w) ∈ Ar ∧ w ∈ d_nodes g.
  Proof using Hg HgA. rewrite (wf_chi g Hg). apply HgA. Qed.
  Lemma g_in v : v ∈ t ↔ v ∈ d_nodes g.
  Proof using Ht. destruct Ht as (_ & H & _). apply H. Qed.
  Lemma g_pre p new rest u : t = p ++ new :: rest → (u, new) ∈ Ar → u ∈ p.
  Proof using Hg HgA Ht.
    intros Heq He. assert ((u, new) ∈ d_arcs g) as He'.
    { apply HgA. split; [done|]. apply g_in. rewrite Heq. apply elem_of_app. right. by left. }
    eapply topo_pre; [done|exact Heq|done|]. by destruct (wf_over g Hg _ _ He') as [? _].
  Qed.

  Definition Inv (p cur E : list node) (table : tensor) : Prop :=
    cur ++ E ≡ₚ p ∧ (∀ v, v ∈ E → ∀ w, w ∈ children g v → w ∈ p) ∧ rep D table cur (sum_over D E (plist p)).

  Lemma add_step p new rest cur E table ps c :
    t = p ++ new :: rest ∨ (new ∉ p ∧ new ∈ d_nodes g ∧ NoDup p ∧ (∀ v, v ∈ p → v ∈ t) ∧ (∀ u, (u, new) ∈ Ar → u ∈ p)) →
    Inv p cur E table → dd_par D !! new = Some ps → dd_cond D !! new = Some c →
    ps ⊆ cur ∧ ∃ table', add_variable_by f table cur c (dd_dims D) ps = Ok table' ∧ Inv (p ++ [new]) (cur ++ [new]) E table'.
  Proof using All.
    intros Hnew (Hperm & Hch & Hrep) Ep Ec.
    assert (new ∉ p ∧ new ∈ d_nodes g ∧ NoDup p ∧ (∀ v, v ∈ p → v ∈ t) ∧ (∀ u, (u, new) ∈ Ar → u ∈ p)) as (Hnp & Hng & Hndp & Hpt & Hpar).
    { destruct Hnew as [Heq|?]; [|done]. destruct Ht as (Hnd & _ & _). pose proof Hnd as Hnd'. rewrite Heq in Hnd'. apply NoDup_app in Hnd' as (H1 & H2 & H3). split_and!.
      - intros H. apply (H2 _ H). by left.
      - apply g_in. rewrite Heq. apply elem_of_app. right. by left.
      - done.
      - intros v Hv. rewrite Heq. apply elem_of_app. by left.
      - intros u. by apply (g_pre p new rest). }
    clear Hnew. pose proof Hwf as (_ & _ & Hw). destruct (Hw new) as (al & ps' & c' & Ea & Ep' & Ec' & Hnps & Hps & Hshape); [by apply HgN|].
    rewrite Ep in Ep'. rewrite Ec in Ec'. injection Ep' as <-. injection Ec' as <-.
    assert (NoDup (cur ++ E)) as Hnd by (by rewrite Hperm). apply NoDup_app in Hnd as (Hndc & Hdis & HndE).
    assert (∀ u, (u, new) ∈ Ar → u ∉ E) as HpE.
    { intros u He Hu. apply Hnp. apply (Hch u Hu). by apply g_children. }
    assert (ps ⊆ cur) as Hsub.
    { intros u Hu%Hps. assert (u ∈ cur ++ E) as H by (rewrite Hperm; by apply Hpar). apply elem_of_app in H as [?|H]; [done|]. by apply HpE in H. }
    split; [done|].
    assert (∀ v, v ∈ cur → v ∈ N) as HcN.
    { intros v Hv. apply HgN, g_in, Hpt. rewrite <-Hperm. apply elem_of_app. by left. }
    destruct (add_variable_rep D f table cur c new ps _ Hrep Hndc Hnps Hsub Hshape) as (table' & -> & Hrep').
    { intros v Hv. apply dims_card. by apply HcN. }
    exists table'. split; [done|]. split; [|split].
    - rewrite <-Hperm. rewrite <-!app_assoc. apply Permutation_app_head, Permutation_app_comm.
    - intros v Hv w Hw'. apply elem_of_app. left. by eapply Hch.
    - eapply rep_ext; [exact Hrep'|]. intros a Ha. cbn beta.
      assert (prob D a new = t_at c (vals a (ps ++ [new]))) as Hpr by (unfold prob; by rewrite Ep, Ec).
      rewrite <-Hpr. rewrite (Hf new ps a); [|by apply HgN|done|].
      2:{ intros v [Hv| ->%elem_of_list_singleton]%elem_of_app; apply Ha, elem_of_app; [left; by apply Hsub|right; by left]. }
      rewrite <-(sum_over_mul D E (plist p) (λ b, prob D b new)).
      + apply sum_over_ext. intros b _. by rewrite plist_app, plist_one.
      + intros b [Hb1 Hb2]. apply prob_agree; [by apply HgN| |].
        * apply Hb1. intros H. apply Hnp. rewrite <-Hperm. apply elem_of_app. by right.
        * intros u Hu. by apply Hb1, HpE.
  Qed.
  (** Summing out nodes of the current table. *)
  Lemma drop_step p cur E table (ms : list node) axes :
    NoDup p → Inv p cur E table → (∀ v, v ∈ ms → ∀ w, w ∈ children g v → w ∈ p) → (∀ i v, cur !! i = Some v → i ∈ axes ↔ v ∈ ms) →
    Inv p (filter (λ v, v ∉ ms) cur) (filter (λ v, v ∈ ms) cur ++ E) (marginalize table axes).
  Proof using All.
    intros Hndp (Hperm & Hch & Hrep) Hms Hax. split; [|split].
    - rewrite <-Hperm, app_assoc. apply Permutation_app_tail. clear. induction cur as [|v cur IH]; [done|]. rewrite !filter_cons.
      destruct (decide (v ∈ ms)) as [H|H].
      + rewrite (decide_False (P := v ∉ ms)) by (by intros ?). rewrite <-Permutation_middle. by rewrite IH.
      + rewrite decide_True by done. cbn. by rewrite IH.
    - intros v [[Hv _]%elem_of_list_filter|Hv]%elem_of_app; [by apply Hms|by apply Hch].
    - apply (marginalize_rep D table cur ms axes) in Hrep; [|rewrite <-Hperm in Hndp; by apply NoDup_app in Hndp as (? & _ & _)|done].
      eapply rep_ext; [exact Hrep|]. intros a _. by rewrite sum_over_app.
  Qed.

  Lemma elim_step_spec keep p new rest cur E table :
    t = p ++ new :: rest → Inv p cur E table → (keep new new = true ∨ ∃ w, w ∈ children g new ∧ w ∉ p ++ [new]) →
    ∃ cur' E' table', elim_step_by f D g keep new (cur, list_to_set p, table) = Ok (cur', list_to_set (p ++ [new]), table') ∧
      Inv (p ++ [new]) cur' E' table' ∧ (∀ v, v ∈ cur' → keep new v = true ∨ ∃ w, w ∈ children g v ∧ w ∉ p ++ [new]) ∧
      (∀ v, v ∈ E' → v ∈ E ∨ keep new v = false).
  Proof using All.
    intros Heq HI Hkeep. assert (new ∈ d_nodes g) as Hng.
    { apply g_in. rewrite Heq. apply elem_of_app. right. by left. }
    pose proof Hwf as (_ & _ & Hw). destruct (Hw new) as (al & ps & c & Ea & Ep & Ec & Hnps & Hps & Hshape); [by apply HgN|].
    destruct (add_step p new rest cur E table ps c (or_introl Heq) HI Ep Ec) as (Hsub & table' & Hadd & HI').
    unfold elim_step_by. rewrite Ec, Ep, Hadd. cbn [res_bind].
    assert ({[new]} ∪ list_to_set p = list_to_set (p ++ [new]) :> nset) as ->.
    { rewrite list_to_set_app_L. cbn. set_solver. }
    assert (∀ v, children g v ⊆ list_to_set (p ++ [new]) ↔ ∀ w, w ∈ children g v → w ∈ p ++ [new]) as Hcs.
    { intros v. split; intros H w Hw'; [apply H in Hw'; by apply elem_of_list_to_set in Hw'|apply elem_of_list_to_set; by apply H]. }
    set (Q := λ v, children g v ⊆ list_to_set (p ++ [new]) ∧ keep new v = false).
    assert (∀ v, ¬ Q v → keep new v = true ∨ ∃ w, w ∈ children g v ∧ w ∉ p ++ [new]) as HnQ.
    { intros v Hv. destruct (keep new v) eqn:Ek; [by left|right]. destruct (decide (set_Exists (λ w, w ∉ p ++ [new]) (children g v))) as [(w & ? & ?)|Hn]; [by exists w|].
      destruct Hv. split; [|done]. apply Hcs. intros w Hw'. destruct (decide (w ∈ p ++ [new])) as [|Hnn]; [done|]. destruct Hn. by exists w. }
    set (ms := filter _ (cur ++ [new])).
    assert (∀ v, v ∈ ms ↔ v ∈ cur ++ [new] ∧ Q v) as Hms by (intros v; unfold ms; rewrite elem_of_list_filter; tauto).
    assert (new ∉ ms) as Hnm.
    { rewrite Hms. intros [_ [H1 H2]]. destruct Hkeep as [Hk|(w & Hw1 & Hw2)]; [congruence|]. apply Hw2. rewrite Hcs in H1. by apply H1. }
    destruct Ht as (Hndt & _ & _).
    assert (NoDup (p ++ [new])) as Hndp.
    { rewrite Heq in Hndt. rewrite (cons_middle new p rest), app_assoc in Hndt. by apply NoDup_app in Hndt as (? & _ & _). }
    case_decide as Hnil.
    { exists (cur ++ [new]), E, table'. split; [done|]. split; [done|]. split.
      - intros v Hv. apply HnQ. intros HQ. assert (v ∈ ms) as H by (by apply Hms). rewrite Hnil in H. by apply elem_of_nil in H.
      - intros v Hv. by left. }
    rewrite decide_False by done. eexists _, _, _. split; [done|]. split.
    - eapply (drop_step (p ++ [new]) (cur ++ [new]) E table' ms); [done|done| |].
      + intros v [_ [H _]]%Hms w Hw'. rewrite Hcs in H. by apply H.
      + assert (NoDup (cur ++ [new])) as Hndc by (destruct HI' as (Hp' & _); rewrite <-Hp' in Hndp; by apply NoDup_app in Hndp as (? & _ & _)).
        intros i v Hi. rewrite elem_of_list_fmap. split.
        * intros (w & -> & Hwm). pose proof Hwm as Hwc. apply Hms in Hwc as [Hwc _]. apply elem_of_app in Hwc as [Hwc|Hwc].
          -- rewrite lookup_app_l in Hi by (apply lookup_lt_is_Some; rewrite pos_lookup by done; done). rewrite pos_lookup in Hi by done. congruence.
          -- apply elem_of_list_singleton in Hwc as ->. done.
        * intros Hv. exists v. split; [|done]. apply Hms in Hv as Hv'. destruct Hv' as [Hv' _]. apply elem_of_app in Hv' as [Hv'|Hv'].
          -- symmetry. apply pos_unique; [by apply NoDup_app in Hndc as (? & _ & _)|]. apply lookup_app_Some in Hi as [?|[_ Hi]]; [done|].
             apply elem_of_list_lookup_2, elem_of_list_singleton in Hi as ->. done.
          -- apply elem_of_list_singleton in Hv' as ->. done.
    - split.
      + intros v [Hv1 Hv2]%elem_of_list_filter. apply HnQ. intros HQ. apply Hv1. by apply Hms.
      + intros v [[Hv _]%elem_of_list_filter|Hv]%elem_of_app; [right; by apply Hms in Hv as [_ [_ ?]]|by left].
  Qed.

  Lemma elim_loop keep rest : ∀ p cur E table,
    t = p ++ rest → p ≠ [] → Inv p cur E table →
    (∀ q new r, t = q ++ new :: r → keep new new = true ∨ ∃ w, w ∈ children g new ∧ w ∉ q ++ [new]) →
    ∃ cur' E' table', loopR (elim_step_by f D g keep) rest (cur, list_to_set p, table) = Ok (cur', list_to_set t, table') ∧
      Inv t cur' E' table' ∧ (∀ n, last rest = Some n → ∀ v, v ∈ cur' → keep n v = true) ∧ (rest = [] → cur' = cur) ∧
      (∀ v, v ∈ E' → v ∈ E ∨ ∃ n, n ∈ rest ∧ keep n v = false).
  Proof using All.
    induction rest as [|new rest IH]; intros p cur E table Heq Hp HI Hkeep.
    - rewrite app_nil_r in Heq. subst p. exists cur, E, table. split; [done|]. split; [done|]. split; [done|]. split; [done|]. intros v Hv. by left.
    - destruct (elim_step_spec keep p new rest cur E table Heq HI (Hkeep _ _ _ Heq)) as (cur1 & E1 & table1 & Hs & HI1 & Hk1 & HE1).
      cbn [loopR]. rewrite Hs.
      destruct (IH (p ++ [new]) cur1 E1 table1) as (cur2 & E2 & table2 & Hs2 & HI2 & Hk2 & Hc2 & HE2); [by rewrite <-app_assoc|by destruct p|done|done|].
      exists cur2, E2, table2. split; [done|]. split; [done|]. split; [|split; [done|]].
      + intros n Hn v Hv. destruct rest as [|r rest].
        * cbn in Hn. injection Hn as <-. rewrite Hc2 in Hv by done. destruct (Hk1 v Hv) as [?|(w & Hw1 & Hw2)]; [done|]. destruct Hw2.
          rewrite <-Heq. apply g_in. by apply g_children in Hw1 as [_ ?].
        * rewrite last_cons_cons in Hn. by apply (Hk2 n).
      + intros v Hv. destruct (HE2 v Hv) as [H|(n & Hn & Hkn)]; [|right; exists n; split; [by right|done]].
        destruct (HE1 v H) as [?|?]; [by left|right]. exists new. split; [by left|done].
  Qed.
End elim.

(** ** Checking the hypotheses on concrete networks *)
Definition all_ix (shape : list nat) : list (list nat) := foldr (λ n acc, k ← seq 0 n; cons k <$> acc) [[]] shape.
Lemma all_ix_vals D a l : in_range D l a → vals a l ∈ all_ix (card D <$> l).
Proof.
  induction l as [|v l IH]; intros Ha; cbn; [by left|]. apply elem_of_list_bind. exists (a !!! v). split.
  - apply elem_of_list_fmap. exists (vals a l). split; [done|]. apply IH. intros w Hw. apply Ha. by right.
  - apply elem_of_seq. split; [lia|]. cbn. apply Ha. by left.
Qed.
Definition check_rows (D : ddag) : bool :=
  bool_decide (set_Forall (λ v, match dd_alph D !! v, dd_par D !! v, dd_cond D !! v with
    | Some al, Some ps, Some c =>
      bool_decide (NoDup (ps ++ [v]) ∧ list_to_set ps = parents (dd_dag D) v ∧ t_shape c = card D <$> ps ++ [v]) &&
      forallb (λ ix, bool_decide (qsum (card D v) (λ k, t_at c (ix ++ [k])) = 1)) (all_ix (card D <$> ps))
    | _, _, _ => false end = true) (d_nodes (dd_dag D))).
Definition check_small (D : ddag) : bool :=
  bool_decide (set_Forall (λ v, match dd_par D !! v, dd_cond D !! v with
    | Some ps, Some c =>
      forallb (λ ix, bool_decide (t_at c ix = 0) || bool_decide (Q2Qc (QArith_base.Qmake 1 10000000000) < t_at c ix)) (all_ix (card D <$> ps ++ [v]))
    | _, _ => false end = true) (d_nodes (dd_dag D))).
Lemma check_rows_sound D : wf (dd_dag D) → acyclic (d_arcs (dd_dag D)) → check_rows D = true → ddag_wf D ∧ stochastic D.
Proof.
  intros Hw Hac Hc. apply bool_decide_eq_true in Hc.
  assert (∀ v, v ∈ d_nodes (dd_dag D) → ∃ al ps c, dd_alph D !! v = Some al ∧ dd_par D !! v = Some ps ∧ dd_cond D !! v = Some c ∧
    (NoDup (ps ++ [v]) ∧ list_to_set ps = parents (dd_dag D) v ∧ t_shape c = card D <$> ps ++ [v]) ∧
    (∀ ix, ix ∈ all_ix (card D <$> ps) → qsum (card D v) (λ k, t_at c (ix ++ [k])) = 1)) as H.
  { intros v Hv. specialize (Hc v Hv). cbn beta in Hc. destruct (dd_alph D !! v) as [al|], (dd_par D !! v) as [ps|], (dd_cond D !! v) as [c|]; [|done..].
    exists al, ps, c. do 3 (split; [done|]). apply andb_true_iff in Hc as [H1 H2]. apply bool_decide_eq_true in H1. split; [done|].
    rewrite forallb_forall in H2. intros ix Hix. apply elem_of_list_In, H2 in Hix. by apply bool_decide_eq_true in Hix. }
  split.
  - split; [by apply wf_views_agree|]. split; [done|]. intros v Hv. destruct (H v Hv) as (al & ps & c & E1 & E2 & E3 & (H1 & H2 & H3) & _).
    exists al, ps, c. do 3 (split; [done|]). apply NoDup_app in H1 as (H1 & _ & _). split; [done|]. split; [|done].
    intros p. rewrite <-(wf_par _ Hw), <-H2. by rewrite elem_of_list_to_set.
  - intros v ps a Hv Hps Ha. destruct (H v Hv) as (al & ps' & c & E1 & E2 & E3 & (H1 & _) & H2). rewrite Hps in E2. injection E2 as <-.
    rewrite <-(H2 (vals a ps)) by (by apply all_ix_vals). apply qsum_ext. intros k _. unfold prob. rewrite E3, Hps. f_equal. rewrite vals_app. cbn. rewrite ins_same. f_equal.
    apply vals_ext. intros w Hw'. apply ins_other. intros <-. apply NoDup_app in H1 as (_ & H1 & _). apply (H1 v Hw'). by left.
Qed.
Lemma check_small_sound D : check_small D = true → no_tiny D.
Proof.
  intros Hc. apply bool_decide_eq_true in Hc. intros v ps a Hv Hps Ha. specialize (Hc v Hv). cbn beta in Hc. rewrite Hps in Hc. unfold prob. rewrite Hps.
  destruct (dd_cond D !! v) as [c|]; [|done]. rewrite forallb_forall in Hc. specialize (Hc (vals a (ps ++ [v]))). rewrite <-elem_of_list_In in Hc.
  specialize (Hc (all_ix_vals D a _ Ha)). apply orb_true_iff in Hc as [Hc|Hc]; apply bool_decide_eq_true in Hc; tauto.
Qed.
