(** The heap model refines the value model, and methods only touch their own object. *)
From Verif Require Import Py DagModel HeapModel.

(** ** What an object owns *)
Inductive slot := SNodes | SArcs | SDict (k : kind) | SVal (k : kind) (n : node).
Global Instance kind_dec : EqDecision kind. Proof. solve_decision. Defined.
Global Instance slot_dec : EqDecision slot. Proof. solve_decision. Defined.
Definition addr (h : heap) (d : dobj) (s : slot) : option loc :=
  match s with
  | SNodes => Some (a_nodes d)
  | SArcs => Some (a_arcs d)
  | SDict k => Some (attr d k)
  | SVal k n => hdict h (attr d k) !! n
  end.
Definition owned (h : heap) (d : dobj) (l : loc) : Prop := ∃ s, addr h d s = Some l.

(** The container of a slot has the right type. *)
Definition typed (s : slot) (x : obj) : Prop :=
  match s, x with
  | SNodes, ONodes _ | SArcs, OArcs _ | SDict _, ODict _ | SVal _ _, ONodes _ => True
  | _, _ => False
  end.
Record hwf (h : heap) (d : dobj) : Prop := {
  hwf_typed : ∀ s l, addr h d s = Some l → ∃ x, h !! l = Some x ∧ typed s x;
  hwf_inj : ∀ s s' l, addr h d s = Some l → addr h d s' = Some l → s = s'
}.

Definition vget (v : dag) (k : kind) (n : node) : nset := match k with KNbr => nbrs v n | KPar => parents v n | KChi => children v n end.
Definition same_views (v v' : dag) : Prop :=
  d_nodes v = d_nodes v' ∧ d_arcs v = d_arcs v' ∧ ∀ k n, vget v k n = vget v' k n.

(** Everything outside the object is unchanged, and the object grew only by new containers. *)
Definition frame (h : heap) (d : dobj) (h' : heap) (d' : dobj) : Prop :=
  (∀ l, l ∈ dom h → ¬ owned h d l → h' !! l = h !! l) ∧ (∀ l, owned h' d' l → owned h d l ∨ l ∉ dom h) ∧ dom h ⊆ dom h'.

Lemma frame_refl h d : frame h d h d.
Proof. split; [done|]. split; [by left|done]. Qed.
Lemma frame_trans h d h1 d1 h2 d2 : frame h d h1 d1 → frame h1 d1 h2 d2 → frame h d h2 d2.
Proof.
  intros (A1 & A2 & A3) (B1 & B2 & B3). split; [|split].
  - intros l Hl Hn. rewrite B1; [by apply A1|by apply A3|]. intros Ho. by apply A2 in Ho as [?|?].
  - intros l Ho. apply B2 in Ho as [Ho|Ho]; [by apply A2|]. right. intros Hl. by apply Ho, A3.
  - by etrans.
Qed.

Lemma same_views_refl v : same_views v v. Proof. done. Qed.
Lemma same_views_sym v v' : same_views v v' → same_views v' v.
Proof. intros (H1 & H2 & H3). split_and!; [done..|]. intros k n. by rewrite H3. Qed.
Lemma same_views_trans v v' v'' : same_views v v' → same_views v' v'' → same_views v v''.
Proof. intros (H1 & H2 & H3) (K1 & K2 & K3). split_and!; [congruence..|]. intros k n. by rewrite H3. Qed.

Lemma vget_view h d k n : vget (view h d) k n = match addr h d (SVal k n) with Some l => hnodes h l | None => ∅ end.
Proof.
  assert (vget (view h d) k n = dget (vdict h (attr d k)) n) as -> by by destruct k.
  unfold dget, vdict. cbn [addr]. rewrite lookup_fmap. by destruct (hdict h (attr d k) !! n).
Qed.

Lemma alloc_new h x h' l : alloc h x = (h', l) → l ∉ dom h ∧ h' = <[l := x]> h.
Proof. unfold alloc. intros [= <- <-]. split; [apply is_fresh|done]. Qed.
Lemma owned_dom h d l : hwf h d → owned h d l → l ∈ dom h.
Proof. intros Hw [s Hs]. apply (hwf_typed h d Hw) in Hs as (x & Hx & _). by apply elem_of_dom_2 in Hx. Qed.

(** ** Writing to a set the object owns *)
Section write.
  Context (h : heap) (d : dobj) (Hw : hwf h d) (s : slot) (l : loc) (Hs : addr h d s = Some l) (x : obj) (Hx : typed s x).
  Context (Hnd : ∀ k, s ≠ SDict k).

  Lemma write_addr s' : addr (<[l := x]> h) d s' = addr h d s'.
  Proof.
    destruct s' as [| |k|k n]; try done. unfold addr, hdict. rewrite lookup_insert_ne; [done|]. intros ->.
    apply (Hnd k). by apply (hwf_inj h d Hw _ _ (attr d k)).
  Qed.
  Lemma write_hwf : hwf (<[l := x]> h) d.
  Proof.
    split.
    - intros s' l' Hl'. rewrite write_addr in Hl'. destruct (decide (l = l')) as [<-|Hne].
      + rewrite lookup_insert. exists x. split; [done|]. by rewrite (hwf_inj h d Hw s' s l).
      + rewrite lookup_insert_ne by done. by apply (hwf_typed h d Hw).
    - intros s1 s2 l'. rewrite !write_addr. apply (hwf_inj h d Hw).
  Qed.
  Lemma write_frame : frame h d (<[l := x]> h) d.
  Proof.
    split; [|split].
    - intros l' _ Hn. apply lookup_insert_ne. intros ->. apply Hn. by exists s.
    - intros l' [s' Hl']. rewrite write_addr in Hl'. left. by exists s'.
    - rewrite dom_insert. set_solver.
  Qed.
  (** Another slot reads the same. *)
  Lemma write_other s' l' : addr h d s' = Some l' → s' ≠ s → <[l := x]> h !! l' = h !! l'.
  Proof. intros Hl' Hne. apply lookup_insert_ne. intros <-. by apply Hne, (hwf_inj h d Hw _ _ l). Qed.
  Lemma write_nodes : s ≠ SNodes → hnodes (<[l := x]> h) (a_nodes d) = hnodes h (a_nodes d).
  Proof. intros Hn. unfold hnodes. by rewrite (write_other SNodes). Qed.
  Lemma write_arcs : s ≠ SArcs → harcs (<[l := x]> h) (a_arcs d) = harcs h (a_arcs d).
  Proof. intros Hn. unfold harcs. by rewrite (write_other SArcs). Qed.
  Lemma write_vget k n : s ≠ SVal k n → vget (view (<[l := x]> h) d) k n = vget (view h d) k n.
  Proof.
    intros Hn. rewrite !vget_view, write_addr. destruct (addr h d (SVal k n)) as [l'|] eqn:Hl'; [|done].
    unfold hnodes. by rewrite (write_other (SVal k n)).
  Qed.
End write.

(** ** Reading a missing key *)
Lemma getitem_spec h d k n h' l : hwf h d → getitem h (attr d k) n = (h', l) →
  hwf h' d ∧ addr h' d (SVal k n) = Some l ∧ same_views (view h' d) (view h d) ∧ frame h d h' d.
Proof.
  intros Hw. unfold getitem. destruct (hdict h (attr d k) !! n) as [l0|] eqn:Hl0.
  { intros [= <- <-]. split; [done|]. split; [done|]. split; [done|apply frame_refl]. }
  destruct (alloc h (ONodes ∅)) as [h1 l1] eqn:Ha. intros [= <- <-]. apply alloc_new in Ha as [Hnew ->].
  assert (∀ s l', addr h d s = Some l' → l' ≠ l1) as Hfresh.
  { intros s l' Hs ->. apply Hnew. apply (owned_dom h d); [done|]. by exists s. }
  assert (hdict (<[l1:=ONodes ∅]> h) (attr d k) = hdict h (attr d k)) as ->.
  { unfold hdict. rewrite lookup_insert_ne; [done|]. intros Heq. by apply (Hfresh (SDict k) (attr d k)). }
  set (m := hdict h (attr d k)) in *. set (h' := <[attr d k := _]> (<[l1:=_]> h)).
  assert (attr d k ≠ l1) as Hne by by apply (Hfresh (SDict k)).
  assert (∀ s, addr h' d s = if decide (s = SVal k n) then Some l1 else addr h d s) as Haddr.
  { intros s. destruct s as [| |k'|k' n']; try done. cbn. unfold h'. destruct (decide (k' = k)) as [->|Hk].
    - unfold hdict at 1. rewrite lookup_insert. destruct (decide (n' = n)) as [->|Hn].
      + rewrite decide_True by done. by rewrite lookup_insert.
      + rewrite decide_False by naive_solver. by rewrite lookup_insert_ne.
    - rewrite decide_False by naive_solver. unfold hdict.
      assert (attr d k' ≠ attr d k). { intros Heq. apply Hk. pose proof (hwf_inj h d Hw (SDict k') (SDict k) (attr d k)) as Hi. cbn in Hi. rewrite Heq in Hi.
        by injection (Hi eq_refl eq_refl). }
      rewrite lookup_insert_ne by done. rewrite lookup_insert_ne; [done|]. intros Heq. by apply (Hfresh (SDict k') (attr d k')). }
  assert (∀ s l', addr h d s = Some l' → s ≠ SDict k → h' !! l' = h !! l') as Hother.
  { intros s l' Hs Hsk. unfold h'. rewrite lookup_insert_ne; [|intros <-; apply Hsk; by apply (hwf_inj h d Hw _ _ (attr d k))].
    rewrite lookup_insert_ne; [done|]. intros <-. by apply (Hfresh s l1). }
  assert (h' !! l1 = Some (ONodes ∅)) as Hl1. { unfold h'. rewrite lookup_insert_ne by done. by rewrite lookup_insert. }
  split; [|split; [|split]].
  - split.
    + intros s l' Hs. rewrite Haddr in Hs. case_decide as Hd.
      * injection Hs as <-. subst s. exists (ONodes ∅). done.
      * destruct (decide (s = SDict k)) as [->|Hsk].
        -- injection Hs as <-. exists (ODict (<[n:=l1]> m)). split; [|done]. unfold h'. by rewrite lookup_insert.
        -- rewrite (Hother s l' Hs Hsk). by apply (hwf_typed h d Hw).
    + intros s s' l'. rewrite !Haddr. repeat case_decide; try congruence.
      * intros [= <-] Hs'. by apply Hfresh in Hs'.
      * intros Hs' [= <-]. by apply Hfresh in Hs'.
      * apply (hwf_inj h d Hw).
  - rewrite Haddr. by rewrite decide_True.
  - split; [|split].
    + cbn. unfold hnodes. by rewrite (Hother SNodes).
    + cbn. unfold harcs. by rewrite (Hother SArcs).
    + intros k' n'. rewrite !vget_view, Haddr. case_decide as Hd.
      * injection Hd as -> ->. unfold hnodes. rewrite Hl1. cbn. fold m. by rewrite Hl0.
      * destruct (addr h d (SVal k' n')) as [l'|] eqn:Hl'; [|done]. unfold hnodes. by rewrite (Hother (SVal k' n')).
  - split; [|split].
    + intros l' Hl' Hn. unfold h'. rewrite lookup_insert_ne; [|intros <-; apply Hn; by exists (SDict k)].
      rewrite lookup_insert_ne; [done|]. by intros <-.
    + intros l' [s Hs]. rewrite Haddr in Hs. case_decide; [injection Hs as <-; by right|]. left. by exists s.
    + unfold h'. rewrite !dom_insert. set_solver.
Qed.

(** ** Simulation *)
Definition sim {A} (mh : M hst A) (mv : M dag A) : Prop :=
  ∀ h d v, hwf h d → same_views (view h d) v →
    (mh (h, d)).2 = (mv v).2 ∧ hwf (mh (h, d)).1.1 (mh (h, d)).1.2 ∧
    same_views (view (mh (h, d)).1.1 (mh (h, d)).1.2) (mv v).1 ∧ frame h d (mh (h, d)).1.1 (mh (h, d)).1.2.

Lemma sim_ret {A} (a : A) : sim (mret a) (mret a).
Proof. intros h d v Hw Hv. split_and!; [done..|apply frame_refl]. Qed.
Lemma sim_raise {A} e : sim (mraise (A := A) e) (mraise e).
Proof. intros h d v Hw Hv. split_and!; [done..|apply frame_refl]. Qed.
Lemma sim_bind {A B} (mh : M hst A) mv (fh : A → M hst B) fv : sim mh mv → (∀ a, sim (fh a) (fv a)) → sim (mbind' mh fh) (mbind' mv fv).
Proof.
  intros H1 H2 h d v Hw Hv. destruct (H1 h d v Hw Hv) as (E1 & E2 & E3 & E4). unfold mbind'.
  destruct (mh (h, d)) as [[h1 d1] r], (mv v) as [v1 r']. cbn [fst snd] in *. subst r'. destruct r as [a|e]; [|done].
  destruct (H2 a h1 d1 v1 E2 E3) as (F1 & F2 & F3 & F4). split_and!; [done..|]. by eapply frame_trans.
Qed.
Lemma sim_then {A B} (mh : M hst A) mv (kh : M hst B) kv : sim mh mv → sim kh kv → sim (mh ;;; kh) (mv ;;; kv).
Proof. intros H1 H2. by apply sim_bind. Qed.
Lemma sim_catch {A} (mh : M hst A) mv gh gv : sim mh mv → (∀ e, sim (gh e) (gv e)) → sim (mcatch mh gh) (mcatch mv gv).
Proof.
  intros H1 H2 h d v Hw Hv. destruct (H1 h d v Hw Hv) as (E1 & E2 & E3 & E4). unfold mcatch.
  destruct (mh (h, d)) as [[h1 d1] r], (mv v) as [v1 r']. cbn [fst snd] in *. subst r'. destruct r as [a|e]; [done|].
  destruct (H2 e h1 d1 v1 E2 E3) as (F1 & F2 & F3 & F4). split_and!; [done..|]. by eapply frame_trans.
Qed.
Lemma sim_for {A} (l : list A) fh fv : (∀ a, sim (fh a) (fv a)) → sim (mfor l fh) (mfor l fv).
Proof. intros H. induction l as [|a l IH]; [apply sim_ret|]. by apply sim_then. Qed.
Lemma sim_guard ign mh mv : sim mh mv → sim (guard_keyerror ign mh) (guard_keyerror ign mv).
Proof. intros H. apply sim_catch; [done|]. intros []; try apply sim_raise. destruct ign; [apply sim_ret|apply sim_raise]. Qed.
Lemma sim_cycle mh mv gh gv : sim mh mv → sim gh gv → sim (on_cycle_error mh gh) (on_cycle_error mv gv).
Proof. intros H1 H2. apply sim_catch; [done|]. intros []; try apply sim_raise. apply sim_then; [done|apply sim_raise]. Qed.
(** Only what the value-level function does matters. *)
Lemma sim_ext {A} (mh : M hst A) mv mv' : sim mh mv → (∀ v, same_views (mv v).1 (mv' v).1 ∧ (mv v).2 = (mv' v).2) → sim mh mv'.
Proof.
  intros H He h d v Hw Hv. destruct (H h d v Hw Hv) as (E1 & E2 & E3 & E4), (He v) as [K1 K2].
  split_and!; [congruence|done|by eapply same_views_trans|done].
Qed.

Lemma vget_dag v k n : vget v k n = dget (match k with KNbr => d_nbr v | KPar => d_par v | KChi => d_chi v end) n.
Proof. by destruct k. Qed.

(** ** The primitive operations *)
Lemma sim_nodes_add n : sim (hp_nodes_add n) (add_node n).
Proof.
  intros h d v Hw (Hv1 & Hv2 & Hv3). cbn.
  assert (addr h d SNodes = Some (a_nodes d)) as Ha by done.
  split; [done|]. split; [by eapply write_hwf|]. split; [|by eapply write_frame].
  split; [|split].
  - cbn. unfold hnodes at 1. rewrite lookup_insert. cbn in Hv1. by rewrite Hv1.
  - cbn. rewrite (write_arcs h d Hw SNodes _ Ha) by done. done.
  - intros k m. rewrite (write_vget h d Hw SNodes _ Ha) by done. rewrite Hv3. by destruct k.
Qed.
Lemma sim_nodes_remove n : sim (hp_nodes_remove n) (nodes_remove n).
Proof.
  intros h d v Hw (Hv1 & Hv2 & Hv3). unfold hp_nodes_remove, nodes_remove. cbn in Hv1. rewrite Hv1.
  assert (addr h d SNodes = Some (a_nodes d)) as Ha by done.
  destruct (decide (n ∈ d_nodes v)); cbn; [|split_and!; [done..|apply frame_refl]].
  split; [done|]. split; [by eapply write_hwf|]. split; [|by eapply write_frame].
  split; [|split].
  - cbn. unfold hnodes at 1. by rewrite lookup_insert.
  - cbn. rewrite (write_arcs h d Hw SNodes _ Ha) by done. done.
  - intros k m. rewrite (write_vget h d Hw SNodes _ Ha) by done. rewrite Hv3. by destruct k.
Qed.
Definition v_arcs_add (a : arc) : M dag unit := λ d, (Dag (d_nodes d) ({[a]} ∪ d_arcs d) (d_nbr d) (d_par d) (d_chi d), Ok tt).
Lemma sim_arcs_add a : sim (hp_arcs_add a) (v_arcs_add a).
Proof.
  intros h d v Hw (Hv1 & Hv2 & Hv3). cbn.
  assert (addr h d SArcs = Some (a_arcs d)) as Ha by done.
  split; [done|]. split; [by eapply write_hwf|]. split; [|by eapply write_frame].
  split; [|split].
  - cbn. rewrite (write_nodes h d Hw SArcs _ Ha) by done. done.
  - cbn. unfold harcs at 1. rewrite lookup_insert. cbn in Hv2. by rewrite Hv2.
  - intros k m. rewrite (write_vget h d Hw SArcs _ Ha) by done. rewrite Hv3. by destruct k.
Qed.
Lemma sim_arcs_remove i j : sim (hp_arcs_remove (i, j)) (arcs_remove i j).
Proof.
  intros h d v Hw (Hv1 & Hv2 & Hv3). unfold hp_arcs_remove, arcs_remove. cbn in Hv2. rewrite Hv2.
  assert (addr h d SArcs = Some (a_arcs d)) as Ha by done.
  destruct (decide ((i, j) ∈ d_arcs v)); cbn; [|split_and!; [done..|apply frame_refl]].
  split; [done|]. split; [by eapply write_hwf|]. split; [|by eapply write_frame].
  split; [|split].
  - cbn. rewrite (write_nodes h d Hw SArcs _ Ha) by done. done.
  - cbn. unfold harcs at 1. by rewrite lookup_insert.
  - intros k m. rewrite (write_vget h d Hw SArcs _ Ha) by done. rewrite Hv3. by destruct k.
Qed.

(** The value-level counterpart of an update of one attribute dictionary. *)
Definition vupd (k : kind) (f : dmap → dmap) (v : dag) : dag :=
  match k with
  | KNbr => Dag (d_nodes v) (d_arcs v) (f (d_nbr v)) (d_par v) (d_chi v)
  | KPar => Dag (d_nodes v) (d_arcs v) (d_nbr v) (f (d_par v)) (d_chi v)
  | KChi => Dag (d_nodes v) (d_arcs v) (d_nbr v) (d_par v) (f (d_chi v))
  end.
Lemma vget_vupd k f v k' n : vget (vupd k f v) k' n = if decide (k' = k) then dget (f (match k with KNbr => d_nbr v | KPar => d_par v | KChi => d_chi v end)) n else vget v k' n.
Proof. by destruct k, k'. Qed.

Lemma set_val h d k n l s : hwf h d → addr h d (SVal k n) = Some l →
  hwf (<[l := ONodes s]> h) d ∧ frame h d (<[l := ONodes s]> h) d ∧
  d_nodes (view (<[l := ONodes s]> h) d) = d_nodes (view h d) ∧ d_arcs (view (<[l := ONodes s]> h) d) = d_arcs (view h d) ∧
  ∀ k' n', vget (view (<[l := ONodes s]> h) d) k' n' = if decide (k' = k ∧ n' = n) then s else vget (view h d) k' n'.
Proof.
  intros Hw Ha. split; [by eapply write_hwf|]. split; [by eapply write_frame|]. split; [|split].
  - cbn. by rewrite (write_nodes h d Hw _ _ Ha).
  - cbn. by rewrite (write_arcs h d Hw _ _ Ha).
  - intros k' n'. case_decide as Hd.
    + destruct Hd as [-> ->]. rewrite vget_view, (write_addr h d Hw _ _ Ha) by done. rewrite Ha. unfold hnodes. by rewrite lookup_insert.
    + rewrite (write_vget h d Hw _ _ Ha); [done|done|]. intros [= -> ->]. by apply Hd.
Qed.

Lemma sim_add k n x : sim (hp_add k n x) (λ v, (vupd k (λ m, dadd m n x) v, Ok tt)).
Proof.
  intros h d v Hw Hv. unfold hp_add. destruct (getitem h (attr d k) n) as [h1 l] eqn:Hg.
  destruct (getitem_spec h d k n h1 l Hw Hg) as (G1 & G2 & G3 & G4).
  pose proof (same_views_trans _ _ _ G3 Hv) as (Hv1 & Hv2 & Hv3).
  destruct (set_val h1 d k n l ({[x]} ∪ hnodes h1 l) G1 G2) as (W1 & W2 & W3 & W4 & W5).
  cbn [fst snd]. split; [done|]. split; [done|]. split; [|by eapply frame_trans].
  split; [rewrite W3, Hv1; by destruct k|]. split; [rewrite W4, Hv2; by destruct k|].
  intros k' n'. rewrite W5, vget_vupd, dget_dadd. rewrite Hv3.
  assert (hnodes h1 l = vget v k n) as Hl by (rewrite <-Hv3, vget_view; cbn [addr] in G2; cbn [addr]; by rewrite G2).
  rewrite Hl. destruct (decide (k' = k)) as [->|]; [|rewrite decide_False by naive_solver; done].
  destruct (decide (n = n')) as [->|].
  - rewrite decide_True by done. by rewrite vget_dag.
  - rewrite decide_False by naive_solver. by rewrite vget_dag.
Qed.
Lemma sim_remove k n x : sim (hp_remove k n x)
  (λ v, if decide (x ∈ vget v k n) then (vupd k (λ m, ddel m n x) v, Ok tt) else (v, Raise KeyError)).
Proof.
  intros h d v Hw Hv. unfold hp_remove. destruct (getitem h (attr d k) n) as [h1 l] eqn:Hg.
  destruct (getitem_spec h d k n h1 l Hw Hg) as (G1 & G2 & G3 & G4).
  pose proof (same_views_trans _ _ _ G3 Hv) as Hv'. destruct Hv' as (Hv1 & Hv2 & Hv3).
  assert (hnodes h1 l = vget v k n) as Hl by (rewrite <-Hv3, vget_view; cbn [addr] in G2; cbn [addr]; by rewrite G2).
  rewrite Hl. destruct (decide (x ∈ vget v k n)); cbn [fst snd]; [|split_and!; [done|done|by eapply same_views_trans|done]].
  destruct (set_val h1 d k n l (vget v k n ∖ {[x]}) G1 G2) as (W1 & W2 & W3 & W4 & W5).
  split; [done|]. split; [done|]. split; [|by eapply frame_trans].
  split; [rewrite W3, Hv1; by destruct k|]. split; [rewrite W4, Hv2; by destruct k|].
  intros k' n'. rewrite W5, vget_vupd, dget_ddel. rewrite Hv3.
  destruct (decide (k' = k)) as [->|]; [|rewrite decide_False by naive_solver; done].
  destruct (decide (n = n')) as [->|].
  - rewrite decide_True by done. by rewrite vget_dag.
  - rewrite decide_False by naive_solver. by rewrite vget_dag.
Qed.
Lemma sim_read k n : sim (hp_read k n) (λ v, (v, Ok (vget v k n))).
Proof.
  intros h d v Hw Hv. unfold hp_read. destruct (getitem h (attr d k) n) as [h1 l] eqn:Hg.
  destruct (getitem_spec h d k n h1 l Hw Hg) as (G1 & G2 & G3 & G4).
  pose proof (same_views_trans _ _ _ G3 Hv) as (Hv1 & Hv2 & Hv3). cbn [fst snd].
  split_and!; [|done|by eapply same_views_trans|done]. rewrite <-Hv3, vget_view. cbn [addr] in G2. cbn [addr]. by rewrite G2.
Qed.

(** Binding one attribute dictionary to another set of entries. *)
Lemma dict_write h d k m (h0 : heap) : hwf h d → h ⊆ h0 →
  (∀ n l, m !! n = Some l → (hdict h (attr d k) !! n = Some l) ∨ (l ∉ dom h ∧ ∃ s, h0 !! l = Some (ONodes s))) →
  (∀ n n' l, m !! n = Some l → m !! n' = Some l → n = n') →
  let h' := <[attr d k := ODict m]> h0 in
  hwf h' d ∧ frame h d h' d ∧ d_nodes (view h' d) = d_nodes (view h d) ∧ d_arcs (view h' d) = d_arcs (view h d) ∧
  ∀ k' n, vget (view h' d) k' n = if decide (k' = k) then match m !! n with Some l => hnodes h0 l | None => ∅ end else vget (view h d) k' n.
Proof.
  intros Hw Hsub Hm Hinj h'.
  assert (∀ k', attr d k' = attr d k → k' = k) as Hk.
  { intros k' Heq. pose proof (hwf_inj h d Hw (SDict k') (SDict k) (attr d k)) as Hi. cbn in Hi. rewrite Heq in Hi. by injection (Hi eq_refl eq_refl). }
  assert (∀ l x, h !! l = Some x → h0 !! l = Some x) as Hsub' by (intros; by eapply lookup_weaken).
  assert (∀ s l, addr h d s = Some l → s ≠ SDict k → h' !! l = h !! l ∧ l ≠ attr d k) as Hold.
  { intros s l Hs Hsk. destruct (hwf_typed h d Hw s l Hs) as (x & Hx & _).
    assert (l ≠ attr d k). { intros ->. apply Hsk. by apply (hwf_inj h d Hw _ _ (attr d k)). }
    split; [|done]. unfold h'. rewrite lookup_insert_ne by done. rewrite Hx. by apply Hsub'. }
  assert (∀ s, addr h' d s = match s with SVal k' n => if decide (k' = k) then m !! n else addr h d s | _ => addr h d s end) as Haddr.
  { intros s. destruct s as [| |k'|k' n]; try done. cbn. destruct (decide (k' = k)) as [->|Hne].
    - unfold hdict, h'. by rewrite lookup_insert.
    - destruct (Hold (SDict k') (attr d k')) as [E _]; [done|congruence|]. unfold hdict. by rewrite E. }
  assert (∀ n l, m !! n = Some l → l ≠ attr d k) as Hmk.
  { intros n l Hn ->. destruct (Hm n _ Hn) as [He|[Hd _]].
    - pose proof (hwf_inj h d Hw (SVal k n) (SDict k) (attr d k) He eq_refl). done.
    - apply Hd. apply (owned_dom h d); [done|]. by exists (SDict k). }
  assert (∀ s l, addr h' d s = Some l → addr h d s = Some l ∨ (∃ n, s = SVal k n ∧ m !! n = Some l ∧ l ∉ dom h ∧ ∃ s, h0 !! l = Some (ONodes s))) as Hcase.
  { intros s l Hs. rewrite Haddr in Hs. destruct s as [| |k'|k' n]; try (by left). case_decide as Hd; [|by left]. subst k'.
    destruct (Hm n l Hs) as [?|[? ?]]; [by left|right; by exists n]. }
  split; [|split; [|split; [|split]]].
  - split.
    + intros s l Hs. destruct (Hcase s l Hs) as [Ho|(n & -> & Hn & Hd & x & Hx)].
      * destruct (decide (s = SDict k)) as [->|Hsk].
        -- injection Ho as <-. exists (ODict m). unfold h'. by rewrite lookup_insert.
        -- rewrite (proj1 (Hold s l Ho Hsk)). by apply (hwf_typed h d Hw).
      * exists (ONodes x). split; [|done]. unfold h'. rewrite lookup_insert_ne; [done|]. intros <-. by apply (Hmk n (attr d k)).
    + intros s s' l Hs Hs'. destruct (Hcase s l Hs) as [Ho|(n & -> & Hn & Hd & _)], (Hcase s' l Hs') as [Ho'|(n' & -> & Hn' & Hd' & _)].
      * by apply (hwf_inj h d Hw _ _ l).
      * exfalso. apply Hd'. apply (owned_dom h d); [done|]. by exists s.
      * exfalso. apply Hd. apply (owned_dom h d); [done|]. by exists s'.
      * f_equal. by apply (Hinj n n' l).
  - split; [|split].
    + intros l Hl Hn. unfold h'. rewrite lookup_insert_ne; [|intros <-; apply Hn; by exists (SDict k)].
      apply elem_of_dom in Hl as [x Hx]. rewrite Hx. by apply Hsub'.
    + intros l [s Hs]. destruct (Hcase s l Hs) as [Ho|(n & _ & _ & Hd & _)]; [left; by exists s|by right].
    + unfold h'. rewrite dom_insert. pose proof (subseteq_dom _ _ Hsub). set_solver.
  - cbn. unfold hnodes. destruct (Hold SNodes (a_nodes d)) as [E _]; [done|done|]. by rewrite E.
  - cbn. unfold harcs. destruct (Hold SArcs (a_arcs d)) as [E _]; [done|done|]. by rewrite E.
  - intros k' n. rewrite !vget_view, Haddr. case_decide as Hd.
    + destruct (m !! n) as [l|] eqn:Hn; [|done]. unfold hnodes, h'. rewrite lookup_insert_ne; [done|]. intros <-. by apply (Hmk n (attr d k)).
    + destruct (addr h d (SVal k' n)) as [l|] eqn:Hl; [|done]. unfold hnodes. destruct (Hold (SVal k' n) l) as [E _]; [done|done|]. by rewrite E.
Qed.

Lemma sim_pop k n : sim (hp_pop k n) (λ v, (vupd k (delete n) v, Ok tt)).
Proof.
  intros h d v Hw (Hv1 & Hv2 & Hv3). unfold hp_pop. cbn [fst snd].
  destruct (dict_write h d k (delete n (hdict h (attr d k))) h Hw) as (W1 & W2 & W3 & W4 & W5).
  { done. } { intros n' l [_ Hl]%lookup_delete_Some. by left. }
  { intros n1 n2 l [_ H1]%lookup_delete_Some [_ H2]%lookup_delete_Some.
    by injection (hwf_inj h d Hw (SVal k n1) (SVal k n2) l H1 H2). }
  split; [done|]. split; [done|]. split; [|done]. split; [rewrite W3, Hv1; by destruct k|]. split; [rewrite W4, Hv2; by destruct k|].
  intros k' n'. rewrite W5, vget_vupd, dget_delete, <-(vget_dag v k n'), <-Hv3. case_decide as Hd; [|done]. subst k'.
  rewrite vget_view. cbn [addr]. destruct (decide (n = n')) as [->|]; [by rewrite lookup_delete|]. by rewrite lookup_delete_ne.
Qed.
Lemma sim_setitem k n s : sim (hp_setitem k n s) (λ v, (vupd k (<[n := s]>) v, Ok tt)).
Proof.
  intros h d v Hw (Hv1 & Hv2 & Hv3). unfold hp_setitem. destruct (alloc h (ONodes s)) as [h1 l] eqn:Ha. apply alloc_new in Ha as [Hnew ->].
  cbn [fst snd].
  assert (hdict (<[l:=ONodes s]> h) (attr d k) = hdict h (attr d k)) as ->.
  { unfold hdict. rewrite lookup_insert_ne; [done|]. intros ->. apply Hnew. apply (owned_dom h d); [done|]. by exists (SDict k). }
  destruct (dict_write h d k (<[n := l]> (hdict h (attr d k))) (<[l := ONodes s]> h) Hw) as (W1 & W2 & W3 & W4 & W5).
  { apply insert_subseteq. by apply not_elem_of_dom. }
  { intros n' l' [[-> ->]|[_ Hl]]%lookup_insert_Some; [right|by left]. split; [done|]. exists s. by rewrite lookup_insert. }
  { intros n1 n2 l' [[-> ->]|[? H1]]%lookup_insert_Some [[-> E]|[? H2]]%lookup_insert_Some; [done| | |].
    - exfalso. apply Hnew. apply (owned_dom h d); [done|]. by exists (SVal k n2).
    - exfalso. subst l'. apply Hnew. apply (owned_dom h d); [done|]. by exists (SVal k n1).
    - by injection (hwf_inj h d Hw (SVal k n1) (SVal k n2) l' H1 H2). }
  split; [done|]. split; [done|]. split; [|done]. split; [rewrite W3, Hv1; by destruct k|]. split; [rewrite W4, Hv2; by destruct k|].
  intros k' n'. rewrite W5, vget_vupd. case_decide as Hd; [|by rewrite Hv3]. subst k'.
  unfold dget. destruct (decide (n = n')) as [->|Hne].
  - rewrite !lookup_insert. cbn. unfold hnodes. by rewrite lookup_insert.
  - rewrite !lookup_insert_ne by done. change (default ∅ (?m !! n')) with (dget m n'). rewrite <-vget_dag, <-Hv3, vget_view. cbn [addr].
    destruct (hdict h (attr d k) !! n') as [l'|] eqn:Hl'; [|done]. unfold hnodes. rewrite lookup_insert_ne; [done|].
    intros ->. apply Hnew. apply (owned_dom h d); [done|]. by exists (SVal k n').
Qed.

Lemma sim_arcs_keep P `{!∀ a, Decision (P a)} :
  sim (hp_arcs_keep P) (λ v, (Dag (d_nodes v) (filter P (d_arcs v)) (d_nbr v) (d_par v) (d_chi v), Ok tt)).
Proof.
  intros h d v Hw (Hv1 & Hv2 & Hv3). unfold hp_arcs_keep. destruct (alloc h _) as [h1 l] eqn:Ha. apply alloc_new in Ha as [Hnew ->]. cbn [fst snd].
  set (x := OArcs (filter P (harcs h (a_arcs d)))). set (d' := DObj (a_nodes d) l (a_nbr d) (a_par d) (a_chi d)).
  assert (∀ s l', addr h d s = Some l' → <[l:=x]> h !! l' = h !! l' ∧ l' ≠ l) as Hold.
  { intros s l' Hs. assert (l' ≠ l). { intros ->. apply Hnew. apply (owned_dom h d); [done|]. by exists s. } split; [|done]. by apply lookup_insert_ne. }
  assert (∀ k, attr d' k = attr d k) as Hattr by by intros [].
  assert (∀ s, addr (<[l:=x]> h) d' s = if decide (s = SArcs) then Some l else addr h d s) as Haddr.
  { intros [| |k|k n]; cbn; [done|done|by rewrite Hattr|]. rewrite Hattr. unfold hdict. by rewrite (proj1 (Hold (SDict k) (attr d k) eq_refl)). }
  split; [done|]. split; [|split].
  - split.
    + intros s l'. rewrite Haddr. case_decide as Hd.
      * intros [= <-]. subst s. exists x. by rewrite lookup_insert.
      * intros Hs. rewrite (proj1 (Hold s l' Hs)). by apply (hwf_typed h d Hw).
    + intros s s' l'. rewrite !Haddr. repeat case_decide; try congruence.
      * intros [= <-] Hs'. by apply Hold in Hs' as [_ ?].
      * intros Hs' [= <-]. by apply Hold in Hs' as [_ ?].
      * apply (hwf_inj h d Hw).
  - split; [|split].
    + cbn. unfold hnodes. rewrite (proj1 (Hold SNodes (a_nodes d) eq_refl)). done.
    + cbn. unfold harcs at 1. rewrite lookup_insert. cbn in Hv2. unfold x. by rewrite Hv2.
    + intros k n. rewrite vget_view, Haddr. rewrite decide_False by done.
      transitivity (vget (view h d) k n); [|rewrite Hv3; by destruct k]. rewrite vget_view.
      destruct (addr h d (SVal k n)) as [l'|] eqn:Hl'; [|done]. unfold hnodes. by rewrite (proj1 (Hold _ _ Hl')).
  - split; [|split].
    + intros l' Hl' _. apply lookup_insert_ne. by intros ->.
    + intros l' [s Hs]. rewrite Haddr in Hs. case_decide; [injection Hs as <-; by right|]. left. by exists s.
    + rewrite dom_insert. set_solver.
Qed.

(** ** The mutators *)
Lemma loopR_ext {A S} (f g : A → S → res S) l s : (∀ a s, f a s = g a s) → loopR f l s = loopR g l s.
Proof. intros H. revert s. induction l as [|a l IH]; intros s; [done|]. cbn. rewrite H. by destruct (g a s). Qed.
Lemma mark_ext v v' o fuel n st : d_nodes v = d_nodes v' → (∀ n, children v n = children v' n) →
  mark_children_visited v o fuel n st = mark_children_visited v' o fuel n st.
Proof.
  intros Hn Hc. revert n st. induction fuel as [|fuel IH]; intros n st; [done|]. cbn. rewrite Hc.
  match goal with |- match loopR ?f ?l ?s with _ => _ end = match loopR ?g _ _ with _ => _ end => rewrite (loopR_ext f g l s); [done|] end.
  intros c st'. cbn. rewrite Hn. destruct (decide (c ∈ d_nodes v')); [|done]. destruct (decide (c ∈ t_any st')); [done|]. apply IH.
Qed.
Lemma topo_ext v v' o : same_views v v' → topological_sort v o = topological_sort v' o.
Proof.
  intros (H1 & H2 & H3). unfold topological_sort. rewrite H1.
  match goal with |- match loopR ?f ?l ?s with _ => _ end = match loopR ?g _ _ with _ => _ end => rewrite (loopR_ext f g l s); [done|] end.
  intros n st. destruct (decide (n ∈ t_any st)); [done|]. apply mark_ext; [done|]. intros m. apply (H3 KChi).
Qed.
Lemma sim_check o : sim (hp_check o) (check_acyclic o).
Proof.
  intros h d v Hw Hv. unfold hp_check, check_acyclic. rewrite (topo_ext _ v o Hv).
  destruct (topological_sort v o); split_and!; try done; apply frame_refl.
Qed.

Lemma sim_insert_arc i j : sim (h_insert_arc i j) (λ v, (insert_arc i j v, Ok tt)).
Proof.
  eapply sim_ext.
  - unfold h_insert_arc. apply sim_then; [apply sim_nodes_add|]. apply sim_then; [apply sim_nodes_add|]. apply sim_then; [apply sim_arcs_add|].
    apply sim_then; [apply sim_add|]. apply sim_then; [apply sim_add|]. apply sim_then; [apply sim_add|apply sim_add].
  - intros v. split; done.
Qed.
Lemma sim_par_remove k x : sim (hp_remove KPar k x) (par_remove k x).
Proof. eapply sim_ext; [apply sim_remove|]. intros v. unfold par_remove. cbn. by destruct (decide (x ∈ parents v k)). Qed.
Lemma sim_chi_remove k x : sim (hp_remove KChi k x) (chi_remove k x).
Proof. eapply sim_ext; [apply sim_remove|]. intros v. unfold chi_remove. cbn. by destruct (decide (x ∈ children v k)). Qed.
Lemma sim_nbr_remove k x : sim (hp_remove KNbr k x) (nbr_remove k x).
Proof. eapply sim_ext; [apply sim_remove|]. intros v. unfold nbr_remove. cbn. by destruct (decide (x ∈ nbrs v k)). Qed.
Lemma sim_remove_arc i j ign : sim (h_remove_arc i j ign) (remove_arc i j ign).
Proof.
  apply sim_guard. apply sim_then; [apply sim_arcs_remove|]. apply sim_then; [apply sim_par_remove|]. apply sim_then; [apply sim_chi_remove|].
  apply sim_then; apply sim_nbr_remove.
Qed.
Lemma sim_add_arc o i j chk : sim (h_add_arc o i j chk) (add_arc o i j chk).
Proof.
  destruct chk; eapply sim_ext.
  - unfold h_add_arc. apply sim_then; [apply sim_insert_arc|]. apply sim_cycle; [apply sim_check|apply sim_remove_arc].
  - intros v. done.
  - unfold h_add_arc. apply sim_then; [apply sim_insert_arc|]. apply sim_ret.
  - intros v. done.
Qed.
Lemma mfor_insert l v : mfor l (λ a v, (insert_arc a.1 a.2 v, Ok tt)) v = (foldl (λ d a, insert_arc a.1 a.2 d) v l, Ok tt).
Proof. revert v. induction l as [|a l IH]; intros v; [done|]. cbn. unfold mthen, mbind'. by rewrite IH. Qed.
Lemma sim_add_arcs_from o arcs chk : sim (h_add_arcs_from o arcs chk) (add_arcs_from o arcs chk).
Proof.
  unfold h_add_arcs_from. destruct (decide (arcs = ∅)) as [He|He].
  - eapply sim_ext; [apply sim_ret|]. intros v. unfold add_arcs_from. by rewrite decide_True.
  - destruct chk; eapply sim_ext.
    + apply sim_then; [apply sim_for; intros a; apply sim_insert_arc|].
      apply sim_cycle; [apply sim_check|]. apply sim_for. intros a. apply sim_remove_arc.
    + intros v. unfold add_arcs_from. rewrite decide_False by done. unfold mthen, mbind'. by rewrite mfor_insert.
    + apply sim_then; [apply sim_for; intros a; apply sim_insert_arc|]. apply sim_ret.
    + intros v. unfold add_arcs_from. rewrite decide_False by done. unfold mthen, mbind'. by rewrite mfor_insert.
Qed.
Lemma sim_remove_node o n ign : sim (h_remove_node o n ign) (remove_node o n ign).
Proof.
  apply sim_guard. apply sim_then; [apply sim_nodes_remove|]. apply sim_then.
  { eapply sim_ext; [eapply sim_bind; [apply sim_read|]; intros ps; apply sim_for; intros p; apply sim_then; [apply sim_chi_remove|apply sim_nbr_remove]|].
    intros v. done. }
  apply sim_then.
  { eapply sim_ext; [eapply sim_bind; [apply sim_read|]; intros ps; apply sim_for; intros p; apply sim_then; [apply sim_par_remove|apply sim_nbr_remove]|].
    intros v. done. }
  eapply sim_ext; [apply sim_then; [apply sim_pop|]; apply sim_then; [apply sim_pop|]; apply sim_then; [apply sim_pop|apply sim_arcs_keep]|].
  intros v. done.
Qed.
Lemma sim_exec c : sim (hexec c) (exec c).
Proof.
  destruct c; cbn [hexec exec].
  - apply sim_nodes_add.
  - apply sim_for. intros m. apply sim_nodes_add.
  - apply sim_add_arc.
  - apply sim_add_arcs_from.
  - apply sim_remove_arc.
  - apply sim_for. intros a. apply sim_remove_arc.
  - apply sim_then; [apply sim_remove_arc|apply sim_add_arc].
  - apply sim_remove_node.
Qed.

(** ** Objects that are not written to *)
Lemma frame_other h h' d : hwf h d → (∀ l, owned h d l → h' !! l = h !! l) →
  hwf h' d ∧ view h' d = view h d ∧ ∀ l, owned h' d l ↔ owned h d l.
Proof.
  intros Hw Hsame.
  assert (∀ s l, addr h d s = Some l → h' !! l = h !! l) as Hs by (intros s l Hs; apply Hsame; by exists s).
  assert (∀ k, hdict h' (attr d k) = hdict h (attr d k)) as Hd by (intros k; unfold hdict; by rewrite (Hs (SDict k) (attr d k))).
  assert (∀ s, addr h' d s = addr h d s) as Ha by (intros [| |k|k n]; try done; unfold addr; by rewrite Hd).
  split; [|split].
  - split; [|intros s s' l; rewrite !Ha; apply (hwf_inj h d Hw)]. intros s l. rewrite Ha. intros Hl. rewrite (Hs s l Hl). by apply (hwf_typed h d Hw).
  - assert (∀ k, vdict h' (attr d k) = vdict h (attr d k)) as Hv.
    { intros k. unfold vdict. rewrite Hd. apply map_eq. intros n. rewrite !lookup_fmap. destruct (hdict h (attr d k) !! n) as [l|] eqn:Hl; [|done]. cbn.
      f_equal. unfold hnodes. by rewrite (Hs (SVal k n) l). }
    unfold view. f_equal.
    + unfold hnodes. by rewrite (Hs SNodes (a_nodes d)).
    + unfold harcs. by rewrite (Hs SArcs (a_arcs d)).
    + apply (Hv KNbr). + apply (Hv KPar). + apply (Hv KChi).
  - intros l. unfold owned. by setoid_rewrite Ha.
Qed.

(** ** Copying *)
Lemma h_new_spec h N E h' d : h_new N E h = (h', d) →
  hwf h' d ∧ view h' d = Dag N E ∅ ∅ ∅ ∧ h ⊆ h' ∧ ∀ l, owned h' d l → l ∉ dom h.
Proof.
  unfold h_new. destruct (alloc h (ONodes N)) as [h1 l1] eqn:A1, (alloc h1 (OArcs E)) as [h2 l2] eqn:A2, (alloc h2 (ODict ∅)) as [h3 l3] eqn:A3,
    (alloc h3 (ODict ∅)) as [h4 l4] eqn:A4, (alloc h4 (ODict ∅)) as [h5 l5] eqn:A5. intros [= <- <-].
  apply alloc_new in A1 as [N1 ->], A2 as [N2 ->], A3 as [N3 ->], A4 as [N4 ->], A5 as [N5 ->].
  rewrite !dom_insert, ?not_elem_of_union, ?not_elem_of_singleton in *. destruct_and!.
  set (h' := <[l5:=_]> _).
  assert (h' !! l1 = Some (ONodes N) ∧ h' !! l2 = Some (OArcs E) ∧ h' !! l3 = Some (ODict ∅) ∧ h' !! l4 = Some (ODict ∅) ∧ h' !! l5 = Some (ODict ∅)) as (L1 & L2 & L3 & L4 & L5).
  { unfold h'. split_and!; repeat (rewrite lookup_insert || rewrite lookup_insert_ne by congruence); done. }
  assert (∀ k n, addr h' (DObj l1 l2 l3 l4 l5) (SVal k n) = None) as Hnone.
  { intros k n. cbn. unfold hdict. destruct k; cbn; by rewrite ?L3, ?L4, ?L5. }
  split; [|split; [|split]].
  - split.
    + intros [| |k|k n] l; [intros [= <-]; by eexists|intros [= <-]; by eexists| |by rewrite Hnone].
      destruct k; intros [= <-]; by eexists.
    + intros [| |k|k n] [| |k'|k' n'] l; rewrite ?Hnone; cbn; try done; try destruct k; try destruct k'; cbn; congruence.
  - unfold view, vdict, hnodes, harcs, hdict. cbn. rewrite L1, L2, L3, L4, L5. by rewrite !fmap_empty.
  - unfold h'. repeat (etrans; [|apply insert_subseteq; apply not_elem_of_dom; rewrite ?dom_insert, ?not_elem_of_union, ?not_elem_of_singleton; done]). done.
  - intros l [[| |k|k n] Hl]; [| | |by rewrite Hnone in Hl].
    + injection Hl as <-. done. + injection Hl as <-. done. + destruct k; injection Hl as <-; done.
Qed.

Lemma mfor_setitem k l v : mfor l (λ p v, (vupd k (<[p.1 := p.2]>) v, Ok tt)) v = (foldl (λ v p, vupd k (<[p.1 := p.2]>) v) v l, Ok tt).
Proof. revert v. induction l as [|a l IH]; intros v; [done|]. cbn. unfold mthen, mbind'. by rewrite IH. Qed.
Lemma foldl_vupd k (l : list (node * nset)) v : foldl (λ v p, vupd k (<[p.1 := p.2]>) v) v l = vupd k (λ m, foldl (λ m p, <[p.1 := p.2]> m) m l) v.
Proof. revert v. induction l as [|a l IH]; intros v; cbn; [by destruct k, v|]. rewrite IH. by destruct k. Qed.
Lemma foldl_insert_lookup (l : list (node * nset)) (m : dmap) n : NoDup (l.*1) →
  foldl (λ m p, <[p.1 := p.2]> m) m l !! n = match (list_to_map l : dmap) !! n with Some s => Some s | None => m !! n end.
Proof.
  revert m. induction l as [|[a s] l IH]; intros m Hnd; [done|]. cbn in *. apply NoDup_cons in Hnd as [Ha Hnd]. rewrite IH by done.
  destruct (decide (a = n)) as [->|Hne].
  - rewrite !lookup_insert. by rewrite not_elem_of_list_to_map_1.
  - by rewrite !lookup_insert_ne.
Qed.
Lemma foldl_insert_map (m : dmap) : foldl (λ m p, <[p.1 := p.2]> m) ∅ (map_to_list m) = m.
Proof.
  apply map_eq. intros n. rewrite foldl_insert_lookup by apply NoDup_fst_map_to_list. rewrite list_to_map_to_list. by destruct (m !! n).
Qed.

Lemma h_copy_spec h d h' d' : hwf h d → h_copy h d = (h', d') →
  h ⊆ h' ∧ hwf h' d' ∧ same_views (view h' d') (view h d) ∧ ∀ l, owned h' d' l → l ∉ dom h.
Proof.
  intros Hw. unfold h_copy. destruct (h_new (hnodes h (a_nodes d)) (harcs h (a_arcs d)) h) as [h1 d1] eqn:Hnew.
  apply h_new_spec in Hnew as (N1 & N2 & N3 & N4).
  set (mh := mthen (mfor _ (λ p, hp_setitem KNbr p.1 p.2)) _).
  assert (sim mh (mfor (map_to_list (vdict h (a_nbr d))) (λ p v, (vupd KNbr (<[p.1 := p.2]>) v, Ok tt)) ;;;
    mfor (map_to_list (vdict h (a_par d))) (λ p v, (vupd KPar (<[p.1 := p.2]>) v, Ok tt)) ;;;
    mfor (map_to_list (vdict h (a_chi d))) (λ p v, (vupd KChi (<[p.1 := p.2]>) v, Ok tt)))) as Hsim.
  { apply sim_then; [apply sim_for; intros p; apply sim_setitem|]. apply sim_then; apply sim_for; intros p; apply sim_setitem. }
  destruct (Hsim h1 d1 (Dag (hnodes h (a_nodes d)) (harcs h (a_arcs d)) ∅ ∅ ∅) N1) as (_ & S2 & S3 & S4); [by rewrite N2|].
  intros Heq. rewrite Heq in S2, S3, S4. cbn [fst snd] in *.
  unfold mthen, mbind' in S3. rewrite !mfor_setitem in S3. cbn [fst snd] in S3. rewrite !foldl_vupd in S3. cbn in S3. rewrite !foldl_insert_map in S3.
  destruct S4 as (F1 & F2 & F3). pose proof (subseteq_dom _ _ N3) as Hdom.
  split; [|split; [done|split; [done|]]].
  - apply map_subseteq_spec. intros l x Hx. assert (l ∈ dom h) as Hl by by apply elem_of_dom_2 in Hx.
    rewrite F1; [by eapply lookup_weaken|by apply Hdom|]. intros Ho. by apply N4 in Ho.
  - intros l Ho. apply F2 in Ho as [Ho|Ho]; [by apply N4|]. intros Hl. by apply Ho, Hdom.
Qed.
