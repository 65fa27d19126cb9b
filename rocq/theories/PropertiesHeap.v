(** Final theorems about sharing of mutable containers: C31 (copy), C87, C88. *)
From Verif Require Import Py Spec DagModel HeapModel HeapProofs TopoProofs StateProofs MarkovProofs PropertiesDag.

#[local] Arguments alloc : simpl never.
#[local] Arguments getitem : simpl never.

(** [hwf h d]: the attributes of [d] are containers of the right type, and no
    container is used twice. *)

(** ** Method calls on one object *)

(** Every mutator does to the object what it does in the value model, raises the
    same exception, and leaves every container that is not the object's alone. *)
Theorem C87_mutators_own_containers (c : call) (h : heap) (d : dobj) : hwf h d →
  let '((h', d'), r) := hexec c (h, d) in
  r = (exec c (view h d)).2 ∧ same_views (view h' d') (exec c (view h d)).1 ∧ hwf h' d' ∧
  (∀ l, l ∈ dom h → ¬ owned h d l → h' !! l = h !! l ∧ ¬ owned h' d' l).
Proof.
  intros Hw. destruct (sim_exec c h d (view h d) Hw) as (H1 & H2 & H3 & F1 & F2 & F3); [done|].
  destruct (hexec c (h, d)) as [[h' d'] r]. cbn [fst snd] in *. split_and!; [done|done|done|]. intros l Hl Hn. split; [by apply F1|].
  intros Ho. by apply F2 in Ho as [?|?].
Qed.

(** ** C31: a copy is independent of the original *)

(** A history of calls on two objects sharing a heap: [true] for the first. *)
Definition step2 (w : heap * dobj * dobj) (bc : bool * call) : heap * dobj * dobj :=
  let '(h, d1, d2) := w in
  if bc.1 then let '((h', d1'), _) := hexec bc.2 (h, d1) in (h', d1', d2)
  else let '((h', d2'), _) := hexec bc.2 (h, d2) in (h', d1, d2').
Definition run2 (hist : list (bool * call)) (w : heap * dobj * dobj) : heap * dobj * dobj := foldl step2 w hist.
Definition calls_of (b : bool) (hist : list (bool * call)) : list call := (filter (λ bc, bc.1 = b) hist).*2.

Definition apart (h : heap) (d1 d2 : dobj) : Prop := hwf h d1 ∧ hwf h d2 ∧ ∀ l, owned h d1 l → owned h d2 l → False.

Lemma apart_step h d1 d2 c v : apart h d1 d2 → same_views (view h d1) v →
  let '((h', d1'), _) := hexec c (h, d1) in
  apart h' d1' d2 ∧ same_views (view h' d1') (exec c v).1 ∧ view h' d2 = view h d2.
Proof.
  intros (H1 & H2 & Hd) Hv. destruct (sim_exec c h d1 v H1 Hv) as (E1 & E2 & E3 & F1 & F2 & F3).
  destruct (hexec c (h, d1)) as [[h' d1'] r]. cbn [fst snd] in *.
  destruct (frame_other h h' d2 H2) as (G1 & G2 & G3).
  { intros l Hl. apply F1; [by eapply owned_dom|]. intros Ho. by apply (Hd l). }
  split; [|done]. split; [done|]. split; [done|]. intros l Ho1 Ho2. apply G3 in Ho2. apply F2 in Ho1 as [Ho1|Ho1]; [by apply (Hd l)|].
  apply Ho1. by eapply owned_dom.
Qed.

Lemma run2_spec hist h d1 d2 v1 v2 : apart h d1 d2 → same_views (view h d1) v1 → same_views (view h d2) v2 →
  let '(h', d1', d2') := run2 hist (h, d1, d2) in
  apart h' d1' d2' ∧ same_views (view h' d1') (run (calls_of true hist) v1) ∧ same_views (view h' d2') (run (calls_of false hist) v2).
Proof.
  revert h d1 d2 v1 v2. induction hist as [|[b c] hist IH]; intros h d1 d2 v1 v2 Ha Hv1 Hv2; [done|].
  cbn [run2 foldl]. fold (run2 hist (step2 (h, d1, d2) (b, c))). destruct b; cbn [step2 fst snd].
  - pose proof (apart_step h d1 d2 c v1 Ha Hv1) as Hst. destruct (hexec c (h, d1)) as [[h' d1'] r]. destruct Hst as (Ha' & Hs & Hk).
    change (calls_of true ((true, c) :: hist)) with (c :: calls_of true hist). change (calls_of false ((true, c) :: hist)) with (calls_of false hist).
    cbn [run foldl]. apply IH; [done|exact Hs|by rewrite Hk].
  - assert (apart h d2 d1) as Ha2 by (destruct Ha as (? & ? & Hd); split_and!; [done|done|]; intros l ? ?; by apply (Hd l)).
    pose proof (apart_step h d2 d1 c v2 Ha2 Hv2) as Hst. destruct (hexec c (h, d2)) as [[h' d2'] r]. destruct Hst as (Ha' & Hs & Hk).
    change (calls_of true ((false, c) :: hist)) with (calls_of true hist). change (calls_of false ((false, c) :: hist)) with (c :: calls_of false hist).
    cbn [run foldl]. apply IH; [|by rewrite Hk|exact Hs].
    destruct Ha' as (? & ? & Hd). split_and!; [done|done|]. intros l ? ?. by apply (Hd l).
Qed.

(** After [d' = d.copy()], whatever calls are made on the two objects in whatever
    order, each looks as if the calls on the other had not been made. *)
Theorem C31_copy_independent (h : heap) (d : dobj) (hist : list (bool * call)) : hwf h d →
  let '(h1, d1) := h_copy h d in
  view h1 d = view h d ∧ same_views (view h1 d1) (view h d) ∧
  let '(h2, d2, d2') := run2 hist (h1, d, d1) in
  same_views (view h2 d2) (run (calls_of true hist) (view h d)) ∧ same_views (view h2 d2') (run (calls_of false hist) (view h d)).
Proof.
  intros Hw. destruct (h_copy h d) as [h1 d1] eqn:Hc. destruct (h_copy_spec h d h1 d1 Hw Hc) as (C1 & C2 & C3 & C4).
  destruct (frame_other h h1 d Hw) as (G1 & G2 & G3).
  { intros l Hl. apply (owned_dom h d l Hw) in Hl. apply elem_of_dom in Hl as [x Hx]. rewrite Hx. by eapply lookup_weaken. }
  split; [done|]. split; [done|].
  assert (apart h1 d d1) as Ha. { split; [done|]. split; [done|]. intros l Ho Ho'. apply C4 in Ho'. apply Ho', (owned_dom h d l Hw). by apply G3. }
  pose proof (run2_spec hist h1 d d1 (view h d) (view h d) Ha) as Hr. rewrite G2 in Hr. specialize (Hr (same_views_refl _) C3).
  destruct (run2 hist (h1, d, d1)) as [[h2 d2] d2']. apply Hr.
Qed.

(** ** C87: returned containers are not the object's *)

(** What a caller does to the containers it was given cannot be seen in the
    object. *)
Definition harmless (h : heap) (d : dobj) (l : loc) : Prop := ∀ x, view (<[l := x]> h) d = view h d ∧ hwf (<[l := x]> h) d.

Lemma not_owned_harmless h d l : hwf h d → ¬ owned h d l → harmless h d l.
Proof.
  intros Hw Hn x. destruct (frame_other h (<[l:=x]> h) d Hw) as (H1 & H2 & _); [|done].
  intros l' Ho. apply lookup_insert_ne. by intros <-.
Qed.
Lemma extend_same h h' d : hwf h d → h ⊆ h' → hwf h' d ∧ view h' d = view h d ∧ ∀ l, owned h' d l ↔ owned h d l.
Proof.
  intros Hw Hs. apply frame_other; [done|]. intros l Hl. apply (owned_dom h d l Hw) in Hl. apply elem_of_dom in Hl as [x Hx]. rewrite Hx. by eapply lookup_weaken.
Qed.
Lemma alloc_sub h x h' l : alloc h x = (h', l) → h ⊆ h' ∧ l ∉ dom h ∧ h' !! l = Some x.
Proof.
  intros Ha. apply alloc_new in Ha as [Hn ->]. split; [|split; [done|by rewrite lookup_insert]]. apply insert_subseteq. by apply not_elem_of_dom.
Qed.

Theorem C87_nodes_arcs (h : heap) (d : dobj) : hwf h d →
  (let '(h', l) := h_nodes h d in h' !! l = Some (ONodes (d_nodes (view h d))) ∧ view h' d = view h d ∧ harmless h' d l) ∧
  (let '(h', l) := h_arcs h d in h' !! l = Some (OArcs (d_arcs (view h d))) ∧ view h' d = view h d ∧ harmless h' d l).
Proof.
  intros Hw. split; [unfold h_nodes|unfold h_arcs]; destruct (alloc h _) as [h' l] eqn:Ha; apply alloc_sub in Ha as (A1 & A2 & A3);
    destruct (extend_same h h' d Hw A1) as (E1 & E2 & E3); (split; [done|]); (split; [done|]);
    apply not_owned_harmless; [done| |done|]; intros Ho; apply A2, (owned_dom h d l Hw); by apply E3.
Qed.

Lemma copy_items_spec l h m h' m' : NoDup (l.*1) → copy_items h l m = (h', m') →
  h ⊆ h' ∧ (∀ n s, (n, s) ∈ l → ∃ x, m' !! n = Some x ∧ x ∉ dom h ∧ h' !! x = Some (ONodes s)) ∧ (∀ n, n ∉ l.*1 → m' !! n = m !! n).
Proof.
  revert h m. induction l as [|[n s] l IH]; intros h m Hnd Hc; cbn in Hc.
  { injection Hc as <- <-. split; [done|]. split; [|done]. intros ? ? []%elem_of_nil. }
  cbn in Hnd. apply NoDup_cons in Hnd as [Hn Hnd]. destruct (alloc h (ONodes s)) as [h1 x] eqn:Ha. apply alloc_sub in Ha as (A1 & A2 & A3).
  destruct (IH h1 _ Hnd Hc) as (I1 & I2 & I3). split; [by etrans|]. split.
  - intros n' s' [[= -> ->]|Hin]%elem_of_cons.
    + exists x. rewrite I3 by done. rewrite lookup_insert. split; [done|]. split; [done|]. by eapply lookup_weaken.
    + destruct (I2 n' s' Hin) as (x' & X1 & X2 & X3). exists x'. split; [done|]. split; [|done]. intros Hd. apply X2. by apply (subseteq_dom _ _ A1).
  - intros n' Hn'. cbn in Hn'. apply not_elem_of_cons in Hn' as [Hne Hn']. rewrite I3 by done. by rewrite lookup_insert_ne.
Qed.

(** The properties [parents], [children], [neighbors]: a new dictionary with a new
    set for every node. *)
Theorem C87_dict_views (k : kind) (h : heap) (d : dobj) : hwf h d →
  let '(h', l) := h_dict_view k h d in
  view h' d = view h d ∧ harmless h' d l ∧
  ∃ m, h' !! l = Some (ODict m) ∧ d_nodes (view h d) ⊆ dom m ∧
    ∀ n x, m !! n = Some x → h' !! x = Some (ONodes (vget (view h d) k n)) ∧ harmless h' d x.
Proof.
  intros Hw. unfold h_dict_view, h_defdict2dict.
  destruct (copy_items h (map_to_list (vdict h (attr d k))) ∅) as [h1 m1] eqn:C1.
  destruct (copy_items h1 _ m1) as [h2 m2] eqn:C2. destruct (alloc h2 (ODict m2)) as [h3 l] eqn:Ha.
  apply copy_items_spec in C1 as (P1 & P2 & P3); [|apply NoDup_fst_map_to_list].
  assert (∀ (X : list node), ((λ n : node, (n, ∅ : nset)) <$> X).*1 = X) as Hfst.
  { intros X. rewrite <-list_fmap_compose. cbn. by rewrite list_fmap_id. }
  apply copy_items_spec in C2 as (Q1 & Q2 & Q3); [|rewrite Hfst; apply NoDup_elements]. rewrite Hfst in Q3.
  apply alloc_sub in Ha as (A1 & A2 & A3).
  assert (h ⊆ h3) as Hsub by (etrans; [exact P1|etrans; [exact Q1|exact A1]]).
  destruct (extend_same h h3 d Hw Hsub) as (E1 & E2 & E3).
  assert (∀ x, x ∉ dom h → harmless h3 d x) as Hharm.
  { intros x Hx. apply not_owned_harmless; [done|]. intros Ho. apply Hx, (owned_dom h d x Hw). by apply E3. }
  split; [done|]. split.
  { apply Hharm. intros Hl. apply A2. apply (subseteq_dom _ _ Q1), (subseteq_dom _ _ P1). exact Hl. }
  assert (∀ n, dget (vdict h (attr d k)) n = vget (view h d) k n) as Hvg by by destruct k.
  exists m2. split; [done|]. split.
  - intros n Hn. cbn in Hn. destruct (vdict h (attr d k) !! n) as [s|] eqn:Hs.
    + apply elem_of_dom. destruct (decide (n ∈ elements (hnodes h (a_nodes d) ∖ dom (hdict h (attr d k))))) as [Hin|Hin].
      * exfalso. apply elem_of_elements, elem_of_difference in Hin as [_ Hin]. apply Hin. apply elem_of_dom. unfold vdict in Hs.
        rewrite lookup_fmap in Hs. apply fmap_Some in Hs as (? & ? & _). by eexists.
      * rewrite Q3 by done. destruct (P2 n s) as (x & Hx & _); [by apply elem_of_map_to_list|]. by exists x.
    + destruct (Q2 n ∅) as (x & Hx & _); [|by apply elem_of_dom_2 in Hx]. apply elem_of_list_fmap. exists n. split; [done|].
      apply elem_of_elements, elem_of_difference. split; [done|]. unfold vdict in Hs. rewrite lookup_fmap in Hs. apply not_elem_of_dom.
      by destruct (hdict h (attr d k) !! n).
  - intros n x Hx. rewrite <-Hvg. destruct (decide (n ∈ elements (hnodes h (a_nodes d) ∖ dom (hdict h (attr d k))))) as [Hin|Hin].
    + destruct (Q2 n ∅) as (x' & Hx' & Hd & Hl); [apply elem_of_list_fmap; by exists n|]. rewrite Hx in Hx'. injection Hx' as <-.
      apply elem_of_elements, elem_of_difference in Hin as [_ Hin]. apply not_elem_of_dom in Hin.
      split; [|apply Hharm; intros Hxd; by apply Hd, (subseteq_dom _ _ P1)].
      assert (dget (vdict h (attr d k)) n = ∅) as ->; [|by eapply lookup_weaken]. unfold dget, vdict. by rewrite lookup_fmap, Hin.
    + rewrite Q3 in Hx by done. destruct (decide (n ∈ (map_to_list (vdict h (attr d k))).*1)) as [Hk|Hk].
      * apply elem_of_list_fmap in Hk as ([n' s] & Heq & Hk). cbn in Heq. subst n'.
        destruct (P2 n s Hk) as (x' & Hx' & Hd & Hl). rewrite Hx in Hx'. injection Hx' as <-. apply elem_of_map_to_list in Hk.
        split; [|by apply Hharm]. unfold dget. rewrite Hk. cbn. eapply lookup_weaken; [|exact A1]. by eapply lookup_weaken.
      * rewrite P3 in Hx by done. by rewrite lookup_empty in Hx.
Qed.

(** [parents_of(n)] and so on. *)
Theorem C87_of (k : kind) (n : node) (h : heap) (d : dobj) : hwf h d →
  let '(h', l) := h_of k n h d in
  h' !! l = Some (ONodes (vget (view h d) k n)) ∧ same_views (view h' d) (view h d) ∧ hwf h' d ∧ harmless h' d l.
Proof.
  intros Hw. unfold h_of. destruct (getitem h (attr d k) n) as [h1 l1] eqn:Hg. destruct (getitem_spec h d k n h1 l1 Hw Hg) as (G1 & G2 & G3 & G4).
  destruct (alloc h1 _) as [h2 l] eqn:Ha. apply alloc_sub in Ha as (A1 & A2 & A3). destruct (extend_same h1 h2 d G1 A1) as (E1 & E2 & E3).
  split; [|split; [by rewrite E2|split; [done|]]].
  - rewrite A3. do 2 f_equal. rewrite <-(proj2 (proj2 G3) k n), vget_view. cbn [addr] in *. by rewrite G2.
  - apply not_owned_harmless; [done|]. intros Ho. apply A2, (owned_dom h1 d l G1). by apply E3.
Qed.

(** The property [neighbors] of an [UndirectedGraph] returns the graph's own sets. *)
Lemma u_collect_spec ld l h m h' m' : (∃ md, h !! ld = Some (ODict md)) → u_collect h ld l m = (h', m') →
  (∃ md, h' !! ld = Some (ODict md)) ∧ (∀ n x, hdict h ld !! n = Some x → hdict h' ld !! n = Some x) ∧
  (∀ n, n ∈ l → ∃ x, m' !! n = Some x) ∧ (∀ n x, m' !! n = Some x → m !! n = Some x ∨ hdict h' ld !! n = Some x) ∧ dom h ⊆ dom h'.
Proof.
  revert h m. induction l as [|n l IH]; intros h m Hd Hc; cbn in Hc.
  { injection Hc as <- <-. split_and!; [done|done| |by left|done]. intros ? []%elem_of_nil. }
  destruct (getitem h ld n) as [h1 x] eqn:Hg.
  assert ((∃ md, h1 !! ld = Some (ODict md)) ∧ hdict h1 ld !! n = Some x ∧ (∀ n' y, hdict h ld !! n' = Some y → hdict h1 ld !! n' = Some y) ∧ dom h ⊆ dom h1) as (G1 & G2 & G3 & G4).
  { unfold getitem in Hg. destruct (hdict h ld !! n) as [y|] eqn:Hy; [by injection Hg as <- <-|].
    destruct (alloc h (ONodes ∅)) as [h0 y] eqn:Ha. apply alloc_new in Ha as [Hn ->]. injection Hg as <- <-. destruct Hd as [md Hmd].
    assert (ld ≠ y) by (intros ->; apply Hn; by apply elem_of_dom_2 in Hmd).
    assert (hdict (<[y:=ONodes ∅]> h) ld = hdict h ld) as -> by (unfold hdict; by rewrite lookup_insert_ne).
    split; [eexists; by rewrite lookup_insert|]. split; [unfold hdict at 1; rewrite lookup_insert; by rewrite lookup_insert|]. split.
    - intros n' z Hz. unfold hdict at 1. rewrite lookup_insert. rewrite lookup_insert_ne; [done|]. intros <-. by rewrite Hy in Hz.
    - rewrite !dom_insert. set_solver. }
  destruct (IH h1 _ G1 Hc) as (I1 & I2 & I3 & I4 & I5). split_and!; [done| | | |by etrans].
  - intros n' y Hy. by apply I2, G3.
  - intros n' [->|Hn']%elem_of_cons; [|by apply I3].
    destruct (decide (n ∈ l)); [by apply I3|]. clear -Hc. destruct (m' !! n) as [y|] eqn:Hy; [by exists y|]. exfalso.
    revert h1 m x m' h' Hc Hy. induction l as [|a l IH]; intros h1 m x m' h' Hc Hy; cbn in Hc; [injection Hc as <- <-; by rewrite lookup_insert in Hy|].
    destruct (getitem h1 ld a) as [h2 z]. destruct (decide (a = n)) as [->|Hne].
    + rewrite insert_insert in Hc. by eapply IH.
    + rewrite insert_commute in Hc by done. by eapply IH.
  - intros n' y Hy. apply I4 in Hy as [Hy|Hy]; [|by right]. apply lookup_insert_Some in Hy as [[<- <-]|[_ Hy]]; [right; by apply I2|by left].
Qed.
Theorem C87_undirected_neighbors_shared (o : oracle) (h : heap) (g : uobj) : (∃ md, h !! u_nbr g = Some (ODict md)) →
  let '(h', l) := u_neighbors o h g in
  ∀ n, n ∈ hnodes h (u_nodes g) → ∃ x, hdict h' l !! n = Some x ∧ hdict h' (u_nbr g) !! n = Some x.
Proof.
  intros Hd. unfold u_neighbors. destruct (u_collect h (u_nbr g) _ ∅) as [h1 m] eqn:Hc.
  destruct (u_collect_spec _ _ _ _ _ _ Hd Hc) as (C1 & _ & C2 & C3 & _). destruct (alloc h1 (ODict m)) as [h2 l] eqn:Ha. apply alloc_new in Ha as [Hn ->].
  intros n Hin. destruct (C2 n) as [x Hx]; [by apply elem_of_on|]. exists x. unfold hdict at 1. rewrite lookup_insert. split; [done|].
  destruct (C3 n x Hx) as [He|He]; [by rewrite lookup_empty in He|]. unfold hdict. rewrite lookup_insert_ne; [done|]. intros ->.
  destruct C1 as [md Hmd]. apply Hn. by apply elem_of_dom_2 in Hmd.
Qed.

(** [g.neighbors[0].add(5)] on the graph [0 - 1] changes [g.neighbors_of(0)], and
    [g.edges] does not follow. *)
Definition uh : heap := list_to_map [(0, ONodes {[0; 1]}); (1, OArcs {[(0, 1)]}); (2, ODict (list_to_map [(0, 3); (1, 4)])); (3, ONodes {[1]}); (4, ONodes {[0]})].
Definition ug := UObj 0 1 2.
Theorem C87_undirected_neighbors_refuted : ∃ (h : heap) (g : uobj) (n x : node),
  let '(h1, l) := u_neighbors oracle0 h g in
  ∃ s, hdict h1 l !! n = Some s ∧
    let h2 := <[s := ONodes ({[x]} ∪ hnodes h1 s)]> h1 in
    let '(h3, r) := u_neighbors_of n h2 g in
    x ∈ hnodes h3 r ∧ x ∉ hnodes h3 (u_nodes g) ∧ harcs h3 (u_edges g) = harcs h (u_edges g).
Proof.
  exists uh, ug, 0, 5. destruct (u_neighbors oracle0 uh ug) as [h1 l] eqn:E. exists 3.
  assert (bool_decide (let '(h1, l) := u_neighbors oracle0 uh ug in hdict h1 l !! 0 = Some 3 ∧
    let h2 := <[3 := ONodes ({[5]} ∪ hnodes h1 3)]> h1 in let '(h3, r) := u_neighbors_of 0 h2 ug in
    5 ∈ hnodes h3 r ∧ 5 ∉ hnodes h3 (u_nodes ug) ∧ harcs h3 (u_edges ug) = harcs uh (u_edges ug)) = true) as H by (vm_compute; reflexivity).
  apply bool_decide_eq_true in H. by rewrite E in H.
Qed.

(** The other views of an [UndirectedGraph] are new containers. *)
Definition uowned (h : heap) (g : uobj) (l : loc) : Prop :=
  l = u_nodes g ∨ l = u_edges g ∨ l = u_nbr g ∨ ∃ n, hdict h (u_nbr g) !! n = Some l.
Theorem C87_undirected_views_fresh (n : node) (h : heap) (g : uobj) :
  (∃ md, h !! u_nbr g = Some (ODict md)) → (∀ l, uowned h g l → l ∈ dom h) →
  (let '(h', l) := u_neighbors_of n h g in
   ¬ uowned h' g l ∧ h' !! l = Some (ONodes (match hdict h (u_nbr g) !! n with Some x => hnodes h x | None => ∅ end))) ∧
  (let '(h', l) := u_edges_view h g in ¬ uowned h' g l ∧ h' !! l = Some (OArcs (harcs h (u_edges g)))) ∧
  (let '(h', l) := u_nodes_view h g in ¬ uowned h' g l ∧ h' !! l = Some (ONodes (hnodes h (u_nodes g)))).
Proof.
  intros [md Hmd] Hown.
  assert (∀ h1 x, (∀ l, uowned h1 g l → l ∈ dom h1) → let '(h', l) := alloc h1 x in ¬ uowned h' g l ∧ h' !! l = Some x) as Hal.
  { intros h1 x Ho. destruct (alloc h1 x) as [h' l] eqn:Ha. apply alloc_new in Ha as [Hn ->]. split; [|by rewrite lookup_insert].
    intros Hl. apply Hn, Ho. destruct Hl as [?|[?|[?|(m & Hm)]]]; [by left|by right; left|by right; right; left|].
    right. right. right. exists m. unfold hdict in Hm. rewrite lookup_insert_ne in Hm; [done|].
    intros ->. apply Hn, Ho. right. right. by left. }
  split; [|split; [by apply (Hal h)|by apply (Hal h)]]. unfold u_neighbors_of, getitem. destruct (hdict h (u_nbr g) !! n) as [x|] eqn:Hx; [by apply Hal|].
  destruct (alloc h (ONodes ∅)) as [h1 y] eqn:Ha. apply alloc_new in Ha as [Hn ->].
  assert (u_nbr g ≠ y) as Hne by (intros E; apply Hn; rewrite <-E; apply Hown; right; right; by left).
  assert (hdict (<[y:=ONodes ∅]> h) (u_nbr g) = hdict h (u_nbr g)) as Hd by (unfold hdict; by rewrite lookup_insert_ne). rewrite Hd.
  specialize (Hal (<[u_nbr g:=ODict (<[n:=y]> (hdict h (u_nbr g)))]> (<[y:=ONodes ∅]> h)) (ONodes ∅)).
  assert (hnodes (<[u_nbr g:=ODict (<[n:=y]> (hdict h (u_nbr g)))]> (<[y:=ONodes ∅]> h)) y = ∅) as ->.
  { unfold hnodes. by rewrite lookup_insert_ne, lookup_insert. }
  apply Hal. intros l Hl. rewrite !dom_insert, !elem_of_union, !elem_of_singleton.
  destruct Hl as [?|[?|[?|(m & Hm)]]]; [right; right; apply Hown; by left|right; right; apply Hown; right; by left|by left|].
  unfold hdict in Hm. rewrite lookup_insert in Hm. apply lookup_insert_Some in Hm as [[_ <-]|[_ Hm]]; [right; by left|].
  right. right. apply Hown. right. right. right. by exists m.
Qed.

(** ** C88: the node list of a [GaussDAG] *)

(** The constructor keeps the caller's list: appending to it changes the model. *)
Theorem C88_caller_list_shared (h : heap) (l : loc) (xs : list node) (n : node) : h !! l = Some (OList xs) →
  let '(h1, g) := g_new h l in
  g_to_dag_nodes h1 g = list_to_set xs ∧ list_to_set (g_nodes_prop h1 g) = (list_to_set xs : nset) ∧
  let h2 := <[l := OList (xs ++ [n])]> h1 in
  g_to_dag_nodes h2 g = {[n]} ∪ list_to_set xs ∧ list_to_set (g_nodes_prop h2 g) = (list_to_set xs : nset).
Proof.
  intros Hl. unfold g_new. destruct (alloc h _) as [h1 l1] eqn:Ha. apply alloc_new in Ha as [Hn ->].
  assert (l1 ≠ l) as Hne by (intros ->; apply Hn; by apply elem_of_dom_2 in Hl).
  unfold g_to_dag_nodes, g_nodes_prop, hlist. cbn [g_list g_nodes]. rewrite lookup_insert, (lookup_insert_ne h l1 l) by done. rewrite !Hl, lookup_insert.
  rewrite (lookup_insert_ne (<[l1:=_]> h) l l1) by done. rewrite lookup_insert.
  assert (list_to_set (elements (list_to_set xs : nset)) = (list_to_set xs : nset)) as Hset by apply list_to_set_elements_L.
  rewrite Hset. split; [done|]. split; [done|]. split; [|done]. rewrite list_to_set_app_L. cbn. set_solver.
Qed.

(** [add_node] extends the node list but not the node set. *)
Theorem C88_add_node_refuted (h : heap) (g : gobj) (xs : list node) (n : node) :
  h !! g_nodes g = Some (ONodes (list_to_set xs)) → h !! g_list g = Some (OList xs) → n ∉ xs →
  let '(h1, r) := g_append n h g in r = Ok tt ∧ n ∈ g_to_dag_nodes h1 g ∧ n ∉ g_nodes_prop h1 g.
Proof.
  intros Hs Hl Hn. unfold g_append. rewrite Hl. split; [done|].
  assert (g_list g ≠ g_nodes g) as N3 by (intros E; rewrite E, Hs in Hl; done).
  unfold g_to_dag_nodes, g_nodes_prop, hlist. rewrite lookup_insert, lookup_insert_ne, Hs by done. split.
  - apply elem_of_list_to_set, elem_of_app. right. by apply elem_of_list_singleton.
  - intros Hin. by apply elem_of_elements, elem_of_list_to_set in Hin.
Qed.

(** [copy] makes the node list of the copy the node set of the original: the copy
    has no [append], so [add_node] fails on it, *)
Theorem C88_copy_add_node_refuted (h : heap) (g : gobj) (s : nset) (n : node) : h !! g_nodes g = Some (ONodes s) →
  let '(h1, c) := g_copy h g in (g_append n h1 c).2 = Raise TypeError.
Proof.
  intros Hs. unfold g_copy, g_new. destruct (alloc h _) as [h1 l1] eqn:Ha. apply alloc_new in Ha as [Hn ->].
  unfold g_append. cbn [g_list]. rewrite lookup_insert_ne; [by rewrite Hs|]. intros ->. apply Hn. by apply elem_of_dom_2 in Hs.
Qed.
(** and removing a node from the original removes it from the copy's node list,
    but not from its node set. *)
Theorem C88_copy_shared (h : heap) (g : gobj) (xs : list node) (n : node) (ix : nat) :
  h !! g_nodes g = Some (ONodes (list_to_set xs)) → h !! g_list g = Some (OList xs) → n ∈ xs → ix < length xs →
  let '(h1, c) := g_copy h g in
  let '(h2, r) := g_remove n ix h1 g in
  r = Ok tt ∧ n ∉ g_to_dag_nodes h2 c ∧ n ∈ g_nodes_prop h2 c.
Proof.
  intros Hs Hl Hin Hix. unfold g_copy, g_new. destruct (alloc h _) as [h1 l1] eqn:Ha. apply alloc_new in Ha as [Hn ->].
  assert (l1 ≠ g_list g) as N1 by (intros ->; apply Hn; by apply elem_of_dom_2 in Hl).
  assert (l1 ≠ g_nodes g) as N2 by (intros ->; apply Hn; by apply elem_of_dom_2 in Hs).
  assert (g_list g ≠ g_nodes g) as N3 by (intros E; rewrite E, Hs in Hl; done).
  unfold g_remove. rewrite (lookup_insert_ne h l1 (g_list g)) by done. rewrite Hl. rewrite decide_True by done. cbn zeta.
  assert (hnodes (<[g_list g:=OList (delete ix xs)]> (<[l1:=ONodes (list_to_set (hlist h (g_nodes g)))]> h)) (g_nodes g) = list_to_set xs) as Hns.
  { unfold hnodes. by rewrite !lookup_insert_ne, Hs. }
  rewrite Hns. rewrite decide_True by by apply elem_of_list_to_set. split; [done|].
  unfold g_to_dag_nodes, g_nodes_prop, hlist. cbn [g_list g_nodes]. rewrite lookup_insert. split.
  - rewrite list_to_set_elements_L. set_solver.
  - rewrite (lookup_insert_ne _ (g_nodes g) l1), (lookup_insert_ne _ (g_list g) l1), lookup_insert by done. rewrite Hs.
    rewrite list_to_set_elements_L. by apply elem_of_elements, elem_of_list_to_set.
Qed.

(** ** Examples *)

(** The object [0 → 1] on nodes [0, 1, 2], and histories with an effect. *)
Definition ex_new : heap * dobj := h_new {[0; 1; 2]} ∅ ∅.
Definition ex_hd : heap * dobj := (h_insert_arc 0 1 ex_new).1.
Example C31_heap_example : hwf ex_hd.1 ex_hd.2 ∧ same_views (view ex_hd.1 ex_hd.2) (insert_arc 0 1 (dag_init {[0; 1; 2]})).
Proof.
  unfold ex_hd, ex_new. destruct (h_new {[0; 1; 2]} ∅ ∅) as [h d] eqn:E. apply h_new_spec in E as (H1 & H2 & _).
  destruct (sim_insert_arc 0 1 h d (dag_init {[0; 1; 2]}) H1) as (_ & K1 & K2 & _); [by rewrite H2|]. done.
Qed.
Example C31_heap_history :
  let '(h1, d1) := h_copy ex_hd.1 ex_hd.2 in
  let '(h2, d2, d2') := run2 [(false, CAddArc oracle0 1 2 true); (true, CRemoveNode oracle0 0 false); (false, CReverseArc oracle0 0 1 false true)] (h1, ex_hd.2, d1) in
  bool_decide (d_arcs (view h2 d2) = ∅ ∧ d_nodes (view h2 d2) = {[1; 2]} ∧ d_arcs (view h2 d2') = {[(1, 0); (1, 2)]} ∧
    parents (view h2 d2') 2 = {[1]} ∧ nbrs (view h2 d2) 1 = ∅) = true.
Proof. vm_compute. reflexivity. Qed.
Example C87_views_example :
  let '(h', l) := h_dict_view KPar ex_hd.1 ex_hd.2 in
  match hdict h' l !! 1, hdict h' l !! 2 with Some x, Some y => bool_decide (hnodes h' x = {[0]} ∧ hnodes h' y = ∅) | _, _ => false end = true.
Proof. vm_compute. reflexivity. Qed.
Example C87_undirected_example : (∃ md, uh !! u_nbr ug = Some (ODict md)) ∧ ∀ l, uowned uh ug l → l ∈ dom uh.
Proof.
  split; [by eexists|]. intros l Hl. destruct Hl as [->|[->|[->|(n & Hn)]]]; [apply elem_of_dom; by eexists..|].
  cbn in Hn. assert (map_Forall (λ _ x, x ∈ dom uh) (list_to_map [(0, 3); (1, 4)] : gmap node loc)) as Hf by (apply (bool_decide_unpack _); by vm_compute).
  by apply (Hf n l).
Qed.
Example C88_example : ∃ (h : heap) (g : gobj),
  h !! g_nodes g = Some (ONodes (list_to_set [0; 1; 2])) ∧ h !! g_list g = Some (OList [0; 1; 2]) ∧ 2 ∈ [0; 1; 2] ∧ 2 < length [0; 1; 2] ∧ 3 ∉ [0; 1; 2].
Proof. exists (<[0 := ONodes (list_to_set [0; 1; 2])]> (<[1 := OList [0; 1; 2]]> ∅)), (GObj 0 1). split_and!; [by rewrite lookup_insert|by rewrite lookup_insert_ne, lookup_insert|set_solver|cbn; lia|by vm_compute; set_solver]. Qed.

Print Assumptions C87_mutators_own_containers.
Print Assumptions C31_copy_independent.
Print Assumptions C87_nodes_arcs.
Print Assumptions C87_dict_views.
Print Assumptions C87_of.
Print Assumptions C87_undirected_neighbors_shared.
Print Assumptions C87_undirected_neighbors_refuted.
Print Assumptions C87_undirected_views_fresh.
Print Assumptions C88_caller_list_shared.
Print Assumptions C88_add_node_refuted.
Print Assumptions C88_copy_add_node_refuted.
Print Assumptions C88_copy_shared.
