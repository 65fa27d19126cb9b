(** Independence maps: [local_markov_statements], [is_imap], [is_minimal_imap]. *)
From Verif Require Import Py Spec SpecDsep DagModel DsepModel TopoProofs StateProofs ReachProofs OrderProofs QueryProofs WalkProofs DsepProofs MarkovProofs.

(** The Markov statement of [v] in [E1]: separated from all other non-descendants
    given the parents. *)
Definition nondesc_rest (N : nset) (E : arcset) (v : node) : nset :=
  filter (λ x, x ≠ v ∧ x ∉ pa E v ∧ ¬ tc (edge E) v x) N.

Lemma elem_of_nondesc_rest N E v x : x ∈ nondesc_rest N E v ↔ x ∈ N ∧ x ≠ v ∧ x ∉ pa E v ∧ ¬ tc (edge E) v x.
Proof. unfold nondesc_rest. rewrite elem_of_filter. naive_solver. Qed.

Lemma pa_sub N E v : over N E → pa E v ⊆ N.
Proof. intros Ho x Hx. apply elem_of_pa in Hx. by apply Ho in Hx as []. Qed.
Lemma pa_not_self E v : acyclic E → v ∉ pa E v.
Proof. intros Hac. rewrite elem_of_pa. intros H. apply (Hac v). by apply tc_once. Qed.

Lemma topo_split N E l l1 v l2 : over N E → topo_order N E l → l = l1 ++ v :: l2 →
  (∀ x, x ∈ l1 → x ∈ N ∧ x ≠ v ∧ ¬ tc (edge E) v x) ∧ pa E v ⊆ list_to_set l1.
Proof.
  intros Ho (Hnd & HN & Hord) ->. split.
  - intros x Hx. split; [apply HN; set_solver|]. apply NoDup_app in Hnd as (Hnd1 & Hdis & Hnd2). split.
    { intros ->. apply (Hdis v Hx). left. }
    intros Htc. apply elem_of_list_lookup in Hx as [i Hi].
    assert (∀ y, tc (edge E) v y → ∃ j, (l1 ++ v :: l2) !! j = Some y ∧ length l1 < j) as H.
    { intros y Hy. apply tc_flip in Hy. remember v as v0 eqn:Hv in Hy at 1. revert Hv.
      induction Hy as [y v' Hvy|y z v' Hzy _ IH]; intros ->.
      - destruct (Ho v y Hvy) as [_ HyN]. apply HN in HyN. apply elem_of_list_lookup in HyN as [j Hj]. exists j. split; [done|].
        eapply Hord; [exact Hvy| |done]. by apply list_lookup_middle.
      - destruct (IH eq_refl) as (k & Hk & Hlt). destruct (Ho z y Hzy) as [_ HyN]. apply HN in HyN. apply elem_of_list_lookup in HyN as [j Hj].
        exists j. split; [done|]. pose proof (Hord k j z y Hzy Hk Hj). lia. }
    destruct (H x Htc) as (j & Hj & Hlt). apply lookup_lt_Some in Hi as Hi'.
    assert (i = j); [|lia]. eapply (NoDup_lookup (l1 ++ v :: l2)); [|by apply lookup_app_l_Some|done].
    apply NoDup_app. done.
  - intros x Hx. apply elem_of_pa in Hx. rewrite elem_of_list_to_set. destruct (Ho x v Hx) as [HxN _]. apply HN in HxN.
    apply elem_of_list_lookup in HxN as [j Hj].
    assert (j < length l1) as Hlt. { eapply Hord; [exact Hx|done|]. by apply list_lookup_middle. }
    rewrite lookup_app_l in Hj by done. by apply elem_of_list_lookup_2 in Hj.
Qed.

Lemma local_imap N E1 I : semigraphoid I → acyclic E1 → over N E1 →
  (∀ v, v ∈ N → I {[v]} (nondesc_rest N E1 v) (pa E1 v)) →
  ∀ A B C, A ⊆ N → B ⊆ N → C ⊆ N → disjoint3 A B C → dsepd E1 A B C → I A B C.
Proof.
  intros HI Hac Ho Hloc. destruct (exists_topo N E1 Hac Ho) as [l Hl].
  apply (ordered_global I HI l N E1 Hl Ho). intros l1 v l2 Heq.
  destruct (topo_split N E1 l l1 v l2 Ho Hl Heq) as [H1 H2].
  apply (sg_sub I HI _ (nondesc_rest N E1 v)); [|unfold disjoint3|apply Hloc].
  - intros x Hx. apply elem_of_nondesc_rest. apply elem_of_difference in Hx as [Hx Hx']. rewrite elem_of_list_to_set in Hx.
    destruct (H1 x Hx) as (? & ? & ?). done.
  - pose proof (pa_not_self E1 v Hac). split; [|split].
    + intros x ->%elem_of_singleton. rewrite elem_of_nondesc_rest. naive_solver.
    + set_solver.
    + intros x. rewrite elem_of_nondesc_rest. naive_solver.
  - destruct Hl as (_ & HN & _). apply HN. rewrite Heq. set_solver.
Qed.

Lemma imap_local N E1 E2 : acyclic E1 → acyclic E2 → over N E1 →
  imap N E1 E2 ↔ ∀ v, v ∈ N → dsepd E2 {[v]} (nondesc_rest N E1 v) (pa E1 v).
Proof.
  intros H1 H2 Ho. split.
  - intros H v Hv. apply H; [set_solver| |by apply pa_sub| |].
    + intros x. rewrite elem_of_nondesc_rest. naive_solver.
    + pose proof (pa_not_self E1 v H1). split; [|split].
      * intros x ->%elem_of_singleton. rewrite elem_of_nondesc_rest. naive_solver.
      * set_solver.
      * intros x. rewrite elem_of_nondesc_rest. naive_solver.
    + apply local_markov; [done|]. intros x. rewrite elem_of_nondesc_rest. naive_solver.
  - intros H A B C. apply (local_imap N E1); [by apply dsepd_semigraphoid|done..].
Qed.

(** Deleting an arc whose ends are separated given the other parents. *)
Lemma imap_delete N E1 E2 i j : acyclic E1 → acyclic E2 → over N E1 → imap N E1 E2 → (i, j) ∈ E1 →
  dsepd E2 {[i]} {[j]} (pa E1 j ∖ {[i]}) → imap N (E1 ∖ {[(i, j)]}) E2.
Proof.
  intros Hac1 Hac2 Ho Himap Hij Hsep. set (E' := E1 ∖ {[(i, j)]}).
  assert (over N E') as Ho'. { intros x y Hxy. apply Ho. unfold E' in Hxy. set_solver. }
  destruct (exists_topo N E1 Hac1 Ho) as [l Hl].
  assert (topo_order N E' l) as Hl'.
  { destruct Hl as (H1 & H2 & H3). split; [done|]. split; [done|]. intros a b x y Hxy. apply H3. unfold E' in Hxy. set_solver. }
  intros A B C. apply (ordered_global (dsepd E2) (dsepd_semigraphoid E2 Hac2) l N E' Hl' Ho').
  intros l1 v l2 Heq. destruct (topo_split N E1 l l1 v l2 Ho Hl Heq) as [H1 H2].
  assert (dsepd E2 {[v]} (list_to_set l1 ∖ pa E1 v) (pa E1 v)) as Hloc.
  { apply (proj1 (imap_local N E1 E2 Hac1 Hac2 Ho)) with (v := v) in Himap.
    - eapply dsepd_mono; [| |exact Himap]; [done|]. intros x. rewrite elem_of_difference, elem_of_list_to_set, elem_of_nondesc_rest.
      intros [Hx Hx']. destruct (H1 x Hx) as (? & ? & ?). done.
    - destruct Hl as (_ & HN & _). apply HN. rewrite Heq. set_solver. }
  destruct (decide (v = j)) as [->|Hvj].
  - assert (pa E' j = pa E1 j ∖ {[i]}) as ->.
    { apply set_eq. intros x. rewrite elem_of_difference, !elem_of_pa. unfold E'. set_solver. }
    assert (i ∈ pa E1 j) as Hi by by apply elem_of_pa.
    pose proof (pa_not_self E1 j Hac1) as Hj.
    eapply dsepd_mono; [| |apply (dsepd_contr E2 Hac2 {[j]} {[i]} (list_to_set l1 ∖ pa E1 j) (pa E1 j ∖ {[i]}))].
    + done.
    + intros x. rewrite !elem_of_difference, elem_of_union. destruct (decide (x = i)) as [->|]; set_solver.
    + set_solver.
    + set_solver.
    + by apply dsepd_sym.
    + replace (pa E1 j ∖ {[i]} ∪ {[i]}) with (pa E1 j); [done|]. rewrite (union_comm_L (pa E1 j ∖ {[i]})). apply union_difference_L. set_solver.
  - assert (pa E' v = pa E1 v) as ->; [|done].
    apply set_eq. intros x. rewrite !elem_of_pa. unfold E'. set_solver.
Qed.

(** An arc that is not needed is seen by the separation of its ends. *)
Lemma imap_needed N E1 E' E2 i j : acyclic E1 → acyclic E2 → over N E1 → E' ⊆ E1 → imap N E' E2 →
  (i, j) ∈ E1 → (i, j) ∉ E' → dsepd E2 {[i]} {[j]} (pa E1 j ∖ {[i]}).
Proof.
  intros Hac1 Hac2 Ho Hsub Himap Hij Hn.
  assert (acyclic E') as Hac' by by eapply acyclic_mono. assert (over N E') as Ho' by (intros x y Hxy; apply Ho; by apply Hsub).
  assert (pa E' j ⊆ pa E1 j ∖ {[i]}) as HP.
  { intros x. rewrite elem_of_difference, !elem_of_pa. intros Hx. split; [by apply Hsub|]. intros ->%elem_of_singleton. done. }
  assert (∀ x, x ∈ pa E1 j → ¬ tc (edge E1) j x) as Hnd.
  { intros x Hx Htc. apply elem_of_pa in Hx. apply (Hac1 j). by eapply tc_r. }
  assert (∀ x y, tc (edge E') x y → tc (edge E1) x y) as Htc.
  { intros x y H. induction H as [x y H|x z y H _ IH]; [apply tc_once; by apply Hsub|eapply tc_l; [by apply Hsub|done]]. }
  pose proof (pa_not_self E1 j Hac1) as Hj.
  apply dsepd_sym. set (Q := pa E1 j ∖ {[i]}) in *.
  assert (i ∈ pa E1 j) as Hi by by apply elem_of_pa.
  replace Q with (pa E' j ∪ (Q ∖ pa E' j)) by (symmetry; by apply union_difference_L).
  apply dsepd_weak; [done|unfold Q; set_solver|unfold Q; set_solver|].
  apply (proj1 (imap_local N E' E2 Hac' Hac2 Ho')) with (v := j) in Himap; [|by apply Ho in Hij as []].
  eapply dsepd_mono; [| |exact Himap]; [done|]. intros x Hx. apply elem_of_nondesc_rest.
  assert (x ∈ pa E1 j ∧ x ∉ pa E' j) as [Hx1 Hx2].
  { apply elem_of_union in Hx as [->%elem_of_singleton|Hx]; [split; [done|]; by rewrite elem_of_pa|]. unfold Q in Hx. set_solver. }
  split; [by apply (pa_sub N E1 j Ho)|]. split; [by intros ->|]. split; [done|]. intros H%Htc. by apply (Hnd x).
Qed.

(** ** The queries *)
Section queries.
  Context (d other : dag) (Hwf : wf d) (Hac : acyclic (d_arcs d)) (Hwf' : wf other) (Hac' : acyclic (d_arcs other)).
  Context (Hnodes : d_nodes d = d_nodes other).

  Lemma parents_pa v : parents d v = pa (d_arcs d) v.
  Proof. apply set_eq. intros x. by rewrite (wf_par d Hwf), elem_of_pa. Qed.

  Lemma local_markov_statements_spec o :
    ∃ S, local_markov_statements d o = Ok S ∧
      ∀ v B C, (v, B, C) ∈ S ↔ v ∈ d_nodes d ∧ B = nondesc_rest (d_nodes d) (d_arcs d) v ∧ C = pa (d_arcs d) v.
  Proof.
    unfold local_markov_statements.
    assert (∀ l (acc : gset (node * nset * nset)), ∃ S, loopR (λ n acc, res_bind (descendants_of d o n) (λ D,
           Ok ({[(n, d_nodes d ∖ {[n]} ∖ D ∖ parents d n, parents d n)]} ∪ acc))) l acc = Ok S ∧
           ∀ v B C, (v, B, C) ∈ S ↔ (v, B, C) ∈ acc ∨ v ∈ l ∧ B = nondesc_rest (d_nodes d) (d_arcs d) v ∧ C = pa (d_arcs d) v) as H.
    { intros l. induction l as [|n l IH]; intros acc; cbn [loopR].
      - exists acc. split; [done|]. set_solver.
      - destruct (descendants_of_spec d o Hwf n) as (D & -> & HD). cbn [res_bind].
        match goal with |- context [loopR _ l ?a] => destruct (IH a) as (S & -> & HS) end.
        exists S. split; [done|]. intros v B C. rewrite HS, elem_of_union, elem_of_singleton, elem_of_cons.
        assert (d_nodes d ∖ {[n]} ∖ D ∖ parents d n = nondesc_rest (d_nodes d) (d_arcs d) n) as ->.
        { apply set_eq. intros x. rewrite elem_of_nondesc_rest, !elem_of_difference, HD, parents_pa, elem_of_singleton. unfold ancestor. naive_solver. }
        rewrite parents_pa. naive_solver. }
    destruct (H (on o [22] (d_nodes d)) ∅) as (S & -> & HS). exists S. split; [done|]. intros v B C. rewrite HS, elem_of_on.
    split; [intros [H'|H']; [by apply not_elem_of_empty in H'|done]|by right].
  Qed.

  Lemma all_res_spec {A} (f : A → res bool) (P : A → Prop) l :
    (∀ x, x ∈ l → ∃ b, f x = Ok b ∧ (b = true ↔ P x)) → ∃ b, all_res f l = Ok b ∧ (b = true ↔ ∀ x, x ∈ l → P x).
  Proof.
    induction l as [|x l IH]; intros H; cbn [all_res].
    - exists true. split; [done|]. split; [|done]. intros _ x Hx. by apply elem_of_nil in Hx.
    - destruct (H x) as (b & -> & Hb); [left|]. destruct IH as (b' & Hb1 & Hb2); [intros y Hy; apply H; by right|].
      destruct b.
      + exists b'. split; [done|]. rewrite Hb2. setoid_rewrite elem_of_cons. naive_solver.
      + exists false. split; [done|]. split; [done|]. intros HP. apply Hb, HP. left.
  Qed.

  Lemma is_imap_spec o p ord : (∀ S, ord S ≡ₚ elements S) →
    ∃ b, is_imap d other o p ord = Ok b ∧ (b = true ↔ imap (d_nodes d) (d_arcs d) (d_arcs other)).
  Proof.
    intros Hord. unfold is_imap. destruct (local_markov_statements_spec o) as (S & -> & HS). cbn [res_bind].
    destruct (all_res_spec (λ s : node * nset * nset, dsep other o p {[s.1.1]} s.1.2 s.2)
      (λ s, dsepd (d_arcs other) {[s.1.1]} s.1.2 s.2) (ord S)) as (b & Hb1 & Hb2).
    { intros [[v B] C] Hx. rewrite Hord, elem_of_elements in Hx. apply HS in Hx as (Hv & -> & ->). cbn [fst snd].
      apply dsep_spec; [done|done|]. pose proof (pa_not_self (d_arcs d) v Hac) as Hp. clear -Hp. set_solver. }
    exists b. split; [done|]. rewrite Hb2. rewrite imap_local by (done || apply (wf_over d Hwf)). split.
    - intros H v Hv. apply (H (v, nondesc_rest (d_nodes d) (d_arcs d) v, pa (d_arcs d) v)).
      rewrite Hord, elem_of_elements. by apply HS.
    - intros H [[v B] C] Hx. rewrite Hord, elem_of_elements in Hx. apply HS in Hx as (Hv & -> & ->). by apply H.
  Qed.

  Lemma find_res_spec {A} (f : A → res bool) (P : A → Prop) l :
    (∀ x, x ∈ l → ∃ b, f x = Ok b ∧ (b = true ↔ P x)) → ∃ r, find_res f l = Ok r ∧
      match r with Some x => x ∈ l ∧ P x | None => ∀ x, x ∈ l → ¬ P x end.
  Proof.
    induction l as [|x l IH]; intros H; cbn [find_res].
    - exists None. split; [done|]. intros x Hx. by apply elem_of_nil in Hx.
    - destruct (H x) as (b & -> & Hb); [left|]. destruct IH as (r & Hr1 & Hr2); [intros y Hy; apply H; by right|].
      destruct b.
      + exists (Some x). split; [done|]. split; [left|]. by apply Hb.
      + exists r. split; [done|]. destruct r as [y|].
        * destruct Hr2. split; [by right|done].
        * intros y [->|Hy]%elem_of_cons; [|by apply Hr2]. intros HP%Hb. done.
  Qed.

  Lemma is_minimal_imap_spec o p ord ci : (∀ S, ord S ≡ₚ elements S) →
    (ci = false → imap (d_nodes d) (d_arcs d) (d_arcs other)) →
    ∃ b c, is_minimal_imap d other o p ord ci = Ok (b, c) ∧
      (b = true ↔ minimal_imap (d_nodes d) (d_arcs d) (d_arcs other)) ∧
      (∀ i j, c = Some (i, j) → (i, j) ∈ d_arcs d ∧ imap (d_nodes d) (d_arcs d ∖ {[(i, j)]}) (d_arcs other)).
  Proof.
    intros Hord Hci. unfold is_minimal_imap.
    destruct (is_imap_spec o p ord Hord) as (b & Hb1 & Hb2).
    assert (∃ b', (if ci then is_imap d other o p ord else Ok true) = Ok b' ∧ (b' = true ↔ imap (d_nodes d) (d_arcs d) (d_arcs other))) as (b' & -> & Hb').
    { destruct ci; [by exists b|]. exists true. split; [done|]. split; [|done]. intros _. by apply Hci. }
    cbn [res_bind]. destruct b'; [|exists false, None; split; [done|]; split; [|done]; split; [done|]; intros [H _]%id; by apply Hb' in H].
    assert (imap (d_nodes d) (d_arcs d) (d_arcs other)) as Himap by by apply Hb'.
    destruct (find_res_spec (λ a : arc, dsep other o p {[a.1]} {[a.2]} (parents d a.2 ∖ {[a.1]}))
      (λ a, dsepd (d_arcs other) {[a.1]} {[a.2]} (pa (d_arcs d) a.2 ∖ {[a.1]})) (oa o [23] (d_arcs d))) as (r & -> & Hr).
    { intros [i j] Hx. cbn [fst snd]. rewrite parents_pa. apply dsep_spec; [done|done|]. set_solver. }
    cbn [res_bind]. eexists _, _. split; [done|]. split.
    - rewrite bool_decide_eq_true. split.
      + intros ->. split; [done|]. intros E' [HE' HnE'] Hi.
        assert (∃ a, a ∈ d_arcs d ∧ a ∉ E') as ([i j] & Ha & Hn).
        { destruct (set_choose_or_empty (d_arcs d ∖ E')) as [[a Ha]|He]; [exists a; set_solver|]. exfalso. apply HnE'. intros a Ha.
          destruct (decide (a ∈ E')); [done|]. set_solver. }
        apply (Hr (i, j)); [by apply elem_of_oa|]. cbn.
        by apply (imap_needed (d_nodes d) (d_arcs d) E' (d_arcs other) i j Hac Hac' (wf_over d Hwf)).
      + intros [_ Hmin]. destruct r as [[i j]|]; [|done]. destruct Hr as [Hr1 Hr2]. rewrite elem_of_oa in Hr1. exfalso.
        apply (Hmin (d_arcs d ∖ {[(i, j)]})); [set_solver|].
        by apply imap_delete; [| |apply (wf_over d Hwf)|..].
    - intros i j ->. destruct Hr as [Hr1 Hr2]. rewrite elem_of_oa in Hr1. split; [done|].
      by apply imap_delete; [| |apply (wf_over d Hwf)|..].
  Qed.
End queries.

Lemma markov_blanket_elem d (Hwf : wf d) (Hac : acyclic (d_arcs d)) v x :
  x ∈ markov_blanket_of d v ↔ x ≠ v ∧ (adjacent (d_arcs d) x v ∨ ∃ c, (v, c) ∈ d_arcs d ∧ (x, c) ∈ d_arcs d).
Proof.
  unfold markov_blanket_of.
  rewrite !elem_of_union, elem_of_difference. unfold union_over. rewrite elem_of_fold_union.
  rewrite (wf_par d Hwf), (wf_chi d Hwf). setoid_rewrite (wf_par d Hwf). setoid_rewrite (wf_chi d Hwf). unfold adjacent.
  assert (∀ y, (y, v) ∈ d_arcs d → y ≠ v) as H1 by (intros y Hy ->; apply (Hac v); by apply tc_once).
  assert (∀ y, (v, y) ∈ d_arcs d → y ≠ v) as H2 by (intros y Hy ->; apply (Hac v); by apply tc_once).
  set_solver.
Qed.

Lemma markov_blanket_sep d (Hwf : wf d) (Hac : acyclic (d_arcs d)) v :
  dsepd (d_arcs d) {[v]} (d_nodes d ∖ markov_blanket_of d v ∖ {[v]}) (markov_blanket_of d v).
Proof. apply blanket; [done| |set_solver]. intros x. by apply markov_blanket_elem. Qed.
