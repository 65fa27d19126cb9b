(** Final theorems about the unfinished minimality tests of ancestral graphs and about [resolved_quasisinks]: C132. *)
From Verif Require Import Py Spec SpecDsep SpecMixed SpecMagImap DagModel DsepModel UGraphModel PdagModel InterveneModel AncestralModel MsepModel MagModel MagImapModel Imap34Model.
From Verif Require Import TopoProofs StateProofs ReachProofs MWalkProofs AncestralState AncestralProofs MsepProofs MaxProofs MagImapProofs.
From Verif Require Import PropertiesAncestral PropertiesMsep PropertiesMag PropertiesMagImap.

(** ** C132: [is_minimal_imap3], [is_minimal_imap4] and [resolved_quasisinks] *)

(** Some edge has an arrowhead. *)
Definition has_arrowhead (G : mixed) : Prop := ∃ x y, into G x y.
Lemma sample_nil g o flip sh : ag_wf g → (∀ l, sh l ≡ₚ l) → edge_sample g o flip sh = [] ↔ ¬ has_arrowhead (gmix g).
Proof.
  intros Hg Hsh. split.
  - intros E (x & y & [H|H]).
    + pose proof (PropertiesMagImap.sample_dir g o flip sh Hsh x y H) as Hin. rewrite E in Hin. by apply elem_of_nil in Hin.
    + destruct (PropertiesMagImap.sample_bi g o flip sh Hsh x y H) as [Hin|Hin]; rewrite E in Hin; by apply elem_of_nil in Hin.
  - intros Hn. destruct (edge_sample g o flip sh) as [|e l] eqn:E; [done|]. exfalso. apply Hn.
    destruct (PropertiesMagImap.sample_edge g o flip sh Hsh e) as [H|H]; [rewrite E; left| |].
    + exists e.1, e.2. left. by destruct e.
    + exists e.1, e.2. by right.
Qed.
Lemma sample_cons g o flip sh : ag_wf g → (∀ l, sh l ≡ₚ l) → has_arrowhead (gmix g) → ∃ e l, edge_sample g o flip sh = e :: l ∧ (e ∈ g_dir g ∨ spouse (gmix g) e.1 e.2).
Proof.
  intros Hg Hsh Ha. destruct (edge_sample g o flip sh) as [|e l] eqn:E; [by apply sample_nil in E|]. exists e, l. split; [done|].
  apply (PropertiesMagImap.sample_edge g o flip sh Hsh e). rewrite E. left.
Qed.
Lemma arrowhead_dec g : ag_wf g → has_arrowhead (gmix g) ∨ ¬ has_arrowhead (gmix g).
Proof.
  intros Hg. destruct (edge_sample g oracle0 (λ _, false) (λ l, l)) as [|e l] eqn:E.
  - right. eapply sample_nil; [done| |exact E]. done.
  - left. destruct (PropertiesMagImap.sample_edge g oracle0 (λ _, false) (λ l, l) ltac:(done) e) as [H|H]; [rewrite E; left| |].
    + exists e.1, e.2. left. by destruct e.
    + exists e.1, e.2. by right.
Qed.
Lemma drop4_ok g o flip e : ag_wf g → e ∈ g_dir g ∨ spouse (gmix g) e.1 e.2 → ∃ h, drop_edge4 g o flip e = Ok h ∧ ag_wf h.
Proof.
  intros Hg He. unfold drop_edge4. destruct (C67_copy g o flip Hg) as (h & -> & Hh & HN & HM & _). cbn [res_bind]. unfold run_on.
  pose proof (C35_remove_edge e.1 e.2 false h Hh) as H. cbn zeta in H. destruct (remove_edge e.1 e.2 false h) as [h' r]. cbn in H.
  destruct H as (Hw & _ & _ & _ & _ & Hok & _). rewrite Hok; [by exists h'|]. rewrite HM. destruct He as [He|He]; [left; by destruct e|right; right; by left].
Qed.

(** For a graph without undirected edges, on any other graph and in any order: an answer is only
    given if there is no edge at all or the graph is not an I-map; otherwise the call raises
    [AttributeError], modelled as [TypeError]. *)
Theorem C132_is_minimal_imap3 rest g h o p flip sh certify :
  ag_wf g → ancestral (gmix g) → g_un g = ∅ → ag_wf h → (∀ l, sh l ≡ₚ l) →
  let r := is_minimal_imap3 rest g h o p flip sh certify true in
  (¬ maximal (g_nodes g) (gmix g) ∧ r = Raise RuntimeError) ∨
  (maximal (g_nodes g) (gmix g) ∧ ¬ mag_imap (g_nodes g) (gmix g) (gmix h) ∧ r = Ok (Tuple false None)) ∨
  (maximal (g_nodes g) (gmix g) ∧ mag_imap (g_nodes g) (gmix g) (gmix h) ∧ has_arrowhead (gmix g) ∧ r = Raise TypeError) ∨
  (maximal (g_nodes g) (gmix g) ∧ mag_imap (g_nodes g) (gmix g) (gmix h) ∧ ¬ has_arrowhead (gmix g) ∧ r = Ok (if certify then Tuple true None else Bare true)).
Proof.
  intros Hg Han HU Hh Hsh. cbn zeta. unfold is_minimal_imap3. pose proof (proj2 (gok_ag_wf g) Hg) as Hk.
  destruct (C73_is_imap g h o p flip Hg Han Hh HU) as [[-> Hn]|(Hm & b & -> & Hb)]; [by left|]. right. cbn [res_bind].
  destruct b; [|left; split; [done|]; split; [intros Hx; by apply Hb in Hx|done]].
  assert (mag_imap (g_nodes g) (gmix g) (gmix h)) as Him by exact (proj1 Hb eq_refl). right. destruct (arrowhead_dec g Hg) as [Ha|Ha].
  - left. split; [done|]. split; [done|]. split; [done|]. destruct (sample_cons g o flip sh Hg Hsh Ha) as (e & l & -> & He). cbn [first_edge].
    destruct (PropertiesMagImap.drop2_spec g o flip Hk Han HU e He) as (h' & -> & _). done.
  - right. split; [done|]. split; [done|]. split; [done|]. rewrite (proj2 (sample_nil g o flip sh Hg Hsh) Ha). done.
Qed.
Theorem C132_is_minimal_imap4 rest1 rest2 g h o p flip sh1 sh certify extra :
  ag_wf g → ancestral (gmix g) → g_un g = ∅ → ag_wf h → (∀ l, sh l ≡ₚ l) → (∀ l, sh1 l ≡ₚ l) →
  let r := is_minimal_imap4 rest1 rest2 g h o p flip sh1 sh certify true extra in
  (¬ (maximal (g_nodes g) (gmix g) ∧ mag_imap (g_nodes g) (gmix g) (gmix h)) ∧ r = Raise RuntimeError) ∨
  (maximal (g_nodes g) (gmix g) ∧ mag_imap (g_nodes g) (gmix g) (gmix h) ∧ has_arrowhead (gmix g) ∧ r = Raise TypeError) ∨
  (maximal (g_nodes g) (gmix g) ∧ mag_imap (g_nodes g) (gmix g) (gmix h) ∧ ¬ has_arrowhead (gmix g) ∧ r = Ok (if certify then Tuple true None else Bare true)).
Proof.
  intros Hg Han HU Hh Hsh Hsh1. cbn zeta. unfold is_minimal_imap4.
  destruct (C73_is_imap g h o p flip Hg Han Hh HU) as [[-> Hn]|(Hm & b & -> & Hb)]; [left; split; [tauto|done]|]. cbn [res_bind].
  destruct b; [|left; split; [intros [_ Hx]; by apply Hb in Hx|done]].
  assert (mag_imap (g_nodes g) (gmix g) (gmix h)) as Him by exact (proj1 Hb eq_refl). right. destruct (arrowhead_dec g Hg) as [Ha|Ha].
  - left. split; [done|]. split; [done|]. split; [done|]. destruct extra.
    + destruct (sample_cons g o flip sh1 Hg Hsh1 Ha) as (e & l & -> & He). cbn [each_edge]. unfold extra_round.
      destruct (drop4_ok g o flip e Hg He) as (h' & -> & Hh'). cbn [res_bind].
      destruct (C68_ancestors_of_set h' o {[e.1; e.2]} Hh') as (Y & -> & _); [set_solver|]. cbn [res_bind].
      destruct (C67_induced_subgraph h' o flip (Y ∪ {[e.1; e.2]}) Hh') as (k & -> & _). done.
    + cbn [res_bind]. destruct (sample_cons g o flip sh Hg Hsh Ha) as (e & l & -> & He). cbn [first_edge].
      destruct (drop4_ok g o flip e Hg He) as (h' & -> & Hh'). done.
  - right. split; [done|]. split; [done|]. split; [done|]. rewrite (proj2 (sample_nil g o flip sh Hg Hsh) Ha), (proj2 (sample_nil g o flip sh1 Hg Hsh1) Ha). by destruct extra.
Qed.
(** Whatever the graphs, no edge is ever reported as removable. *)
Theorem C132_never_removable rest rest1 rest2 g h o p flip sh1 sh certify check extra e :
  is_minimal_imap3 rest g h o p flip sh certify check ≠ Ok (Tuple false (Some e)) ∧
  is_minimal_imap3 rest g h o p flip sh certify check ≠ Ok (Bare false) ∧
  is_minimal_imap4 rest1 rest2 g h o p flip sh1 sh certify check extra ≠ Ok (Tuple false (Some e)) ∧
  is_minimal_imap4 rest1 rest2 g h o p flip sh1 sh certify check extra ≠ Ok (Bare false).
Proof.
  assert (∀ (f : arc → res ag) (k : arc → ag → nset → res bool) l b, first_edge (λ e, res_bind (f e) (λ s, res_bind (ag_markov_blanket s e.2) (k e s))) l ≠ Ok (Some b)) as H.
  { intros f k [|x l] b; [done|]. cbn. by destruct (f x). }
  assert (∀ (f : arc → res ag) (k : arc → nset → res bool) l b, first_edge (λ e, res_bind (f e) (λ _, res_bind (ag_markov_blanket g e.2) (k e))) l ≠ Ok (Some b)) as H'.
  { intros f k [|x l] b; [done|]. cbn. by destruct (f x). }
  split_and!; unfold is_minimal_imap3, is_minimal_imap4.
  1,2: destruct (if check then _ else _) as [[]|]; cbn [res_bind]; [|done|done];
    pose proof (H' (drop_edge2 g o flip) rest (edge_sample g o flip sh)) as Hx; destruct (first_edge _ _) as [[b|]|]; [by destruct (Hx b)|by destruct certify|done].
  1,2: destruct (if check then _ else _) as [[]|]; cbn [res_bind]; [|done|done]; destruct (if extra then _ else _); cbn [res_bind]; [|done];
    pose proof (H (drop_edge4 g o flip) (λ e _ mb, rest2 e mb) (edge_sample g o flip sh)) as Hx; destruct (first_edge _ _) as [[b|]|]; [by destruct (Hx b)|by destruct certify|done].
Qed.
(** With undirected edges the answer can be wrong: 1 - 2 is reported to be a minimal I-map of the
    graph without edges. *)
Theorem C132_undirected_refuted :
  ∃ g h, ag_wf g ∧ ancestral (gmix g) ∧ ag_wf h ∧ maximal (g_nodes g) (gmix g) ∧ ¬ minimal_in (is_mag (g_nodes g)) (g_nodes g) (gmix g) (gmix h) ∧
    ∀ rest rest1 rest2, is_minimal_imap3 rest g h oracle0 popper0 (λ _, false) (λ l, l) false true = Ok (Bare true) ∧
      is_minimal_imap4 rest1 rest2 g h oracle0 popper0 (λ _, false) (λ l, l) (λ l, l) false true true = Ok (Bare true).
Proof.
  exists ue_ag, ee_ag. assert (ancestral (gmix ue_ag)) as Han by (apply ancestralb_spec; [by apply gok_ag_wf, ue_wf|by vm_compute]).
  assert (ancestral (gmix ee_ag)) as Han' by (apply ancestralb_spec; [by apply gok_ag_wf, ee_wf|by vm_compute]).
  split; [apply ue_wf|]. split; [done|]. split; [apply ee_wf|]. split; [apply is_maximal_maximal; [apply ue_wf|done|by vm_compute]|].
  split; [|intros rest rest1 rest2; split; vm_compute; reflexivity]. intros Hmin.
  assert (g_nodes ue_ag = g_nodes ee_ag) as EN by (by apply (bool_decide_unpack _); vm_compute).
  destruct (Hmin (gmix ee_ag)) as (_ & _ & Hn).
  - split; [done|]. rewrite EN. apply is_maximal_maximal; [apply ee_wf|done|by vm_compute].
  - assert (mx_dir (gmix ee_ag) = ∅ ∧ mx_bi (gmix ee_ag) = ∅ ∧ mx_un (gmix ee_ag) = ∅) as (E1 & E2 & E3) by (split_and!; by apply (bool_decide_unpack _); vm_compute).
    unfold sub_mixed, spouse, neighbor. rewrite E1, E2, E3. clear. set_solver.
  - intros A B C _ _ _ Hs. done.
  - assert (neighbor (gmix ue_ag) 1 2) as H by (left; by apply (bool_decide_unpack _); vm_compute). apply Hn in H.
    assert (¬ neighbor (gmix ee_ag) 1 2) as Hno by (by apply (bool_decide_unpack _); vm_compute). done.
Qed.

(** [resolved_quasisinks] returns the empty set if no node of the graph is childless in both graphs,
    and otherwise raises [AttributeError]. *)
Theorem C132_resolved_quasisinks equal g h o : ag_wf g → ag_wf h →
  let sink n := n ∈ g_nodes g ∧ (∀ c, (n, c) ∉ g_dir g) ∧ ∀ c, (n, c) ∉ g_dir h in
  ((∃ n, sink n) → resolved_quasisinks equal g h o = Raise TypeError) ∧
  ((∀ n, ¬ sink n) → resolved_quasisinks equal g h o = Ok ∅).
Proof.
  rewrite <-!gok_ag_wf. intros Hg Hh. cbn zeta. unfold resolved_quasisinks. cbn [quasisinks_loop].
  assert (∀ k n, gok k → g_children k n ∖ ∅ = ∅ ↔ ∀ c, (n, c) ∉ g_dir k) as Hc.
  { intros k n Hk. rewrite difference_empty_L. split.
    - intros E c H. apply (gok_chi k Hk) in H. rewrite E in H. set_solver.
    - intros H. apply set_eq. intros c. rewrite (gok_chi k Hk). split; [intros Hx; by destruct (H c)|set_solver]. }
  rewrite difference_empty_L. split.
  - intros (n & Hn & H1 & H2). assert (n ∈ on o [214] (g_nodes g)) as Hin by by apply elem_of_on. revert Hin. generalize (on o [214] (g_nodes g)). intros l Hin.
    assert (new_resolved equal g h ∅ l = Raise TypeError) as ->; [|done]. induction l as [|x l IH]; [by apply elem_of_nil in Hin|]. cbn [new_resolved].
    destruct (decide _) as [D|D]; [done|]. cbn [res_bind]. apply elem_of_cons in Hin as [<-|Hin]; [|by rewrite (IH Hin)].
    exfalso. apply D. by rewrite !Hc.
  - intros Hno. assert (∀ l, (∀ x, x ∈ l → x ∈ g_nodes g) → new_resolved equal g h ∅ l = Ok ∅) as H.
    { induction l as [|x l IH]; intros Hl; [done|]. cbn [new_resolved]. rewrite decide_False; [|rewrite !Hc by done; intros [H1 H2]; apply (Hno x); split; [apply Hl; left|done]].
      cbn [res_bind]. rewrite IH; [done|]. intros y Hy. apply Hl. by right. }
    rewrite H by (intros x Hx; by apply elem_of_on in Hx). cbn [res_bind]. rewrite decide_True by done. f_equal. set_solver.
Qed.

(** A triangle against a chain; 1 <-> 2 against no edges; two chains with and without a common sink. *)
Example C132_example :
  ag_wf tri_ag ∧ ancestral (gmix tri_ag) ∧ g_un tri_ag = ∅ ∧
  (∀ rest, is_minimal_imap3 rest tri_ag ch_ag oracle0 popper0 (λ _, false) (λ l, l) true true = Raise TypeError) ∧
  (∀ rest, is_minimal_imap3 rest emp_ag bi_ag oracle0 popper0 (λ _, false) (λ l, l) true true = Ok (Tuple false None)) ∧
  (∀ rest1 rest2, is_minimal_imap4 rest1 rest2 emp_ag bi_ag oracle0 popper0 (λ _, false) (λ l, l) (λ l, l) true true false = Raise RuntimeError) ∧
  (∀ rest1 rest2, is_minimal_imap4 rest1 rest2 bi_ag emp_ag oracle0 popper0 (λ _, false) (λ l, l) (λ l, l) true true true = Raise TypeError) ∧
  (∀ rest1 rest2, is_minimal_imap4 rest1 rest2 emp_ag emp_ag oracle0 popper0 (λ _, false) (λ l, l) (λ l, l) true true true = Ok (Tuple true None)) ∧
  (∀ equal, resolved_quasisinks equal tri_ag ch_ag oracle0 = Raise TypeError) ∧
  (∀ equal, resolved_quasisinks equal tri_ag (ag_new ∅ [(3, 2)] [] []).1 oracle0 = Ok ∅).
Proof.
  assert (ancestral (gmix tri_ag)) as Han by (apply ancestralb_spec; [by apply gok_ag_wf, tri_wf|by vm_compute]).
  split; [apply tri_wf|]. split; [done|]. split; [by apply (bool_decide_unpack _); vm_compute|].
  split_and!; intros; try (vm_compute; reflexivity).
  assert (match resolved_quasisinks equal tri_ag (ag_new ∅ [(3, 2)] [] []).1 oracle0 with Ok X => bool_decide (X = ∅) | _ => false end = true) as E by (vm_compute; reflexivity).
  destruct (resolved_quasisinks _ _ _ _) as [X|]; [|done]. apply bool_decide_eq_true in E. by rewrite E.
Qed.

Print Assumptions C132_is_minimal_imap3.
Print Assumptions C132_is_minimal_imap4.
Print Assumptions C132_never_removable.
Print Assumptions C132_undirected_refuted.
Print Assumptions C132_resolved_quasisinks.
