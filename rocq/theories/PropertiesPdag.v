(** Final theorems about the mutating methods of [PDAG] (C98), completing a graph
    after interventions (C99), and [vstructs], degrees, renaming and the
    constructor (C100). *)
From Verif Require Import Py Spec SpecMec SpecIntervene DagModel DsepModel UGraphModel PdagModel EnumModel PdagMutModel TopoProofs StateProofs ReachProofs
  OrderProofs QueryProofs UGraphProofs PdagProofs ProtProofs CpdagProofs EquivProofs MecProofs InterveneProofs ToDagProofs PdagMutProofs PdagIcpProofs
  PropertiesDag PropertiesDsep PropertiesMec PropertiesEnum.

(** [g'] has the nodes, the arcs and the edges described, and its views agree.
    [known_arcs] is kept. *)
Definition becomes (g g' : pdag) (N : node → Prop) (A E : node → node → Prop) : Prop :=
  pdag_wf g' ∧ (∀ n, n ∈ p_nodes g' ↔ N n) ∧ (∀ x y, (x, y) ∈ p_arcs g' ↔ A x y) ∧ (∀ x y, has_edge g' x y = true ↔ E x y) ∧
  p_known g' = p_known g.
Definition same_pair (x y i j : node) : Prop := (x = i ∧ y = j) ∨ (x = j ∧ y = i).

Lemma moved_becomes g g' A E (PA PE : node → node → Prop) : moved g g' A E → (∀ x y, (x, y) ∈ A ↔ PA x y) → (∀ x y, upair x y ∈ E ↔ PE x y) →
  becomes g g' (λ n, n ∈ p_nodes g) PA PE.
Proof.
  intros [M1 M2 M3 M4 M5] HA HE. split; [by apply pok_pdag_wf|]. split; [intros; by rewrite M2|]. split; [intros; rewrite M4; apply HA|].
  split; [|done]. intros. rewrite has_edge_true, M5. apply HE.
Qed.

(** The guards that a caller of the unchecked [_add_arc] and [_add_edge] has to
    respect: two different nodes, not joined in another way. *)
Fixpoint adds_fresh (l : list pcmd) (g : pdag) : Prop :=
  match l with
  | [] => True
  | c :: l => match c with
              | PAddArc i j => i ≠ j ∧ has_arc g j i = false ∧ has_edge g i j = false
              | PAddEdge i j => i ≠ j ∧ has_arc g i j = false ∧ has_arc g j i = false
              | _ => True
              end ∧ adds_fresh l (run_pcmd c g).1
  end.

(** ** C98 *)
Theorem C98_history (l : list pcmd) g : pdag_wf g → adds_fresh l g → pdag_wf (run_pcmds l g).
Proof.
  rewrite <-!pok_pdag_wf. unfold run_pcmds. revert g. induction l as [|c l IH]; intros g Hg Hl; [done|].
  destruct Hl as [Hc Hl]. cbn [foldl]. apply IH; [|done]. apply run_pcmd_pok; [done|]. by destruct c.
Qed.
Definition exp_graph : pdag := pdag_make oracle0 {[1; 2; 3; 4; 5]} {[(1, 2); (3, 2)]} {[(3, 4)]} ∅.
Lemma exp_wf : pdag_wf exp_graph.
Proof.
  apply pok_pdag_wf. unfold exp_graph. apply pdag_make_ok.
  - intros x y. rewrite !elem_of_union, !elem_of_singleton. intros [H1|H1] [H2|H2]; injection H1 as -> ->; discriminate.
  - intros x Hx%elem_of_singleton. injection Hx as H1 H2. congruence.
  - intros x y Hx%elem_of_singleton. injection Hx as -> ->. unfold adjacent. rewrite !elem_of_union, !elem_of_singleton. intros [[H|H]|[H|H]]; discriminate.
Qed.
Definition exp_cmds : list pcmd :=
  [PRemoveArc 2 1 false; PAddEdge 4 5; POrient (4, 5) false; PRemoveNode oracle0 3; PAddArc 6 1; PUnorient (1, 2); PRemoveEdge 7 8 true].
Example C98_ex : pdag_wf exp_graph ∧ adds_fresh exp_cmds exp_graph ∧
  (let g := run_pcmds exp_cmds exp_graph in
   bool_decide (p_nodes g = {[1; 2; 4; 5; 6]}) && bool_decide (p_arcs g = {[(4, 5); (6, 1)]}) && bool_decide (p_edges g = {[(1, 2)]})) = true.
Proof. split; [apply exp_wf|]. split; [|vm_compute; reflexivity]. cbn [adds_fresh exp_cmds]. split_and!; try exact I; try done; vm_compute; reflexivity. Qed.

Theorem C98_add_arc i j g : pdag_wf g → i ≠ j → has_arc g j i = false → has_edge g i j = false →
  becomes g (p_add_arc i j g) (λ n, n ∈ p_nodes g ∨ n = i ∨ n = j) (λ x y, (x, y) ∈ p_arcs g ∨ (x = i ∧ y = j)) (λ x y, has_edge g x y = true).
Proof.
  intros Hg Hne H1 H2. split; [apply (C98_history [PAddArc i j]); [done|]; by split|]. cbn [p_add_arc p_nodes p_arcs p_known].
  split_and!; [set_solver| |done|done]. intros x y. rewrite elem_of_union, elem_of_singleton. naive_solver.
Qed.
Theorem C98_add_edge i j g : pdag_wf g → i ≠ j → has_arc g i j = false → has_arc g j i = false →
  becomes g (p_add_edge i j g) (λ n, n ∈ p_nodes g ∨ n = i ∨ n = j) (λ x y, (x, y) ∈ p_arcs g) (λ x y, has_edge g x y = true ∨ same_pair x y i j).
Proof.
  intros Hg Hne H1 H2. split; [apply (C98_history [PAddEdge i j]); [done|]; by split|]. split_and!; [set_solver|done| |done].
  intros x y. rewrite !has_edge_true. cbn [p_add_edge p_edges]. rewrite elem_of_union, elem_of_singleton, upair_eq_or. unfold same_pair. tauto.
Qed.
(** Without the guards removing one connection of a doubly joined pair makes
    [neighbors] forget the other one. *)
Theorem C98_unguarded_refuted :
  ∃ g l, pdag_wf g ∧ l = [PAddArc 1 2; PAddEdge 1 2; PRemoveEdge 1 2 false] ∧
    let g' := run_pcmds l g in (1, 2) ∈ p_arcs g' ∧ 2 ∉ p_neighbors g' 1 ∧ ¬ pdag_wf g'.
Proof.
  exists (pdag_make oracle0 ∅ ∅ ∅ ∅), [PAddArc 1 2; PAddEdge 1 2; PRemoveEdge 1 2 false]. split.
  { apply pok_pdag_wf, pdag_make_ok; [intros x y H; by apply elem_of_empty in H|intros x H; by apply elem_of_empty in H|intros x y H; by apply elem_of_empty in H]. }
  split; [done|]. cbn zeta. remember (run_pcmds _ _) as g' eqn:Eg.
  assert ((1, 2) ∈ p_arcs g') as H1 by (subst g'; apply (bool_decide_eq_true _); vm_compute; reflexivity).
  assert (2 ∉ p_neighbors g' 1) as H2 by (subst g'; apply (bool_decide_eq_true _); vm_compute; reflexivity).
  split_and!; [done|done|]. intros [(_ & _ & _ & _ & _ & H & _) _]. apply H2, H. left. by left.
Qed.

Theorem C98_remove_edge i j ie g : pdag_wf g →
  if has_edge g i j
  then ∃ g', p_remove_edge i j ie g = (g', Ok tt) ∧
         becomes g g' (λ n, n ∈ p_nodes g) (λ x y, (x, y) ∈ p_arcs g) (λ x y, has_edge g x y = true ∧ ¬ same_pair x y i j)
  else p_remove_edge i j ie g = (g, if ie then Ok tt else Raise KeyError).
Proof.
  rewrite <-pok_pdag_wf. intros Hg. destruct (has_edge g i j) eqn:He.
  - apply has_edge_true in He. destruct (remove_edge_ok g i j ie Hg He) as (g' & Hr & Hm). exists g'. split; [done|].
    eapply moved_becomes; [exact Hm|done|]. intros x y. rewrite has_edge_true, elem_of_difference, elem_of_singleton, upair_eq_or. done.
  - apply remove_edge_none. intros H. apply has_edge_true in H. congruence.
Qed.
Theorem C98_remove_arc i j ie g : pdag_wf g →
  if has_arc g i j
  then ∃ g', p_remove_arc i j ie g = (g', Ok tt) ∧
         becomes g g' (λ n, n ∈ p_nodes g) (λ x y, (x, y) ∈ p_arcs g ∧ ¬ (x = i ∧ y = j)) (λ x y, has_edge g x y = true)
  else p_remove_arc i j ie g = (g, if ie then Ok tt else Raise KeyError).
Proof.
  rewrite <-pok_pdag_wf. intros Hg. unfold has_arc. case_bool_decide as He.
  - destruct (remove_arc_ok g i j ie Hg He) as (g' & Hr & Hm). exists g'. split; [done|].
    eapply moved_becomes; [exact Hm| |intros; by rewrite has_edge_true]. intros x y. rewrite elem_of_difference, elem_of_singleton. naive_solver.
  - by apply remove_arc_none.
Qed.
Theorem C98_orient i j ie g : pdag_wf g →
  if has_edge g i j
  then ∃ g', p_orient (i, j) ie g = (g', Ok tt) ∧
         becomes g g' (λ n, n ∈ p_nodes g) (λ x y, (x, y) ∈ p_arcs g ∨ (x = i ∧ y = j)) (λ x y, has_edge g x y = true ∧ ¬ same_pair x y i j)
  else p_orient (i, j) ie g = (g, if ie then Ok tt else Raise KeyError).
Proof.
  rewrite <-pok_pdag_wf. intros Hg. destruct (has_edge g i j) eqn:He.
  - apply has_edge_true in He. destruct (orient_ok g i j ie Hg He) as (g' & Hr & Hm). exists g'. split; [done|].
    eapply moved_becomes; [exact Hm| |].
    + intros x y. rewrite elem_of_union, elem_of_singleton. naive_solver.
    + intros x y. rewrite has_edge_true, elem_of_difference, elem_of_singleton, upair_eq_or. done.
  - apply orient_none. intros H. apply has_edge_true in H. congruence.
Qed.
Theorem C98_unorient i j g : pdag_wf g →
  if has_arc g i j
  then ∃ g', replace_arc_with_edge (i, j) g = (g', Ok tt) ∧
         becomes g g' (λ n, n ∈ p_nodes g) (λ x y, (x, y) ∈ p_arcs g ∧ ¬ (x = i ∧ y = j)) (λ x y, has_edge g x y = true ∨ same_pair x y i j)
  else replace_arc_with_edge (i, j) g = (g, Raise KeyError).
Proof.
  rewrite <-pok_pdag_wf. intros Hg. unfold has_arc. case_bool_decide as He.
  - destruct (replace_arc_with_edge_ok g i j Hg He) as (g' & Hr & H1 & H2 & H3 & H4 & H5). exists g'. split; [done|].
    eapply (moved_becomes g g' (p_arcs g ∖ {[(i, j)]}) ({[upair i j]} ∪ p_edges g)); [by constructor| |].
    + intros x y. rewrite elem_of_difference, elem_of_singleton. naive_solver.
    + intros x y. rewrite has_edge_true, elem_of_union, elem_of_singleton, upair_eq_or. unfold same_pair. tauto.
  - by apply unorient_none.
Qed.
Example C98_ex_single : has_edge exp_graph 4 3 = true ∧ has_arc exp_graph 1 2 = true ∧ has_edge exp_graph 1 2 = false ∧ has_arc exp_graph 2 1 = false.
Proof. split_and!; vm_compute; reflexivity. Qed.

(** The bulk methods stop at the first connection that is missing; the removals
    before it stay. *)
Theorem C98_remove_arcs_from (l : list arc) g : pdag_wf g →
  ∃ g' (l1 l2 : list arc), l = l1 ++ l2 ∧
    p_remove_arcs_from l g = (g', match l2 with [] => Ok tt | _ => Raise KeyError end) ∧
    becomes g g' (λ n, n ∈ p_nodes g) (λ x y, (x, y) ∈ p_arcs g ∧ (x, y) ∉ l1) (λ x y, has_edge g x y = true) ∧
    (∀ a, a ∈ l1 → a ∈ p_arcs g) ∧ match l2 with [] => True | a :: _ => a ∉ p_arcs g' end.
Proof.
  rewrite <-pok_pdag_wf. intros Hg. destruct (remove_arcs_from_ok l g Hg) as (g' & l1 & l2 & Hr & Hl & Hm & Hnd & Hin & Hhd).
  exists g', l1, l2. split; [done|]. split; [rewrite Hr; by destruct l2|]. split; [|split; [done|]].
  - eapply moved_becomes; [exact Hm| |intros; by rewrite has_edge_true]. intros x y. by rewrite elem_of_difference, elem_of_list_to_set.
  - destruct l2 as [|a l2]; [done|]. rewrite (mv_arcs _ _ _ _ Hm), elem_of_difference, elem_of_list_to_set. specialize (Hhd a eq_refl). tauto.
Qed.
Theorem C98_remove_edges_from (l : list arc) g : pdag_wf g →
  ∃ g' (l1 l2 : list arc), l = l1 ++ l2 ∧
    p_remove_edges_from l g = (g', match l2 with [] => Ok tt | _ => Raise KeyError end) ∧
    becomes g g' (λ n, n ∈ p_nodes g) (λ x y, (x, y) ∈ p_arcs g) (λ x y, has_edge g x y = true ∧ (x, y) ∉ l1 ∧ (y, x) ∉ l1) ∧
    (∀ x y, (x, y) ∈ l1 → has_edge g x y = true) ∧ match l2 with [] => True | (x, y) :: _ => has_edge g' x y = false end.
Proof.
  rewrite <-pok_pdag_wf. intros Hg. destruct (remove_edges_from_ok l g Hg) as (g' & l1 & l2 & Hr & Hl & Hm & Hin & Hhd).
  exists g', l1, l2. split; [done|]. split; [rewrite Hr; by destruct l2|]. split; [|split].
  - eapply moved_becomes; [exact Hm|done|]. intros x y. rewrite has_edge_true, elem_of_difference, elem_of_list_to_set, elem_of_list_fmap. split.
    + intros [H1 H2]. split; [done|]. split; intros H; apply H2; [by exists (x, y)|exists (y, x); cbn; by rewrite upair_comm].
    + intros (H1 & H2 & H3). split; [done|]. intros ([a b] & Hab & H). cbn in Hab. apply upair_eq_or in Hab as [[-> ->]|[-> ->]]; done.
  - intros x y H. apply has_edge_true. by apply (Hin (x, y)).
  - destruct l2 as [|[x y] l2]; [done|]. destruct (has_edge g' x y) eqn:He; [|done]. apply has_edge_true in He. by destruct (Hhd (x, y) eq_refl).
Qed.
Theorem C98_remove_all_arcs o g : pdag_wf g →
  ∃ g', p_remove_all_arcs o g = (g', Ok tt) ∧ becomes g g' (λ n, n ∈ p_nodes g) (λ _ _, False) (λ x y, has_edge g x y = true).
Proof.
  rewrite <-pok_pdag_wf. intros Hg. destruct (remove_all_arcs_ok o g Hg) as (g' & Hr & Hm). exists g'. split; [done|].
  eapply moved_becomes; [exact Hm|intros; by rewrite elem_of_empty|intros; by rewrite has_edge_true].
Qed.
Example C98_ex_bulk :
  (let r := p_remove_arcs_from [(1, 2); (3, 4); (3, 2)] exp_graph in
   bool_decide (r.2 = Raise KeyError) && bool_decide (p_arcs r.1 = {[(3, 2)]})) = true ∧
  (let r := p_remove_edges_from [(4, 3)] exp_graph in bool_decide (r.2 = Ok tt) && bool_decide (p_edges r.1 = ∅)) = true.
Proof. split; vm_compute; reflexivity. Qed.

(** Removing a node removes its connections.  A node that never had one is
    removed as well, but then the call can raise. *)
Theorem C98_remove_node o n g : pdag_wf g →
  if decide (n ∈ p_nodes g)
  then ∃ g' r, p_remove_node o n g = (g', r) ∧ (r = Ok tt ∨ r = Raise KeyError) ∧
         ((∃ x, adjacent (p_arcs g) n x ∨ has_edge g n x = true) → r = Ok tt) ∧
         becomes g g' (λ m, m ∈ p_nodes g ∧ m ≠ n) (λ x y, (x, y) ∈ p_arcs g ∧ x ≠ n ∧ y ≠ n) (λ x y, has_edge g x y = true ∧ x ≠ n ∧ y ≠ n)
  else p_remove_node o n g = (g, Raise KeyError).
Proof.
  intros Hwf. pose proof Hwf as Hg. apply pok_pdag_wf in Hg. case_decide as Hn; [|by apply p_remove_node_none].
  destruct (p_remove_node_spec o n g Hg Hn) as (g' & r & Hr & H1 & H2 & H3 & H4 & H5 & H6 & H7). exists g', r. split; [done|]. split; [done|]. split.
  - intros (x & Hx). apply H2. exists x. apply Hwf, Hx.
  - split; [by apply pok_pdag_wf|]. split_and!; [|by intros; rewrite H5, elem_of_without| |done].
    + intros m. by rewrite H4, elem_of_difference, elem_of_singleton.
    + intros x y. by rewrite !has_edge_true, H6, upair_without.
Qed.
(** [remove_nodes_from] stops at the first node that is missing, or after the first
    node whose removal raises because all its neighbours are gone already. *)
Theorem C98_remove_nodes_from o (l : list node) g : pdag_wf g →
  ∃ g' r (l1 l2 : list node), l = l1 ++ l2 ∧ p_remove_nodes_from o l g = (g', r) ∧ (∀ n, n ∈ l1 → n ∈ p_nodes g) ∧
    becomes g g' (λ m, m ∈ p_nodes g ∧ m ∉ l1) (λ x y, (x, y) ∈ p_arcs g ∧ x ∉ l1 ∧ y ∉ l1) (λ x y, has_edge g x y = true ∧ x ∉ l1 ∧ y ∉ l1) ∧
    ((r = Ok tt ∧ l2 = []) ∨
     (r = Raise KeyError ∧ ∃ n l', l2 = n :: l' ∧ n ∉ p_nodes g') ∨
     (r = Raise KeyError ∧ ∃ n, last l1 = Some n ∧ ∀ x, x ∈ p_neighbors g n → x ∈ l1)).
Proof.
  revert g. induction l as [|n l IH]; intros g Hg.
  { exists g, (Ok tt), [], []. split; [done|]. split; [done|]. split; [intros n H; by apply elem_of_nil in H|]. split; [|by auto].
    split; [done|]. assert (∀ x : node, x ∉ []) as Hx by (intros x H; by apply elem_of_nil in H). split_and!; naive_solver. }
  pose proof (C98_remove_node o n g Hg) as Hn. case_decide as Hin.
  2: { exists g, (Raise KeyError), [], (n :: l). split; [done|]. split; [unfold p_remove_nodes_from; cbn [mfor]; unfold mthen, mbind'; by rewrite Hn|].
       split; [intros m H; by apply elem_of_nil in H|]. split; [|right; left; split; [done|]; by exists n, l].
       split; [done|]. assert (∀ x : node, x ∉ []) as Hx by (intros x H; by apply elem_of_nil in H). split_and!; naive_solver. }
  destruct Hn as (g1 & r1 & Hr1 & Hr & Hok & (B1 & B2 & B3 & B4 & B5)). destruct Hr as [-> | ->].
  - destruct (IH g1 B1) as (g' & r & l1 & l2 & -> & Hr' & Hl1 & (D1 & D2 & D3 & D4 & D5) & Hc).
    exists g', r, (n :: l1), l2. split; [done|]. split; [unfold p_remove_nodes_from in *; cbn [mfor]; unfold mthen, mbind'; by rewrite Hr1|].
    split; [intros m [->|H]%elem_of_cons; [done|]; apply Hl1, B2 in H; by destruct H|]. split.
    + split; [done|]. setoid_rewrite not_elem_of_cons. split_and!; [|..|congruence].
      * intros m. rewrite D2, B2. tauto.
      * intros x y. rewrite D3, B3. tauto.
      * intros x y. rewrite D4, B4. tauto.
    + destruct Hc as [Hc|[Hc|(-> & m & Hm & Hx)]]; [by auto|by auto|]. right. right. split; [done|]. exists m. split; [by rewrite last_cons, Hm|].
      intros x Hxm. destruct (decide (x = n)) as [->|Hxn]; [left|right]. apply Hx.
      assert (m ∈ l1) as Hm1 by (apply last_Some in Hm as (l' & ->); apply elem_of_app; right; left).
      pose proof (Hl1 _ Hm1) as Hm2. apply B2 in Hm2 as [_ Hmn].
      destruct Hg as [(_ & _ & _ & _ & _ & Hnbr & _) _]. destruct B1 as [(_ & _ & _ & _ & _ & Hnbr1 & _) _].
      apply Hnbr1. apply Hnbr in Hxm. unfold adjacent in *. rewrite !B3, B4. tauto.
  - exists g1, (Raise KeyError), [n], l. split; [done|]. split; [unfold p_remove_nodes_from; cbn [mfor]; unfold mthen, mbind'; by rewrite Hr1|].
    split; [intros m ->%elem_of_list_singleton; done|]. split; [split; [done|]; setoid_rewrite elem_of_list_singleton; split_and!; done|].
    right. right. split; [done|]. exists n. split; [done|]. intros x Hx. exfalso.
    assert (Raise KeyError = Ok tt) as H; [|done]. apply Hok. exists x. by apply Hg.
Qed.
Corollary C98_remove_nodes_from_ok o (l : list node) g : pdag_wf g → NoDup l → (∀ n, n ∈ l → n ∈ p_nodes g ∧ ∃ x, x ∈ p_neighbors g n ∧ x ∉ l) →
  ∃ g', p_remove_nodes_from o l g = (g', Ok tt) ∧
    becomes g g' (λ m, m ∈ p_nodes g ∧ m ∉ l) (λ x y, (x, y) ∈ p_arcs g ∧ x ∉ l ∧ y ∉ l) (λ x y, has_edge g x y = true ∧ x ∉ l ∧ y ∉ l).
Proof.
  intros Hg Hnd Hl. destruct (C98_remove_nodes_from o l g Hg) as (g' & r & l1 & l2 & -> & Hr & Hin & Hb & Hc).
  destruct Hc as [[-> ->]|[(_ & n & l' & -> & Hn)|(_ & n & Hn & Hx)]].
  - exists g'. by rewrite app_nil_r in *.
  - exfalso. apply Hn. apply Hb. split; [apply Hl; rewrite elem_of_app; right; left|]. apply NoDup_app in Hnd as (_ & Hd & _). intros H. apply (Hd n H). left.
  - exfalso. assert (n ∈ l1) as Hn1 by (apply last_Some in Hn as (l' & ->); apply elem_of_app; right; left).
    destruct (Hl n) as (_ & x & H1 & H2); [by apply elem_of_app; left|]. apply H2, elem_of_app. left. by apply Hx.
Qed.
Example C98_ex_nodes : NoDup [1; 3] ∧
  (bool_decide (1 ∈ p_nodes exp_graph) && bool_decide (3 ∈ p_nodes exp_graph) && bool_decide (2 ∈ p_neighbors exp_graph 1) && bool_decide (2 ∈ p_neighbors exp_graph 3)) = true ∧
  (let g := (p_remove_nodes_from oracle0 [1; 3] exp_graph).1 in bool_decide (p_nodes g = {[2; 4; 5]}) && bool_decide (p_arcs g = ∅) && bool_decide (p_edges g = ∅)) = true.
Proof. split; [by apply (bool_decide_unpack _); vm_compute|]. split; vm_compute; reflexivity. Qed.
(** A node without connections: it is removed, and then [KeyError] is raised. *)
Theorem C98_remove_isolated_refuted :
  ∃ g n, pdag_wf g ∧ n ∈ p_nodes g ∧ ∀ o, (p_remove_node o n g).2 = Raise KeyError ∧ n ∉ p_nodes (p_remove_node o n g).1.
Proof.
  exists (pdag_make oracle0 {[1]} ∅ ∅ ∅), 1.
  assert (pok (pdag_make oracle0 {[1]} ∅ ∅ ∅)) as Hp.
  { apply pdag_make_ok; [intros x y H; by apply elem_of_empty in H|intros x H; by apply elem_of_empty in H|intros x y H; by apply elem_of_empty in H]. }
  assert (1 ∈ p_nodes (pdag_make oracle0 {[1]} ∅ ∅ ∅)) as H1 by (apply (bool_decide_eq_true _); vm_compute; reflexivity).
  split; [by apply pok_pdag_wf|]. split; [done|]. intros o. destruct (p_remove_node_isolated o 1 _ Hp H1) as (g' & -> & _ & HN & _); [vm_compute; reflexivity|].
  split; [done|]. cbn [fst]. rewrite HN. clear. set_solver.
Qed.

(** ** C99 *)
(** [g] is the essential graph of [d] for the interventions [Is]: its arcs are the
    ones on which all graphs agree that cannot be told apart from [d]. *)
Definition essential (d : dag) (Is : list nset) (g : pdag) : Prop :=
  pdag_wf g ∧ p_nodes g = d_nodes d ∧ (∀ i j, (i, j) ∈ p_arcs g ↔ determined Is (d_arcs d) i j) ∧
  (∀ i j, has_edge g i j = true ↔ adjacent (d_arcs d) i j ∧ ¬ determined Is (d_arcs d) i j ∧ ¬ determined Is (d_arcs d) j i).
Lemma essential_ess d Is g : acyclic (d_arcs d) → essential d Is g ↔ ess d Is g.
Proof.
  intros Hac. split.
  - intros (H1 & H2 & H3 & H4). constructor; [|done|done]. constructor; [by apply pok_pdag_wf|by intros [i j] H%H3; apply H|].
    intros x y. rewrite <-has_edge_true, H4. unfold adjacent. rewrite !elem_of_difference, !H3.
    assert (determined Is (d_arcs d) x y → (x, y) ∈ d_arcs d) by (by intros []). assert (determined Is (d_arcs d) y x → (y, x) ∈ d_arcs d) by (by intros []).
    pose proof (acyclic_asym (d_arcs d) x y Hac). pose proof (acyclic_asym (d_arcs d) y x Hac). tauto.
  - intros [H1 H2 H3]. split; [apply pok_pdag_wf, H1|]. split; [done|]. split; [done|]. intros x y.
    rewrite has_edge_true, (sh_edge _ _ H1). unfold adjacent. rewrite !elem_of_difference, !H3.
    assert (determined Is (d_arcs d) x y → (x, y) ∈ d_arcs d) by (by intros []). assert (determined Is (d_arcs d) y x → (y, x) ∈ d_arcs d) by (by intros []).
    pose proof (acyclic_asym (d_arcs d) x y Hac). pose proof (acyclic_asym (d_arcs d) y x Hac). tauto.
Qed.
(** What [cpdag] and [DAG.interventional_cpdag] return. *)
Theorem C99_cpdag d o c : views_agree d → acyclic (d_arcs d) → cpdag d o = Ok c → essential d [] c.
Proof.
  rewrite <-wf_views_agree. intros Hwf Hac Hc. destruct (icp_cpdag d Hwf Hac o) as (c' & Hc' & Hi). rewrite Hc in Hc'. injection Hc' as <-.
  by apply essential_ess, icp_ess.
Qed.
Theorem C99_dag_interventional_cpdag d o o' Is c : views_agree d → acyclic (d_arcs d) → cpdag d o = Ok c →
  ∃ g, interventional_cpdag d o' Is c = Ok g ∧ essential d Is g.
Proof.
  rewrite <-wf_views_agree. intros Hwf Hac Hc. destruct (icp_cpdag d Hwf Hac o) as (c' & Hc' & Hi). rewrite Hc in Hc'. injection Hc' as <-.
  destruct (icp_step d Hwf Hac o' [] Is c Hi) as (g & Hg & Hgi). rewrite app_nil_r in Hgi. exists g. split; [done|]. by apply essential_ess, icp_ess.
Qed.

(** [PDAG.interventional_cpdag] adds one single-node intervention per node. *)
Theorem C99_interventional_cpdag d o Is g (l : list node) : views_agree d → acyclic (d_arcs d) → essential d Is g →
  ∃ g', p_interventional_cpdag g o d l = Ok g' ∧ essential d (singles l ++ Is) g'.
Proof.
  rewrite <-wf_views_agree. intros Hwf Hac Hg. apply essential_ess in Hg; [|done].
  destruct (p_interventional_cpdag_ess d Hwf Hac o Is g l Hg) as (g' & H1 & H2). exists g'. split; [done|]. by apply essential_ess.
Qed.
(** In particular it agrees with the method of the same name of [DAG]. *)
Corollary C99_interventional_cpdag_dag d o o' o'' c (l : list node) : views_agree d → acyclic (d_arcs d) → cpdag d o = Ok c →
  ∃ g g', p_interventional_cpdag c o' d l = Ok g ∧ interventional_cpdag d o'' (singles l) c = Ok g' ∧ pdag_eqb g g' = true.
Proof.
  intros Hv Hac Hc. destruct (C99_dag_interventional_cpdag d o o'' (singles l) c Hv Hac Hc) as (g' & H1 & H2).
  destruct (C99_interventional_cpdag d o' [] c l Hv Hac (C99_cpdag d o c Hv Hac Hc)) as (g & H3 & H4). rewrite app_nil_r in H4.
  exists g, g'. split; [done|]. split; [done|]. apply (ess_eqb d (singles l)); by apply essential_ess.
Qed.
(** It is not the intervention on the whole set of nodes. *)
Theorem C99_joint_refuted :
  ∃ d c, views_agree d ∧ acyclic (d_arcs d) ∧ cpdag d oracle0 = Ok c ∧
    match p_interventional_cpdag c oracle0 d [1; 2], interventional_cpdag d oracle0 [{[1; 2]}] c with
    | Ok g, Ok g' => pdag_eqb g g' | _, _ => true end = false.
Proof.
  destruct (icp_cpdag (dag_of ∅ {[(1, 2)]}) (dag_of_wf _ _) ltac:(by_vm) oracle0) as (c & Hc & _).
  exists (dag_of ∅ {[(1, 2)]}), c. split; [apply wf_views_agree, dag_of_wf|]. split; [by_vm|]. split; [done|].
  assert (match cpdag (dag_of ∅ {[(1, 2)]}) oracle0 with Ok c => match p_interventional_cpdag c oracle0 (dag_of ∅ {[(1, 2)]}) [1; 2], interventional_cpdag (dag_of ∅ {[(1, 2)]}) oracle0 [{[1; 2]}] c with
    | Ok g, Ok g' => pdag_eqb g g' | _, _ => true end | Raise _ => true end = false) as H by (vm_compute; reflexivity).
  by rewrite Hc in H.
Qed.

(** [assign_parents] with the neighbours that are parents: the same as intervening
    on the node. *)
Theorem C99_assign_parents d o Is g n (P : nset) : views_agree d → acyclic (d_arcs d) → essential d Is g →
  (∀ p, p ∈ P ↔ has_edge g p n = true ∧ (p, n) ∈ d_arcs d) →
  ∃ g', assign_parents o n P g = (g', Ok tt) ∧ essential d ({[n]} :: Is) g' ∧ p_known g' = p_known g.
Proof.
  rewrite <-wf_views_agree. intros Hwf Hac Hg HP. apply essential_ess in Hg; [|done]. pose proof (sh_ok _ _ (es_shows _ _ _ Hg)) as Hok.
  destruct (assign_parents_ess d Hwf Hac o Is g n P Hg) as (g' & H1 & H2 & H3).
  - intros p. rewrite HP, has_edge_true, (pok_unb g Hok), (upair_comm p n). split; [|tauto]. intros [H H']. split; [|done]. split; [by eapply upair_edge_ne|done].
  - exists g'. split; [done|]. split; [by apply essential_ess|done].
Qed.
(** Any other node among the parents is an error. *)
Theorem C99_assign_parents_error o g n (P : nset) p : pdag_wf g → p ∈ P → has_edge g p n = false →
  ∃ g', assign_parents o n P g = (g', Raise KeyError) ∧ pdag_wf g'.
Proof.
  rewrite <-pok_pdag_wf. intros Hg Hp Hn. destruct (assign_parents_error o g n P p Hg Hp) as (g' & H1 & H2).
  - rewrite (pok_unb g Hg), upair_comm. intros [_ H]. apply has_edge_true in H. congruence.
  - exists g'. split; [done|]. by apply pok_pdag_wf.
Qed.
(** So the parents of the graph itself need not be accepted. *)
Theorem C99_true_parents_refuted :
  ∃ d c n, views_agree d ∧ acyclic (d_arcs d) ∧ cpdag d oracle0 = Ok c ∧ (assign_parents oracle0 n (parents d n) c).2 = Raise KeyError.
Proof.
  set (d := dag_of ∅ {[(1, 3); (2, 3)]}). destruct (icp_cpdag d (dag_of_wf _ _) ltac:(by_vm) oracle0) as (c & Hc & _).
  exists d, c, 3. split; [apply wf_views_agree, dag_of_wf|]. split; [by_vm|]. split; [done|].
  assert (match cpdag d oracle0 with Ok c => bool_decide ((assign_parents oracle0 3 (parents d 3) c).2 = Raise KeyError) | Raise _ => false end = true) as H by (vm_compute; reflexivity).
  rewrite Hc in H. by apply bool_decide_eq_true in H.
Qed.
(** A path 1 - 2 - 3 - 4 of which the orientation is found by assigning the parent 2 to 3. *)
Example C99_ex : let d := dag_of ∅ {[(1, 2); (2, 3); (3, 4)]} in views_agree d ∧ acyclic (d_arcs d) ∧
  match cpdag d oracle0 with
  | Ok c => bool_decide (p_arcs c = ∅) && bool_decide (p_edges c = {[(1, 2); (2, 3); (3, 4)]}) &&
      match assign_parents oracle0 3 {[2]} c with
      | (g, Ok _) => bool_decide (p_arcs g = {[(2, 3); (3, 4)]}) && bool_decide (p_edges g = {[(1, 2)]}) | _ => false end &&
      match p_interventional_cpdag c oracle0 d [3] with
      | Ok g => bool_decide (p_arcs g = {[(2, 3); (3, 4)]}) && bool_decide (p_edges g = {[(1, 2)]}) | _ => false end
  | Raise _ => false
  end = true.
Proof. cbn zeta. split; [apply wf_views_agree, dag_of_wf|]. split; [by_vm|vm_compute; reflexivity]. Qed.

(** ** C100 *)
Theorem C100_vstructs g o p n : pdag_wf g →
  (p, n) ∈ p_vstructs g o ↔ ∃ q, vstruct (p_arcs g) p n q.
Proof.
  intros Hwf. pose proof Hwf as Hg. apply pok_pdag_wf in Hg. rewrite p_vstructs_spec, (pok_par g Hg). unfold vstruct, adjacent.
  setoid_rewrite (pok_par g Hg). split.
  - intros (Hn & Hp & q & H1 & H2 & H3 & H4). exists q. split_and!; [done|done|by intros ->|tauto].
  - intros (q & H1 & H2 & H3 & H4). split; [by destruct (proj1 (pok_over g Hg) _ _ H1)|]. split; [done|]. exists q. split_and!; [done|by intros ->|tauto|tauto].
Qed.
(** Undirected edges are not looked at: in an essential graph all arcs of
    v-structures are returned, but not only those. *)
Theorem C100_vstructs_essential d Is g o p n q : views_agree d → acyclic (d_arcs d) → essential d Is g →
  vstruct (d_arcs d) p n q → (p, n) ∈ p_vstructs g o.
Proof.
  intros Hv Hac (H1 & H2 & H3 & H4) Hp. apply C100_vstructs; [done|].
  assert (∀ p n q, vstruct (d_arcs d) p n q → (p, n) ∈ p_arcs g) as Hvs.
  { intros x z y Hxy. apply H3. split; [by destruct Hxy|]. intros E' _ [[_ Hv'] _]. by destruct (proj1 (Hv' x z y) Hxy). }
  pose proof Hp as (P1 & P2 & P3 & P4). exists q. split_and!.
  - by apply (Hvs p n q).
  - apply (Hvs q n p). split_and!; [done|done|by intros ->|by rewrite adjacent_sym].
  - done.
  - intros [H|H]; apply P4; [left|right]; apply H3 in H; by destruct H.
Qed.
Theorem C100_vstructs_cpdag_refuted :
  ∃ d c, views_agree d ∧ acyclic (d_arcs d) ∧ cpdag d oracle0 = Ok c ∧ (3, 5) ∈ p_vstructs c oracle0 ∧ (3, 5) ∉ arcs_in_vstructures d ∧
    ¬ ∃ q, vstruct (d_arcs d) 3 5 q.
Proof.
  set (d := dag_of ∅ {[(1, 3); (2, 3); (1, 4); (2, 4); (3, 4); (3, 5); (4, 5)]}).
  destruct (icp_cpdag d (dag_of_wf _ _) ltac:(by_vm) oracle0) as (c & Hc & _). exists d, c.
  assert (views_agree d) as Hv by apply wf_views_agree, dag_of_wf. assert (acyclic (d_arcs d)) as Hac by by_vm.
  split; [done|]. split; [done|]. split; [done|].
  assert (match cpdag d oracle0 with Ok c => bool_decide ((3, 5) ∈ p_vstructs c oracle0) | Raise _ => false end = true) as H by (vm_compute; reflexivity).
  rewrite Hc in H. apply bool_decide_eq_true in H. split; [done|].
  assert ((3, 5) ∉ arcs_in_vstructures d) as Hn by (apply (bool_decide_eq_true _); vm_compute; reflexivity). split; [done|].
  intros (q & Hq). apply Hn. apply arcs_in_vstructures_spec; [by apply wf_views_agree|]. by exists q.
Qed.
Example C100_ex_vstructs : (let g := exp_graph in bool_decide (p_vstructs g oracle0 = {[(1, 2); (3, 2)]})) = true.
Proof. vm_compute. reflexivity. Qed.

Lemma size_set_map_inj (f : arc → node) (X : arcset) : (∀ a b, a ∈ X → b ∈ X → f a = f b → a = b) → size (set_map f X : nset) = size X.
Proof.
  intros H. unfold set_map. rewrite size_list_to_set, fmap_length; [done|]. apply NoDup_fmap_2_strong; [|apply NoDup_elements].
  intros a b. rewrite !elem_of_elements. apply H.
Qed.
Theorem C100_degrees g n : pdag_wf g →
  p_total_degree g n = p_indegree g n + p_outdegree g n + p_undirected_degree g n ∧
  p_indegree g n = size (filter (λ a : arc, a.2 = n) (p_arcs g)) ∧
  p_outdegree g n = size (filter (λ a : arc, a.1 = n) (p_arcs g)) ∧
  p_undirected_degree g n = size (filter (λ e : arc, e.1 = n ∨ e.2 = n) (p_edges g)).
Proof.
  rewrite <-pok_pdag_wf. intros Hg. split; [by apply p_degree_sum|]. unfold p_indegree, p_outdegree, p_undirected_degree. split_and!.
  - assert (p_parents g n = set_map fst (filter (λ a : arc, a.2 = n) (p_arcs g))) as ->.
    { apply set_eq. intros x. rewrite (pok_par g Hg), elem_of_map. setoid_rewrite elem_of_filter. split.
      - intros H. by exists (x, n).
      - intros ([a b] & -> & Hb & H). cbn in *. by subst b. }
    apply size_set_map_inj. intros [a b] [a' b'] [Ha _]%elem_of_filter [Hb _]%elem_of_filter. cbn in *. congruence.
  - assert (p_children g n = set_map snd (filter (λ a : arc, a.1 = n) (p_arcs g))) as ->.
    { apply set_eq. intros x. rewrite (pok_chi g Hg), elem_of_map. setoid_rewrite elem_of_filter. split.
      - intros H. by exists (n, x).
      - intros ([a b] & -> & Hb & H). cbn in *. by subst a. }
    apply size_set_map_inj. intros [a b] [a' b'] [Ha _]%elem_of_filter [Hb _]%elem_of_filter. cbn in *. congruence.
  - assert (p_unbrs g n = set_map (λ e : arc, if decide (e.1 = n) then e.2 else e.1) (filter (λ e : arc, e.1 = n ∨ e.2 = n) (p_edges g))) as ->.
    { apply set_eq. intros x. rewrite (pok_unb g Hg), elem_of_map. setoid_rewrite elem_of_filter. split.
      - intros [Hne H]. exists (upair n x). split; [|split; [|done]]; unfold upair; cbn; destruct (Nat.min_spec n x) as [[? ->]|[? ->]], (Nat.max_spec n x) as [[? ->]|[? ->]]; repeat case_decide; lia.
      - intros ([a b] & -> & Hab & H). pose proof (pok_edge g Hg _ H) as Hlt. cbn in *.
        assert (upair a b = (a, b)) as Hu by (unfold upair; by rewrite Nat.min_l, Nat.max_r by lia).
        destruct Hab as [->| ->]; case_decide; [|lia|lia|]; [|rewrite upair_comm]; rewrite Hu; split; try done; lia. }
    apply size_set_map_inj. intros [a b] [a' b'] [Ha Ha']%elem_of_filter [Hb Hb']%elem_of_filter. cbn in *.
    apply (pok_edge g Hg) in Ha', Hb'. cbn in *. repeat case_decide; subst; intros; f_equal; lia.
Qed.
Example C100_ex_degrees : p_total_degree exp_graph 3 = 2 ∧ p_indegree exp_graph 2 = 2 ∧ p_undirected_degree exp_graph 4 = 1.
Proof. split_and!; vm_compute; reflexivity. Qed.

(** Renaming with an injective map that covers the nodes gives an isomorphic graph. *)
Theorem C100_rename g o (nm : gmap nat nat) (f : node → node) : pdag_wf g →
  (∀ n, n ∈ p_nodes g → nm !! n = Some (f n)) → (∀ x y, x ∈ p_nodes g → y ∈ p_nodes g → f x = f y → x = y) →
  ∃ g', p_rename_nodes g o nm = Ok g' ∧ pdag_wf g' ∧ (∀ m, m ∈ p_nodes g' ↔ ∃ n, n ∈ p_nodes g ∧ m = f n) ∧
    (∀ x y, x ∈ p_nodes g → y ∈ p_nodes g → has_arc g' (f x) (f y) = has_arc g x y ∧ has_edge g' (f x) (f y) = has_edge g x y).
Proof.
  rewrite <-pok_pdag_wf. intros Hg Hf Hi. destruct (p_rename_ok g o nm f Hg Hf Hi) as (g' & H1 & H2 & H3 & H4 & H5).
  exists g'. split; [done|]. split; [by apply pok_pdag_wf|]. split; [done|]. intros x y Hx Hy. destruct (H5 x y Hx Hy) as [HA HE].
  unfold has_arc, has_edge. split; by apply bool_decide_ext.
Qed.
Theorem C100_rename_missing g o (nm : gmap nat nat) n : n ∈ p_nodes g → nm !! n = None → p_rename_nodes g o nm = Raise KeyError.
Proof. intros Hn Hnm. unfold p_rename_nodes. rewrite decide_False; [done|]. intros [H _]. specialize (H n Hn). cbn in H. rewrite Hnm in H. by destruct H. Qed.
(** Two nodes with one new name. *)
Theorem C100_rename_merge_refuted : ∃ g nm, pdag_wf g ∧ (∀ n, n ∈ p_nodes g → is_Some (nm !! n)) ∧
  match p_rename_nodes g oracle0 nm with Ok g' => bool_decide ((1, 1) ∈ p_arcs g') | Raise _ => false end = true.
Proof.
  exists (pdag_make oracle0 ∅ {[(1, 2)]} ∅ ∅), {[1 := 1; 2 := 1]}. split.
  { apply pok_pdag_wf, pdag_make_ok; [|intros x H; by apply elem_of_empty in H|intros x y H; by apply elem_of_empty in H].
    intros x y. rewrite !elem_of_singleton. intros H1 H2. injection H1 as -> ->. discriminate. }
  split; [|vm_compute; reflexivity]. assert (p_nodes (pdag_make oracle0 ∅ {[(1, 2)]} ∅ ∅) = {[1; 2]}) as -> by (apply (bool_decide_eq_true _); vm_compute; reflexivity).
  intros n [->%elem_of_singleton| ->%elem_of_singleton]%elem_of_union; by eexists.
Qed.
Example C100_ex_rename : match p_rename_nodes exp_graph oracle0 {[1 := 11; 2 := 12; 3 := 13; 4 := 1; 5 := 2]} with
  | Ok g => bool_decide (p_arcs g = {[(11, 12); (13, 12)]}) && bool_decide (p_edges g = {[(1, 13)]}) | Raise _ => false end = true.
Proof. vm_compute. reflexivity. Qed.

(** [PDAG(..., new=True)] builds the same object. *)
Theorem C100_constructor_new o N A E K : pdag_make_new o N A E K = pdag_make o N A E K.
Proof. apply pdag_make_new_eq. Qed.

Print Assumptions C98_history.
Print Assumptions C98_add_arc.
Print Assumptions C98_add_edge.
Print Assumptions C98_unguarded_refuted.
Print Assumptions C98_remove_edge.
Print Assumptions C98_remove_arc.
Print Assumptions C98_orient.
Print Assumptions C98_unorient.
Print Assumptions C98_remove_arcs_from.
Print Assumptions C98_remove_edges_from.
Print Assumptions C98_remove_all_arcs.
Print Assumptions C98_remove_node.
Print Assumptions C98_remove_nodes_from.
Print Assumptions C98_remove_nodes_from_ok.
Print Assumptions C98_remove_isolated_refuted.
Print Assumptions C99_cpdag.
Print Assumptions C99_dag_interventional_cpdag.
Print Assumptions C99_interventional_cpdag.
Print Assumptions C99_interventional_cpdag_dag.
Print Assumptions C99_joint_refuted.
Print Assumptions C99_assign_parents.
Print Assumptions C99_assign_parents_error.
Print Assumptions C99_true_parents_refuted.
Print Assumptions C100_vstructs.
Print Assumptions C100_vstructs_essential.
Print Assumptions C100_vstructs_cpdag_refuted.
Print Assumptions C100_degrees.
Print Assumptions C100_rename.
Print Assumptions C100_rename_missing.
Print Assumptions C100_rename_merge_refuted.
Print Assumptions C100_constructor_new.
