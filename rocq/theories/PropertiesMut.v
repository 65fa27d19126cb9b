(** Final theorems about what the mutators of DAGs and undirected graphs change: C134 and C135. *)
From Verif Require Import Py Spec DagModel UGraphModel TopoProofs StateProofs ReachProofs CoreProofs UGraphProofs PropertiesDag.

(** ** C134: the mutators of [DAG] *)

Lemma acyclic_added (E : arcset) i j : acyclic E → i ≠ j → acyclic ({[(i, j)]} ∪ E) ↔ ¬ tc (edge E) j i.
Proof.
  intros Hac Hij. split.
  - intros H Hji. apply (H i). eapply tc_l; [by apply elem_of_union; left; apply elem_of_singleton|].
    revert Hji. apply tc_mono. apply union_subseteq_r.
  - intros Hn x Hx. apply tc_add_arc in Hx as [Hx|[H1 H2]]; [by apply (Hac x)|].
    assert (rtc (edge E) j i) as H3 by by etrans. apply rtc_tc in H3 as [->|H3]; done.
Qed.

(** Adding nodes. *)
Theorem C134_add_nodes_from (l : list node) (d : dag) : views_agree d →
  ∃ d', add_nodes_from l d = (d', Ok tt) ∧ d_nodes d' = d_nodes d ∪ list_to_set l ∧ d_arcs d' = d_arcs d ∧ views_agree d'.
Proof.
  intros Hv. destruct (add_nodes_spec l d) as (H1 & H2 & H3 & H4 & H5 & H6). destruct (add_nodes_from l d) as [d' r]. cbn in *. subst r.
  exists d'. split; [done|]. split; [done|]. split; [done|]. destruct Hv as (Hp & Hc & Hn & Ho). unfold views_agree, parents, children, nbrs in *.
  rewrite H2, H3, H4, H5, H6. split; [done|]. split; [done|]. split; [done|]. intros i j H. destruct (Ho i j H). set_solver.
Qed.

(** Adding an arc to an acyclic graph: with the check it is added exactly if no path leads back; without it always. *)
Theorem C134_add_arc o i j chk (d : dag) : views_agree d → acyclic (d_arcs d) → i ≠ j → (j, i) ∉ d_arcs d →
  (chk = true → ¬ tc (edge (d_arcs d)) j i) ↔
  ∃ d', add_arc o i j chk d = (d', Ok tt) ∧ d_nodes d' = d_nodes d ∪ {[i; j]} ∧ d_arcs d' = {[(i, j)]} ∪ d_arcs d ∧ views_agree d'.
Proof.
  intros Hv Hac Hij Hji. apply wf_views_agree in Hv. destruct (add_arc_spec o i j chk d Hv (acyclic_oriented _ Hac) Hij Hji) as (Hwf' & _ & HN & H).
  pose proof (acyclic_added (d_arcs d) i j Hac Hij) as Heq. destruct (add_arc o i j chk d) as [d' r]. cbn in *. split.
  - intros Hp. destruct H as [(-> & Ha & _)|(w & -> & _ & _ & Hna & _)]; [|exfalso; apply Hna, Heq; by apply Hp].
    exists d'. split; [done|]. split; [done|]. split; [done|]. by apply wf_views_agree.
  - intros (d'' & [= <- ->] & _) ->. destruct H as [(_ & _ & H)|(w & _ & [=] & _)]. apply Heq. by apply H.
Qed.

(** Adding several arcs, none of which is the reverse of another or of a present one. *)
Theorem C134_add_arcs_from o arcs chk (d : dag) : views_agree d → acyclic (d_arcs d) → (∀ x y, (x, y) ∈ arcs ∪ d_arcs d → (y, x) ∉ arcs ∪ d_arcs d) →
  (chk = true → acyclic (arcs ∪ d_arcs d)) ↔
  ∃ d', add_arcs_from o arcs chk d = (d', Ok tt) ∧ d_nodes d' = d_nodes d ∪ set_map fst arcs ∪ set_map snd arcs ∧ d_arcs d' = arcs ∪ d_arcs d ∧ views_agree d'.
Proof.
  intros Hv Hac Hor. apply wf_views_agree in Hv. destruct (add_arcs_from_spec o arcs chk d Hv Hor) as (Hwf' & _ & HN & H).
  destruct (add_arcs_from o arcs chk d) as [d' r]. cbn in *. split.
  - intros Hp. destruct H as [(-> & Ha & _)|(w & -> & _ & _ & Hna & _)]; [|exfalso; apply Hna; by apply Hp].
    exists d'. split; [done|]. split; [done|]. split; [done|]. by apply wf_views_agree.
  - intros (d'' & [= <- ->] & _) ->. destruct H as [(_ & _ & H)|(w & _ & [=] & _)].
    destruct (decide (arcs = ∅)) as [->|Hne]; [by rewrite (left_id_L ∅ (∪))|by apply H].
Qed.

(** Removing an arc; if it is not there nothing changes. *)
Theorem C134_remove_arc i j ign (d : dag) : views_agree d → acyclic (d_arcs d) →
  ∃ d', remove_arc i j ign d = (d', if decide ((i, j) ∈ d_arcs d) then Ok tt else if ign then Ok tt else Raise KeyError) ∧
    d_nodes d' = d_nodes d ∧ d_arcs d' = d_arcs d ∖ {[(i, j)]} ∧ views_agree d'.
Proof.
  intros Hv Hac. apply wf_views_agree in Hv. destruct (remove_arc_spec i j ign d Hv (acyclic_oriented _ Hac)) as (Hwf' & _ & HN & Ha & Hr).
  destruct (remove_arc i j ign d) as [d' r]. cbn in *. exists d'. rewrite Hr. split; [done|]. split; [done|]. split; [done|]. by apply wf_views_agree.
Qed.
(** Removing several arcs: the loop stops at the first that is not there, and the ones before it stay removed. *)
Theorem C134_remove_arcs_from (l : list arc) ign (d : dag) : views_agree d → acyclic (d_arcs d) →
  ∃ d' l1, d_nodes d' = d_nodes d ∧ d_arcs d' = d_arcs d ∖ list_to_set l1 ∧ views_agree d' ∧
    ((remove_arcs_from l ign d = (d', Ok tt) ∧ l1 = l ∧ (ign = false → NoDup l ∧ list_to_set l ⊆ d_arcs d)) ∨
     (remove_arcs_from l ign d = (d', Raise KeyError) ∧ ign = false ∧ ∃ a l2, l = l1 ++ a :: l2 ∧ (a ∈ l1 ∨ a ∉ d_arcs d))).
Proof.
  unfold remove_arcs_from. revert d. induction l as [|[i j] l IH]; intros d Hv Hac.
  { exists d, []. split; [done|]. split; [by rewrite list_to_set_nil, difference_empty_L|]. split; [done|]. left. split; [done|]. split; [done|].
    intros _. split; [by constructor|]. rewrite list_to_set_nil. apply empty_subseteq. }
  cbn [mfor fst snd]. destruct (C134_remove_arc i j ign d Hv Hac) as (d1 & E1 & HN1 & Ha1 & Hv1).
  assert (acyclic (d_arcs d1)) as Hac1. { apply (acyclic_mono _ (d_arcs d)); [|done]. rewrite Ha1. clear. set_solver. }
  destruct (IH d1 Hv1 Hac1) as (d' & l1 & HN & Ha & Hv' & H). unfold mthen, mbind' in *. rewrite E1.
  destruct (decide ((i, j) ∈ d_arcs d)) as [Hin|Hin].
  - exists d', ((i, j) :: l1). split; [congruence|]. split; [rewrite Ha, Ha1, list_to_set_cons; clear; set_solver|]. split; [done|].
    destruct H as [(E & -> & Hs)|(E & -> & a & l2 & -> & Hm)]; [left|right].
    + split; [done|]. split; [done|]. intros Hi. destruct (Hs Hi) as [Hnd Hsub]. rewrite Ha1 in Hsub. rewrite list_to_set_cons. split.
      * constructor; [|done]. intros Hx. assert ((i, j) ∈ (list_to_set l : arcset)) as Hx' by (by apply elem_of_list_to_set). apply Hsub in Hx'. clear -Hx'. set_solver.
      * clear -Hsub Hin. set_solver.
    + split; [done|]. split; [done|]. exists a, l2. split; [done|]. rewrite Ha1 in Hm. destruct Hm as [Hm|Hm]; [left; by right|].
      destruct (decide (a = (i, j))) as [->|Hne]; [left; by left|right]. clear -Hm Hne. set_solver.
  - destruct ign.
    + destruct H as [(E & -> & Hs)|(E & [=] & _)]. exists d', ((i, j) :: l). split; [congruence|]. split; [rewrite Ha, Ha1, list_to_set_cons; clear; set_solver|].
      split; [done|]. left. split; [done|]. split; [done|]. done.
    + exists d1, []. split; [done|]. split; [rewrite list_to_set_nil, difference_empty_L, Ha1; clear -Hin; set_solver|]. split; [done|]. right.
      split; [done|]. split; [done|]. exists (i, j), l. split; [done|]. by right.
Qed.

(** Reversing an arc.  If the reversed arc closes a cycle and this is checked, both arcs are missing afterwards: the removal is not undone.
    With [ignore_error] an arc that is not there is nevertheless added in the other direction. *)
Theorem C134_reverse_arc o i j ign chk (d : dag) : views_agree d → acyclic (d_arcs d) → i ≠ j →
  let E' := {[(j, i)]} ∪ (d_arcs d ∖ {[(i, j)]}) in
  ∃ d' r, reverse_arc o i j ign chk d = (d', r) ∧ views_agree d' ∧
    (if decide ((i, j) ∉ d_arcs d ∧ ign = false) then r = Raise KeyError ∧ d' = d else
     d_nodes d' = d_nodes d ∪ {[i; j]} ∧
     ((r = Ok tt ∧ (chk = true → acyclic E') ∧ d_arcs d' = E') ∨
      ((∃ w, r = Raise (CycleError w)) ∧ chk = true ∧ ¬ acyclic E' ∧ d_arcs d' = d_arcs d ∖ {[(i, j); (j, i)]}))).
Proof.
  intros Hv Hac Hij E'. apply wf_views_agree in Hv. destruct (reverse_arc_spec o i j ign chk d Hv (acyclic_oriented _ Hac) Hij) as (Hwf' & _ & H).
  destruct (reverse_arc o i j ign chk d) as [d' r] eqn:Er. cbn in *. exists d', r. split; [done|]. split; [by apply wf_views_agree|].
  destruct (decide ((i, j) ∉ d_arcs d ∧ ign = false)) as [[Hin ->]|Hd].
  - unfold reverse_arc, mthen, mbind' in Er. rewrite (remove_arc_absent i j false d Hin) in Er. by injection Er as <- <-.
  - destruct H as [(_ & -> & Hin & _)|[(-> & HN & Ha & H)|(w & -> & -> & _ & Hna & HN & Ha)]]; [by destruct Hd| |].
    + split; [done|]. by left.
    + split; [done|]. right. split; [by exists w|]. done.
Qed.
Theorem C134_reverse_arc_lost_refuted : ∃ o i j d d' w, views_agree d ∧ acyclic (d_arcs d) ∧ (i, j) ∈ d_arcs d ∧
  reverse_arc o i j false true d = (d', Raise (CycleError w)) ∧ d_arcs d' ≠ d_arcs d.
Proof.
  set (d := dag_of ∅ {[(1, 2); (2, 3); (1, 3)]}).
  assert (∀ p : dag * res unit, match p with (d', Raise (CycleError _)) => bool_decide (d_arcs d' = {[(1, 2); (2, 3)]}) | _ => false end = true →
    ∃ d' w, p = (d', Raise (CycleError w)) ∧ d_arcs d' = {[(1, 2); (2, 3)]}) as Hg.
  { intros [d' [|[]]] H; try discriminate. apply bool_decide_eq_true in H. by eexists _, _. }
  destruct (Hg (reverse_arc oracle0 1 3 false true d)) as (d' & w & E & H); [vm_compute; reflexivity|]. clear Hg.
  exists oracle0, 1, 3, d, d', w. split; [apply wf_views_agree, dag_of_wf|]. split; [apply acyclicb_spec; by vm_compute|]. split; [by_vm|]. split; [exact E|].
  intros H'. rewrite H in H'. apply (f_equal (λ S : arcset, bool_decide ((1, 3) ∈ S))) in H'. vm_compute in H'. done.
Qed.

(** Removing a node removes its arcs. *)
Theorem C134_remove_node o n ign (d : dag) : views_agree d → acyclic (d_arcs d) →
  ∃ d', remove_node o n ign d = (d', if decide (n ∈ d_nodes d) then Ok tt else if ign then Ok tt else Raise KeyError) ∧
    d_nodes d' = d_nodes d ∖ {[n]} ∧ (∀ x y, (x, y) ∈ d_arcs d' ↔ (x, y) ∈ d_arcs d ∧ x ≠ n ∧ y ≠ n) ∧ views_agree d'.
Proof.
  intros Hv Hac. pose proof Hv as Hv0. apply wf_views_agree in Hv. destruct (remove_node_spec o n ign d Hv (acyclic_oriented _ Hac)) as (Hwf' & _ & H).
  destruct (remove_node o n ign d) as [d' r]. cbn in *. destruct (decide (n ∈ d_nodes d)) as [Hn|Hn].
  - destruct H as (-> & HN & Ha). exists d'. split; [done|]. split; [done|]. split; [|by apply wf_views_agree]. intros x y. rewrite Ha, elem_of_filter. cbn. tauto.
  - injection H as -> ->. exists d. split; [done|]. split; [clear -Hn; set_solver|]. split; [|done]. intros x y. split; [|tauto]. intros H. split; [done|].
    destruct Hv0 as (_ & _ & _ & Ho). destruct (Ho x y H). split; congruence.
Qed.

(** 1->2->3 and 1->3: each kind of call. *)
Example C134_example :
  let d := dag_of ∅ {[(1, 2); (2, 3); (1, 3)]} in
  views_agree d ∧ acyclic (d_arcs d) ∧ 3 ≠ 4 ∧ (4, 3) ∉ d_arcs d ∧
  d_arcs (add_arc oracle0 3 4 true d).1 = {[(1, 2); (2, 3); (1, 3); (3, 4)]} ∧
  d_arcs (remove_arcs_from [(1, 2); (1, 2); (2, 3)] false d).1 = {[(2, 3); (1, 3)]} ∧
  d_arcs (reverse_arc oracle0 2 3 false true d).1 = {[(1, 2); (3, 2); (1, 3)]} ∧
  d_arcs (remove_node oracle0 3 false d).1 = {[(1, 2)]}.
Proof. intros d. split; [apply wf_views_agree, dag_of_wf|]. split; [apply acyclicb_spec; by vm_compute|]. split; [done|]. split_and!; by_vm. Qed.

(** ** C135: the mutators of [UndirectedGraph] *)

(** Neighbours and degrees are those given by the edges, and there are no loops.  C43 shows that this holds after every history without loops. *)
Definition u_consistent (g : ug) : Prop :=
  (∀ i, (i, i) ∉ u_edges g) ∧ (∀ e, e ∈ u_edges g → e.1 ≤ e.2) ∧
  (∀ x y, y ∈ unbrs g x ↔ x ≠ y ∧ upair x y ∈ u_edges g) ∧ (∀ x, udeg g x = Z.of_nat (size (unbrs g x))).
Lemma u_consistent_ok g : u_consistent g ↔ uok g.
Proof.
  split.
  - intros (H1 & H2 & H3 & H4). split; [|done|done]. intros [i j] He. cbn. specialize (H2 _ He). cbn in H2. destruct (decide (i = j)) as [->|]; [by apply H1 in He|lia].
  - intros [H1 H2 H3]. split; [intros i Hi; apply H1 in Hi; cbn in Hi; lia|]. split; [intros e He; apply H1 in He; lia|]. done.
Qed.
Definition u_pairs (l : list arc) : arcset := list_to_set ((λ e : arc, upair e.1 e.2) <$> l).

Theorem C135_add_edges_from (l : list arc) (g : ug) : u_consistent g → (∀ e, e ∈ l → e.1 ≠ e.2) →
  ∃ g', u_add_edges_from l g = (g', Ok tt) ∧ u_nodes g' = u_nodes g ∧ u_edges g' = u_pairs l ∪ u_edges g ∧ u_consistent g'.
Proof.
  rewrite u_consistent_ok. unfold u_add_edges_from. revert g. induction l as [|[i j] l IH]; intros g Hg Hl.
  { exists g. split; [done|]. split; [done|]. split; [unfold u_pairs; cbn; by rewrite (left_id_L ∅ (∪))|by apply u_consistent_ok]. }
  cbn [mfor fst snd]. assert (i ≠ j) as Hij by (apply (Hl (i, j)); by left). pose proof (u_add_edge_ok i j g Hij Hg) as Hok.
  assert (∃ g1, u_add_edge i j g = (g1, Ok tt) ∧ u_nodes g1 = u_nodes g ∧ u_edges g1 = {[upair i j]} ∪ u_edges g) as (g1 & E1 & HN1 & He1).
  { unfold u_add_edge. case_decide as Hin; eexists; (split; [done|]); (split; [done|]); [clear -Hin; set_solver|done]. }
  rewrite E1 in Hok. cbn in Hok. destruct (IH g1 Hok) as (g' & E & HN & He & Hc). { intros e He. apply Hl. by right. }
  exists g'. unfold mthen, mbind'. rewrite E1. split; [done|]. split; [congruence|]. split; [|done]. rewrite He, He1. unfold u_pairs. cbn. clear. set_solver.
Qed.

(** Deleting several edges: stops at the first that is not there; what was deleted before stays deleted. *)
Theorem C135_delete_edges_from (l : list arc) (g : ug) : u_consistent g →
  ∃ g' l1, u_nodes g' = u_nodes g ∧ u_edges g' = u_edges g ∖ u_pairs l1 ∧ u_consistent g' ∧
    ((u_delete_edges_from l g = (g', Ok tt) ∧ l1 = l ∧ u_pairs l ⊆ u_edges g) ∨
     (u_delete_edges_from l g = (g', Raise KeyError) ∧ ∃ e l2, l = l1 ++ e :: l2 ∧ (upair e.1 e.2 ∈ u_pairs l1 ∨ upair e.1 e.2 ∉ u_edges g))).
Proof.
  rewrite u_consistent_ok. unfold u_delete_edges_from. revert g. induction l as [|[i j] l IH]; intros g Hg.
  { exists g, []. split; [done|]. split; [unfold u_pairs; cbn; by rewrite difference_empty_L|]. split; [by apply u_consistent_ok|]. left. split; [done|]. split; [done|].
    unfold u_pairs. cbn. apply empty_subseteq. }
  cbn [mfor fst snd]. destruct (u_delete_edge_ok i j g Hg) as [H1 H2]. unfold mthen, mbind' in *. destruct (decide (upair i j ∈ u_edges g)) as [Hin|Hin].
  - destruct (H1 Hin) as (Er & Hok & He1 & HN1). destruct (u_delete_edge i j g) as [g1 r]. cbn [fst snd] in Er, Hok, He1, HN1. subst r.
    destruct (IH g1 Hok) as (g' & l1 & HN & He & Hc & H). exists g', ((i, j) :: l1). split; [congruence|].
    assert (∀ l, u_pairs ((i, j) :: l) = {[upair i j]} ∪ u_pairs l) as Hp by done. split; [rewrite He, He1, Hp; clear; set_solver|]. split; [done|].
    destruct H as [(E & -> & Hs)|(E & e & l2 & -> & Hm)]; [left|right].
    + split; [done|]. split; [done|]. rewrite Hp. rewrite He1 in Hs. clear -Hs Hin. set_solver.
    + split; [done|]. exists e, l2. split; [done|]. rewrite Hp. rewrite He1 in Hm. destruct (decide (upair e.1 e.2 = upair i j)) as [->|Hne]; [left; by apply elem_of_union_l, elem_of_singleton|].
      destruct Hm as [Hm|Hm]; [left; by apply elem_of_union_r|]. right. intros Hx. apply Hm, elem_of_difference. split; [done|]. by rewrite elem_of_singleton.
  - rewrite (H2 Hin). exists g, []. split; [done|]. split; [unfold u_pairs; cbn; by rewrite difference_empty_L|]. split; [by apply u_consistent_ok|]. right. split; [done|].
    exists (i, j), l. split; [done|]. by right.
Qed.

Theorem C135_delete_node o n (g : ug) : u_consistent g →
  (n ∈ u_nodes g → ∃ g', u_delete_node o n g = (g', Ok tt) ∧ u_nodes g' = u_nodes g ∖ {[n]} ∧ (∀ e, e ∈ u_edges g' ↔ e ∈ u_edges g ∧ e.1 ≠ n ∧ e.2 ≠ n) ∧ u_consistent g') ∧
  (n ∉ u_nodes g → u_delete_node o n g = (g, Raise KeyError)).
Proof.
  rewrite u_consistent_ok. intros Hg. destruct (u_delete_node_ok o n g Hg) as [H1 H2]. split; [|done]. intros Hn. destruct (H1 Hn) as (g' & E & Hok & HN & He).
  exists g'. split; [done|]. split; [done|]. split; [done|]. by apply u_consistent_ok.
Qed.

Example C135_example :
  let g := ug_make oracle0 (λ _, false) {[4]} {[(1, 2); (3, 2)]} in
  u_consistent g ∧ u_edges (u_add_edges_from [(4, 1); (2, 1)] g).1 = {[(1, 2); (2, 3); (1, 4)]} ∧
  u_edges (u_delete_edges_from [(2, 1); (1, 2); (3, 2)] g).1 = {[(2, 3)]} ∧ u_edges (u_delete_node oracle0 3 g).1 = {[(1, 2)]}.
Proof. intros g. split; [apply u_consistent_ok, ug_make_ok|]. split_and!; by_vm. Qed.

Print Assumptions C134_add_nodes_from.
Print Assumptions C134_add_arc.
Print Assumptions C134_add_arcs_from.
Print Assumptions C134_remove_arc.
Print Assumptions C134_remove_arcs_from.
Print Assumptions C134_reverse_arc.
Print Assumptions C134_reverse_arc_lost_refuted.
Print Assumptions C134_remove_node.
Print Assumptions C135_add_edges_from.
Print Assumptions C135_delete_edges_from.
Print Assumptions C135_delete_node.
