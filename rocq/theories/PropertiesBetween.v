(** C34: exactly what [nodes_between] and [edges_between] return. *)
From Verif Require Import Py Spec SpecMec DagModel TopoProofs StateProofs ReachProofs OrderProofs QueryProofs MarkovProofs PropertiesDag.

(** Without an intermediate node the result of [nodes_between] is empty, even if the nodes are adjacent or equal. *)
Theorem C34_nodes_between_empty d o s t : views_agree d →
  ∃ X, nodes_between d o s t = Ok X ∧ (X = ∅ ↔ ¬ ∃ v, tc (edge (d_arcs d)) s v ∧ tc (edge (d_arcs d)) v t).
Proof.
  rewrite <-wf_views_agree. intros Hwf. destruct (nodes_between_spec d o Hwf s t) as (X & HX & H1 & H2). exists X. split; [done|]. split; [|exact H2].
  intros -> Hv. apply (not_elem_of_empty (C := nset) s). apply (H1 Hv). by left.
Qed.

Lemma combinations2_before {A} (l : list A) x y : (x, y) ∈ combinations2 l ↔ ∃ i j, l !! i = Some x ∧ l !! j = Some y ∧ i < j.
Proof.
  rewrite elem_of_combinations2. split.
  - intros (l1 & l2 & l3 & ->). exists (length l1), (length l1 + S (length l2)). split_and!; [by rewrite list_lookup_middle| |lia].
    replace (l1 ++ x :: l2 ++ y :: l3) with ((l1 ++ x :: l2) ++ y :: l3) by (by rewrite <-app_assoc). apply list_lookup_middle. by rewrite app_length.
  - intros (i & j & Hi & Hj & Hlt). apply elem_of_list_split_length in Hi as (l1 & l2 & -> & Hl1).
    subst i. rewrite lookup_app_r in Hj by lia. destruct (j - length l1) as [|k] eqn:Hk; [lia|]. rewrite lookup_cons in Hj.
    apply elem_of_list_split_length in Hj as (l3 & l4 & -> & _). by exists l1, l3, l4.
Qed.

(** [edges_between] returns the arcs between these nodes whose source comes first in the iteration order. *)
Theorem C34_edges_between_exact d o s t : views_agree d →
  ∃ X l F, nodes_between d o s t = Ok X ∧ listing X l ∧ edges_between d o s t = Ok F ∧
    (∀ i j, (i, j) ∈ F ↔ (i, j) ∈ d_arcs d ∧ before l i j) ∧
    ((∀ i j, (i, j) ∈ F ↔ (i, j) ∈ d_arcs d ∧ i ∈ X ∧ j ∈ X) ↔ ∀ i j, i ∈ X → j ∈ X → (i, j) ∈ d_arcs d → before l i j).
Proof.
  rewrite <-wf_views_agree. intros Hwf. destruct (nodes_between_spec d o Hwf s t) as (X & HX & _). exists X, (on o [13] X).
  unfold edges_between. rewrite HX. cbn [res_bind]. eexists. split; [done|]. split; [split; [apply NoDup_on|intros x; apply elem_of_on]|]. split; [reflexivity|].
  assert (∀ i j, before (on o [13] X) i j → i ∈ X ∧ j ∈ X) as Hin.
  { intros i j (a & b & Ha & Hb & _). rewrite <-!(elem_of_on o [13]). split; by eapply elem_of_list_lookup_2. }
  match goal with |- (∀ i j, _ ∈ ?F ↔ _) ∧ _ => assert (∀ i j, (i, j) ∈ F ↔ (i, j) ∈ d_arcs d ∧ before (on o [13] X) i j) as HF end.
  { intros i j. by rewrite elem_of_list_to_set, elem_of_list_filter, combinations2_before. }
  split; [exact HF|]. split.
  - intros H i j Hi Hj Ha. by apply HF, H.
  - intros H i j. rewrite HF. split; [intros [Ha Hb]; apply Hin in Hb; tauto|]. intros (Ha & Hi & Hj). auto.
Qed.

(** An iteration order that follows a list. *)
Definition along (l : list node) (X : nset) : list node := filter (λ x, x ∈ X) l ++ elements (X ∖ list_to_set l).
Lemma along_perm l X : NoDup l → along l X ≡ₚ elements X.
Proof.
  intros Hl. apply NoDup_Permutation; [|apply NoDup_elements|].
  - apply NoDup_app. split; [by apply NoDup_filter|]. split; [|apply NoDup_elements]. intros x [_ Hx]%elem_of_list_filter.
    rewrite elem_of_elements, elem_of_difference, elem_of_list_to_set. tauto.
  - intros x. unfold along. rewrite elem_of_app, elem_of_list_filter, !elem_of_elements, elem_of_difference, elem_of_list_to_set.
    destruct (decide (x ∈ l)); tauto.
Qed.
Definition oracle_along (l : list node) (Hl : NoDup l) : oracle := Oracle (λ _ X, along l X) (λ _ X, elements X) (λ _ X, along_perm l X Hl) (λ _ _, reflexivity _).
Lemma before_along l X i j : before l i j → i ∈ X → j ∈ X → before (along l X) i j.
Proof.
  intros Hb Hi Hj. apply combinations2_before, elem_of_combinations2 in Hb as (l1 & l2 & l3 & ->). apply combinations2_before, elem_of_combinations2.
  unfold along. rewrite filter_app, filter_cons_True, filter_app, filter_cons_True by done. 
  exists (filter (λ x, x ∈ X) l1), (filter (λ x, x ∈ X) l2), (filter (λ x, x ∈ X) l3 ++ elements (X ∖ list_to_set (l1 ++ i :: l2 ++ j :: l3))).
  by rewrite <-!app_assoc, <-app_comm_cons, <-app_assoc, <-app_comm_cons.
Qed.
Lemma before_asym l i j : NoDup l → before l i j → ¬ before l j i.
Proof.
  intros Hl (a & b & Ha & Hb & Hab) (c & e & Hc & He & Hce). rewrite (NoDup_lookup l a e i Hl Ha He), (NoDup_lookup l b c j Hl Hb Hc) in Hab. lia.
Qed.

(** In every acyclic graph some iteration order gives all arcs between the nodes and another one gives none. *)
Theorem C34_edges_between_orders d s t : views_agree d → acyclic (d_arcs d) →
  ∃ o o' X F, nodes_between d o s t = Ok X ∧ nodes_between d o' s t = Ok X ∧
    edges_between d o s t = Ok F ∧ (∀ i j, (i, j) ∈ F ↔ (i, j) ∈ d_arcs d ∧ i ∈ X ∧ j ∈ X) ∧ edges_between d o' s t = Ok ∅.
Proof.
  intros Hv Hac. pose proof Hv as Hwf. rewrite <-wf_views_agree in Hwf. destruct (exists_topo (d_nodes d) (d_arcs d) Hac (wf_over d Hwf)) as (l & Hnd & Hl & Hord0).
  assert (∀ i j, (i, j) ∈ d_arcs d → before l i j) as Hord.
  { intros i j Ha. destruct (wf_over d Hwf i j Ha) as [Hi Hj]. apply Hl, elem_of_list_lookup_1 in Hi as [a Hi], Hj as [b Hj]. exists a, b. eauto. }
  assert (NoDup (reverse l)) as Hnd' by (by rewrite reverse_Permutation).
  exists (oracle_along l Hnd), (oracle_along (reverse l) Hnd').
  destruct (nodes_between_spec d (oracle_along l Hnd) Hwf s t) as (X & HX & H1 & H2).
  destruct (nodes_between_spec d (oracle_along (reverse l) Hnd') Hwf s t) as (Y & HY & H3 & H4).
  assert (Y = X) as ->.
  { apply dec_stable. intros Hne. apply Hne. 
    assert (¬ ¬ ((∃ v, ancestor (d_arcs d) s v ∧ ancestor (d_arcs d) v t) ∨ ¬ (∃ v, ancestor (d_arcs d) s v ∧ ancestor (d_arcs d) v t))) as HEM by tauto.
    exfalso. apply HEM. intros [H|H]; apply Hne; [|by rewrite H2, H4]. apply set_eq. intros x. by rewrite (H1 H), (H3 H). }
  unfold edges_between. rewrite HX, HY. cbn [res_bind on oracle_along]. exists X. eexists. split; [done|]. split; [done|]. split; [reflexivity|]. split.
  - intros i j. rewrite elem_of_list_to_set, elem_of_list_filter, combinations2_before. split.
    + intros [Ha (a & b & Hi & Hj & _)]. apply elem_of_list_lookup_2 in Hi, Hj. rewrite (along_perm l X Hnd), elem_of_elements in Hi, Hj. done.
    + intros (Ha & Hi & Hj). split; [done|]. apply before_along; [by apply Hord|done..].
  - f_equal. apply set_eq. intros [i j]. rewrite elem_of_list_to_set, elem_of_list_filter, combinations2_before. split; [|by intros ?%not_elem_of_empty].
    intros [Ha Hb]. exfalso. assert (i ∈ X ∧ j ∈ X) as [Hi Hj].
    { destruct Hb as (a & b & Hi & Hj & _). apply elem_of_list_lookup_2 in Hi, Hj. rewrite (along_perm _ X Hnd'), elem_of_elements in Hi, Hj. done. }
    apply (before_asym (along (reverse l) X) i j); [rewrite along_perm by done; apply NoDup_elements|exact Hb|]. apply before_along; [|done..].
    apply Hord in Ha. apply combinations2_before, elem_of_combinations2 in Ha as (l1 & l2 & l3 & ->). apply combinations2_before, elem_of_combinations2.
    exists (reverse l3), (reverse l2), (reverse l1). rewrite reverse_app, reverse_cons, reverse_app, reverse_cons, <-!app_assoc. cbn. reflexivity.
Qed.

(** A graph with three nodes between 1 and 4 and five arcs between them. *)
Example C34_edges_example :
  let d := dag_of ∅ {[(1, 2); (2, 4); (1, 3); (3, 4); (1, 4)]} in
  views_agree d ∧ acyclic (d_arcs d) ∧ nodes_between d oracle0 1 4 = Ok {[1; 2; 3; 4]} ∧ nodes_between d oracle0 1 2 = Ok ∅.
Proof. cbn zeta. split; [apply wf_views_agree, dag_of_wf|]. repeat split; by_vm. Qed.

Print Assumptions C34_nodes_between_empty.
Print Assumptions C34_edges_between_exact.
Print Assumptions C34_edges_between_orders.
