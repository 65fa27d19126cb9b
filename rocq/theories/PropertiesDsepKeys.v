(** C11: the keys that [dsep_from_given] creates in the dictionary of children. *)
From Verif Require Import Py Spec DagModel DsepModel StateProofs CoreProofs PropertiesDag.

(** What one link reads while its end [v] is looked at. *)
Definition reads (d : dag) (labeled : gset link) (l : link) (w : node) (k : option nat) : Prop :=
  l.1 ≠ Some w ∧ (Some l.2, w) ∉ labeled ∧ (k = l.1 ∨ k = Some w ∧ is_child d l.2 l.1 = true).
Lemma keys_read_spec d labeled ilinks k :
  k ∈ keys_read d labeled ilinks ↔ ∃ l w, l ∈ ilinks ∧ w ∈ nbrs d l.2 ∧ reads d labeled l w k.
Proof.
  unfold keys_read.
  assert (∀ (l : link) (acc : gset (option nat)) (X : nset),
    k ∈ set_fold (λ w acc, if decide (l.1 ≠ Some w ∧ (Some l.2, w) ∉ labeled) then
        {[l.1]} ∪ (if is_child d l.2 l.1 then {[Some w]} else ∅) ∪ acc else acc) acc X ↔
    k ∈ acc ∨ ∃ w, w ∈ X ∧ reads d labeled l w k) as Hin.
  { intros l acc X. apply (set_fold_ind_L (λ a X, k ∈ a ↔ k ∈ acc ∨ ∃ w, w ∈ X ∧ reads d labeled l w k)).
    - split; [by left|]. intros [?|(w & Hw & _)]; [done|]. by apply elem_of_empty in Hw.
    - intros w Y a _ IH. unfold reads in *. setoid_rewrite elem_of_union. setoid_rewrite elem_of_singleton.
      case_decide as H.
      + rewrite !elem_of_union, elem_of_singleton, IH. split.
        * intros [[->|Hk]|[?|(w' & Hw' & ?)]]; [| |by left|right; exists w'; tauto].
          -- right. exists w. tauto.
          -- right. exists w. destruct (is_child d l.2 l.1); [apply elem_of_singleton in Hk; tauto|by apply elem_of_empty in Hk].
        * intros [?|(w' & [->|Hw'] & H1 & H2 & [->|[-> Hc]])]; [tauto|tauto| |right; right; exists w'; tauto|right; right; exists w'; tauto].
          left. right. rewrite Hc. by apply elem_of_singleton.
      + rewrite IH. split; [intros [?|(w' & ? & ?)]; [by left|right; exists w'; tauto]|]. intros [?|(w' & [->|Hw'] & H1 & H2 & H3)]; [by left|tauto|right; exists w'; tauto]. }
  apply (set_fold_ind_L (λ a X, k ∈ a ↔ ∃ l w, l ∈ X ∧ w ∈ nbrs d l.2 ∧ reads d labeled l w k)).
  - split; [by intros ?%elem_of_empty|]. by intros (l & w & ?%elem_of_empty & _).
  - intros l Y a _ IH. rewrite Hin, IH. setoid_rewrite elem_of_union. setoid_rewrite elem_of_singleton. naive_solver.
Qed.

Lemma round_links d desc C labeled ilinks u w : (u, w) ∈ round d desc C labeled ilinks → ∃ v, u = Some v ∧ w ∈ nbrs d v ∧ ∃ l, l ∈ ilinks ∧ l.2 = v.
Proof.
  unfold round. intros [H _]%elem_of_difference. revert H.
  apply (set_fold_ind_L (λ a X, (u, w) ∈ a → ∃ v, u = Some v ∧ w ∈ nbrs d v ∧ ∃ l, l ∈ X ∧ l.2 = v)); [by intros ?%elem_of_empty|].
  intros [u0 v] Y a _ IH [H|H]%elem_of_union.
  - unfold legal_next in H. apply elem_of_map in H as (w' & [= -> ->] & [_ H]%elem_of_filter). exists v. split; [done|]. split; [done|]. exists (u0, v). split; [|done]. apply elem_of_union. left. by apply elem_of_singleton.
  - destruct (IH H) as (v' & -> & Hw & l & Hl & E). exists v'. split; [done|]. split; [done|]. exists l. split; [|done]. apply elem_of_union. by right.
Qed.
Lemma link_loop_keys d desc C : (∀ v w, w ∈ nbrs d v → v ∈ d_nodes d ∧ w ∈ d_nodes d) → ∀ fuel labeled ilinks reach keys r,
  link_loop d desc C fuel labeled ilinks reach keys = Ok r →
  (∀ l, l ∈ ilinks → l.2 ∈ d_nodes d ∧ ∀ u, l.1 = Some u → u ∈ d_nodes d) →
  (∀ k, k ∈ keys ∪ keys_read d labeled ilinks → k ∈ r.2) ∧
  (∀ k, k ∈ r.2 → k ∈ keys ∪ keys_read d labeled ilinks ∨ k ≠ None) ∧ (∀ u, Some u ∈ r.2 → Some u ∈ keys ∨ u ∈ d_nodes d).
Proof.
  intros Hn. induction fuel as [|fuel IH]; intros labeled ilinks reach keys r; cbn [link_loop]; [done|].
  set (nxt := round d desc C labeled ilinks).
  assert (∀ l, l ∈ nxt → l.2 ∈ d_nodes d ∧ (∃ u, l.1 = Some u) ∧ ∀ u, l.1 = Some u → u ∈ d_nodes d) as Hnxt.
  { intros [u w] H. apply round_links in H as (v & -> & Hw & _). cbn. destruct (Hn _ _ Hw). split; [done|]. split; [by exists v|]. by intros ? [= <-]. }
  intros HE Hil. assert (∀ u, Some u ∈ keys_read d labeled ilinks → u ∈ d_nodes d) as Hk.
  { intros u (l & w & Hl & Hw & _ & _ & [H|[[= ->] _]])%keys_read_spec; [by apply (Hil l Hl)|]. by apply Hn in Hw as [_ ?]. }
  destruct (decide (nxt = ∅)) as [E|E].
  - injection HE as <-. cbn. split; [done|]. split; [by left|]. intros u [?|?]%elem_of_union; [by left|right; by apply Hk].
  - apply IH in HE as (H1 & H2 & H3); [|intros l Hl; by apply Hnxt in Hl as (? & _ & ?)]. split; [|split].
    + intros k Hk'. apply H1, elem_of_union. by left.
    + intros k [[Hk'|Hk']%elem_of_union|?]%H2; [by left| |by right]. right. intros ->. apply keys_read_spec in Hk' as (l & w & Hl & Hw & _ & _ & [H|[[=] _]]).
      apply Hnxt in Hl as (_ & [u Hu] & _). congruence.
    + intros u [[?|?]%elem_of_union|?]%H3; [by left|right; by apply Hk|by right].
Qed.

(** The call creates the key [None] exactly if a node of [A] has a neighbour; all other keys that it may create are nodes. *)
Theorem C11_new_keys d o A C r : views_agree d → A ⊆ d_nodes d → dsep_from_given_keys d o A C = Ok r →
  (None ∈ r.2 ↔ ∃ a, a ∈ A ∧ nbrs d a ≠ ∅) ∧ ∀ u, Some u ∈ r.2 → u ∈ d_nodes d.
Proof.
  intros (_ & _ & Hnb & Hov) HA. unfold dsep_from_given_keys.
  destruct (loopR _ _ _) as [desc|]; cbn [res_bind]; [|done]. destruct (link_loop _ _ _ _ _ _ _ _) as [rk|] eqn:E; cbn [res_bind]; [|done]. intros [= <-]. cbn.
  apply link_loop_keys in E as (H1 & H2 & H3).
  - split; [|intros u [Hu|?]%H3; [by apply elem_of_empty in Hu|done]]. split.
    + intros [[Hk|Hk]%elem_of_union|?]%H2; [by apply elem_of_empty in Hk| |done]. apply keys_read_spec in Hk as (l & w & Hl & Hw & _).
      apply elem_of_map in Hl as (a & -> & Ha). exists a. split; [done|]. cbn in Hw. intros E0. rewrite E0 in Hw. by apply elem_of_empty in Hw.
    + intros (a & Ha & Hne). apply set_choose_L in Hne as [w Hw]. apply H1, elem_of_union. right. apply keys_read_spec. exists (None, a), w.
      split; [apply elem_of_map; by exists a|]. split; [done|]. split; [done|]. split; [|by left]. by intros ?%elem_of_empty.
  - intros v w [Hw|Hw]%Hnb; apply Hov in Hw; tauto.
  - intros l (a & -> & Ha)%elem_of_map. cbn. split; [by apply HA|done].
Qed.

(** On a chain: the first link reads [None], the second one [0] and, since it points to [1], the next node [2]. *)
Example C11_new_keys_example :
  let d := dag_of ∅ {[(0, 1); (1, 2)]} in
  views_agree d ∧ {[0]} ⊆ d_nodes d ∧ dsep_from_given_keys d oracle0 {[0]} ∅ = Ok (∅, {[None; Some 0; Some 2]}) ∧
  dsep_from_given_keys d oracle0 {[2]} ∅ = Ok (∅, {[None; Some 2]}) ∧
  dsep_from_given_keys (dag_of {[0; 1]} ∅) oracle0 {[0]} ∅ = Ok ({[1]}, ∅).
Proof. intros d. split; [apply wf_views_agree, dag_of_wf|]. split_and!; by_vm. Qed.

Print Assumptions C11_new_keys.
