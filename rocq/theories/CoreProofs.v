(** What survives of the state invariant when calls may try to create self loops
    and two-cycles: everything but the neighbor map. *)
From Verif Require Import Py Spec DagModel TopoProofs StateProofs ReachProofs.

Record cwf (d : dag) : Prop := CWf {
  cwf_over : over (d_nodes d) (d_arcs d);
  cwf_par : ∀ i j, i ∈ parents d j ↔ (i, j) ∈ d_arcs d;
  cwf_chi : ∀ i j, j ∈ children d i ↔ (i, j) ∈ d_arcs d
}.

Lemma wf_cwf d : wf d → cwf d.
Proof. intros [? ? ? ?]. by split. Qed.

(** A state with the same nodes and arcs whose maps are right. *)
Definition repair (d : dag) : dag :=
  foldl (λ d a, insert_arc a.1 a.2 d) (dag_init (d_nodes d)) (elements (d_arcs d)).

Lemma repair_arcs d : d_arcs (repair d) = d_arcs d.
Proof. unfold repair. rewrite insert_arcs_arcs. cbn. rewrite list_to_set_elements_L. set_solver. Qed.
Lemma repair_nodes d : over (d_nodes d) (d_arcs d) → d_nodes (repair d) = d_nodes d.
Proof.
  intros Ho. unfold repair. rewrite insert_arcs_nodes. cbn. apply set_eq. intros x.
  rewrite !elem_of_union, !elem_of_list_to_set, !elem_of_list_fmap. split; [|by right].
  intros [[([a b] & -> & H)|([a b] & -> & H)]|?]; [| |done]; apply elem_of_elements in H; by apply Ho in H as [??].
Qed.
Lemma repair_wf d : wf (repair d).
Proof. apply insert_arcs_wf, wf_init. Qed.
Lemma repair_children d n : cwf d → children (repair d) n = children d n.
Proof.
  intros [_ _ Hc]. apply set_eq. intros x. by rewrite (wf_chi _ (repair_wf d)), Hc, repair_arcs.
Qed.

Lemma loopR_ext {S A} (f g : A → S → res S) l s :
  (∀ a s, f a s = g a s) → loopR f l s = loopR g l s.
Proof. intros H. revert s. induction l as [|a l IH]; intros s; cbn; [done|]. rewrite H. by destruct (g a s). Qed.

Lemma topological_sort_ext d d' o :
  d_nodes d = d_nodes d' → (∀ n, children d n = children d' n) → topological_sort d o = topological_sort d' o.
Proof.
  intros HN HC.
  assert (∀ fuel n st, mark_children_visited d o fuel n st = mark_children_visited d' o fuel n st) as H.
  { intros fuel. induction fuel as [|fuel IH]; intros n st; [done|]. cbn [mark_children_visited].
    rewrite HC. erewrite loopR_ext; [done|]. intros c s. cbn beta.
    rewrite IH, HN. done. }
  unfold topological_sort. rewrite HN. erewrite loopR_ext; [done|]. intros c s. cbn beta. by rewrite H.
Qed.

Lemma check_acyclic_core o d :
  cwf d → (check_acyclic o d).1 = d ∧
  (((check_acyclic o d).2 = Ok tt ∧ acyclic (d_arcs d)) ∨
   ∃ w, (check_acyclic o d).2 = Raise (CycleError w) ∧ closes_cycle (d_arcs d) w ∧ ¬ acyclic (d_arcs d)).
Proof.
  intros Hc. pose proof (check_acyclic_spec o (repair d) (repair_wf d)) as [_ H].
  rewrite repair_arcs in H. unfold check_acyclic in *.
  rewrite (topological_sort_ext d (repair d) o).
  - split; [by destruct (topological_sort (repair d) o)|]. destruct (topological_sort (repair d) o); done.
  - by rewrite repair_nodes by apply Hc.
  - intros n. by rewrite repair_children.
Qed.

Lemma insert_arc_cwf i j d : cwf d → cwf (insert_arc i j d).
Proof.
  intros [Ho Hp Hc]. split.
  - intros x y. cbn. rewrite elem_of_union, elem_of_singleton. intros [[= -> ->]|H]; [set_solver|].
    apply Ho in H. set_solver.
  - intros x y. unfold parents, insert_arc. cbn. rewrite dget_dadd, elem_of_union, elem_of_singleton.
    fold (parents d y). destruct (decide (j = y)) as [->|].
    + rewrite elem_of_union, elem_of_singleton, Hp. naive_solver.
    + rewrite Hp. naive_solver.
  - intros x y. unfold children, insert_arc. cbn. rewrite dget_dadd, elem_of_union, elem_of_singleton.
    fold (children d x). destruct (decide (i = x)) as [->|].
    + rewrite elem_of_union, elem_of_singleton, Hc. naive_solver.
    + rewrite Hc. naive_solver.
Qed.

(** [remove_arc] with any arguments in any state. *)
Lemma remove_arc_core i j ign d :
  cwf d →
  let r := remove_arc i j ign d in
  cwf r.1 ∧ d_nodes r.1 = d_nodes d ∧ d_arcs r.1 = d_arcs d ∖ {[(i, j)]} ∧
  (r.2 = Ok tt ∨ r.2 = Raise KeyError) ∧ ((i, j) ∉ d_arcs d → ign = false → r.2 = Raise KeyError).
Proof.
  intros [Ho Hp Hc]. cbn zeta. destruct (decide ((i, j) ∈ d_arcs d)) as [Hin|Hin]; cycle 1.
  { rewrite remove_arc_absent by done. cbn. split; [by split|]. split; [done|]. split; [set_solver|].
    destruct ign; (split; [auto|done]). }
  set (E' := d_arcs d ∖ {[(i, j)]}).
  assert (∀ nb, cwf (Dag (d_nodes d) E' nb (ddel (d_par d) j i) (ddel (d_chi d) i j))) as Hgood.
  { intros nb. split; cbn.
    - intros x y. unfold E'. rewrite elem_of_difference. intros [H _]. by apply Ho.
    - intros x y. unfold parents. cbn. rewrite dget_ddel. fold (parents d y). unfold E'.
      rewrite elem_of_difference, elem_of_singleton. destruct (decide (j = y)) as [->|].
      + rewrite elem_of_difference, elem_of_singleton, Hp. naive_solver.
      + rewrite Hp. naive_solver.
    - intros x y. unfold children. cbn. rewrite dget_ddel. fold (children d x). unfold E'.
      rewrite elem_of_difference, elem_of_singleton. destruct (decide (i = x)) as [->|].
      + rewrite elem_of_difference, elem_of_singleton, Hc. naive_solver.
      + rewrite Hc. naive_solver. }
  unfold remove_arc, guard_keyerror, mcatch.
  rewrite (mthen_ok _ _ d (Dag (d_nodes d) E' (d_nbr d) (d_par d) (d_chi d)) tt); cycle 1.
  { unfold arcs_remove. by rewrite decide_True by done. }
  rewrite (mthen_ok _ _ _ (Dag (d_nodes d) E' (d_nbr d) (ddel (d_par d) j i) (d_chi d)) tt); cycle 1.
  { unfold par_remove. rewrite decide_True; [done|]. by apply Hp. }
  rewrite (mthen_ok _ _ _ (Dag (d_nodes d) E' (d_nbr d) (ddel (d_par d) j i) (ddel (d_chi d) i j)) tt); cycle 1.
  { unfold chi_remove. rewrite decide_True; [done|]. by apply Hc. }
  unfold mthen, mbind', nbr_remove.
  repeat case_decide; destruct ign; cbn; (split; [apply Hgood|]; split; [done|]; split; [done|]; split; [auto|done]).
Qed.

Lemma remove_arcs_core l ign d :
  cwf d → let r := remove_arcs_from l ign d in
  cwf r.1 ∧ d_nodes r.1 = d_nodes d ∧ d_arcs r.1 ⊆ d_arcs d.
Proof.
  unfold remove_arcs_from. cbn zeta. revert d. induction l as [|[i j] l IH]; intros d H; [done|]. cbn [mfor fst snd].
  destruct (remove_arc_core i j ign d H) as (H1 & H2 & H3 & _). cbn zeta in *.
  unfold mthen, mbind' at 1 2 3. destruct (remove_arc i j ign d) as [d1 [[]|e]]; cbn in *.
  - destruct (IH d1 H1) as (? & ? & ?). split; [done|]. split; [congruence|]. set_solver.
  - split; [done|]. split; [done|]. set_solver.
Qed.

Lemma add_arc_core o i j chk d :
  cwf d → let r := add_arc o i j chk d in
  cwf r.1 ∧ (chk = true → acyclic (d_arcs d) → acyclic (d_arcs r.1)) ∧
  (r.2 = Ok tt → d_arcs r.1 = {[(i, j)]} ∪ d_arcs d) ∧
  (r.2 ≠ Ok tt → chk = true ∧ ¬ acyclic ({[(i, j)]} ∪ d_arcs d) ∧ d_arcs r.1 = d_arcs d ∖ {[(i, j)]}).
Proof.
  intros H. cbn zeta. unfold add_arc. pose proof (insert_arc_cwf i j d H) as H1.
  destruct chk; [|by cbn]. unfold on_cycle_error, mcatch.
  destruct (check_acyclic_core o _ H1) as [Hs [[Hr Hac]|(w & Hr & Hw & Hac)]];
    destruct (check_acyclic o (insert_arc i j d)) as [d1 r]; cbn in Hs, Hr; subst d1 r.
  - cbn. done.
  - destruct (remove_arc_core i j false _ H1) as (H2 & H3 & H4 & H5 & _). cbn zeta in *.
    assert (d_arcs (insert_arc i j d) ∖ {[(i, j)]} = d_arcs d ∖ {[(i, j)]}) as Heq.
    { cbn. set_solver. }
    unfold mthen, mbind'. destruct (remove_arc i j false (insert_arc i j d)) as [d2 [[]|e]]; cbn in *;
      rewrite H4, Heq; (split; [done|]; split; [|done]); intros _; apply acyclic_mono; set_solver.
Qed.

(** Calls covered: all but [remove_node] and [add_arcs_from]. *)
Definition simple_call (c : call) : Prop :=
  match c with CRemoveNode _ _ _ | CAddArcsFrom _ _ _ => False | _ => True end.

Lemma exec_core c d :
  cwf d → simple_call c → cwf (exec c d).1 ∧ (checked c → acyclic (d_arcs d) → acyclic (d_arcs (exec c d).1)).
Proof.
  intros H Hs. destruct c as [n|l|o i j chk|o arcs chk|i j ign|l ign|o i j ign chk|o n ign]; cbn -[add_nodes_from] in *; try done.
  - split; [|done]. destruct H as [Ho Hp Hc]. split; [|done|done]. intros x y Hxy%Ho. cbn. set_solver.
  - destruct (add_nodes_spec l d) as (_ & H1 & H2 & H3 & H4 & H5).
    destruct (add_nodes_from l d) as [[N A nb pa ch] r]. cbn in *. subst. split; [|done].
    destruct H as [Ho Hp Hc]. split; [|done|done]. intros x y Hxy%Ho. cbn. set_solver.
  - destruct (add_arc_core o i j chk d H) as (? & ? & _). done.
  - destruct (remove_arc_core i j ign d H) as (? & _ & -> & _). split; [done|]. intros _. apply acyclic_mono. set_solver.
  - destruct (remove_arcs_core l ign d H) as (? & _ & Hsub). split; [done|]. intros _. by apply acyclic_mono.
  - unfold reverse_arc, mthen, mbind'. destruct (remove_arc_core i j ign d H) as (H1 & _ & H2 & _). cbn zeta in *.
    assert (acyclic (d_arcs d) → acyclic (d_arcs (remove_arc i j ign d).1)) as Hac.
    { rewrite H2. apply acyclic_mono. set_solver. }
    destruct (remove_arc i j ign d) as [d1 [[]|e]]; cbn in *; [|done].
    destruct (add_arc_core o j i chk d1 H1) as (? & ? & _). split; [done|]. auto.
Qed.

Lemma run_core h d :
  cwf d → Forall simple_call h →
  cwf (run h d) ∧ (Forall checked h → acyclic (d_arcs d) → acyclic (d_arcs (run h d))).
Proof.
  revert d. induction h as [|c h IH]; intros d H Hs; [done|]. apply Forall_cons in Hs as [Hs Hss].
  destruct (exec_core c d H Hs) as [H1 H2]. destruct (IH (exec c d).1 H1 Hss) as [H3 H4]. cbn.
  split; [done|]. intros [Hck Hcks]%Forall_cons. auto.
Qed.
