(** Effect of the [AncestralGraph] mutators on consistent states. *)
From Verif Require Import Py Spec SpecMixed DagModel UGraphModel AncestralModel TopoProofs StateProofs UGraphProofs PdagProofs AncestralState.

(** ** Order *)

(** The directed part as a [DAG] object. *)
Definition dview (g : ag) : dag :=
  Dag (g_nodes g) (g_dir g) (set_to_map (λ n : node, (n, g_parents g n ∪ g_children g n)) (g_nodes g)) (g_par g) (g_chi g).

Lemma dview_nbrs g n : gok g → nbrs (dview g) n = g_parents g n ∪ g_children g n.
Proof.
  intros H. unfold nbrs, dview, dget. cbn.
  match goal with |- default _ (?m !! n) = _ => destruct (m !! n) as [X|] eqn:E end; cbn.
  - apply lookup_set_to_map in E; [|by intros]. destruct E as (y & _ & [= -> ->]). done.
  - destruct (decide (n ∈ g_nodes g)) as [Hn|Hn].
    + assert ((set_to_map (λ n : node, (n, g_parents g n ∪ g_children g n)) (g_nodes g) : dmap) !! n = Some (g_parents g n ∪ g_children g n)) as E'.
      { apply lookup_set_to_map; [by intros|]. by exists n. }
      congruence.
    + symmetry. apply set_eq. intros x. rewrite elem_of_union, (gok_par _ H), (gok_chi _ H).
      split; [intros [Hx|Hx]; apply (gok_dirN _ H) in Hx; tauto|]. intros Hx. by apply not_elem_of_empty in Hx.
Qed.
Lemma dview_wf g : gok g → wf (dview g).
Proof.
  intros H. split.
  - apply (gok_dirN _ H).
  - apply (gok_par _ H).
  - apply (gok_chi _ H).
  - intros i j. rewrite dview_nbrs by done. rewrite elem_of_union, (gok_par _ H), (gok_chi _ H). unfold adjacent. cbn. tauto.
Qed.

Section topo.
  Variables (g : ag) (o : oracle).
  Hypothesis Hok : gok g.
  Local Notation R := (rtc (edge (g_dir g))).

  Definition msim (r : res tstate) (r' : res tstate) (st : tstate) : Prop :=
    match r with
    | Ok st' => r' = Ok st' ∧ t_cur st' ⊆ t_cur st
    | Raise SpouseError => ∃ x y, spouse (gmix g) x y ∧ R x y
    | Raise (CycleError w) => w = [] ∧ ∃ w', r' = Raise (CycleError w')
    | Raise e => r' = Raise e
    end.

  Lemma spouse_loop l n st :
    (∀ x, x ∈ t_cur st → R x n) → (∀ s, s ∈ l → s ∈ g_spouses g n) →
    match loopR (λ s st, if decide (s ∈ g_nodes g) then if decide (s ∈ t_cur st) then Raise SpouseError else Ok st
                         else Raise KeyError) l st with
    | Ok st' => st' = st
    | Raise e => e = SpouseError ∧ ∃ x y, spouse (gmix g) x y ∧ R x y
    end.
  Proof.
    intros Hcur. induction l as [|s l IH]; intros Hl; cbn [loopR]; [done|].
    assert (upair n s ∈ g_bi g) as Hs by (apply (gok_spo _ Hok), Hl; left).
    rewrite decide_True by (by apply (over_upair _ _ _ _ (gok_biN _ Hok)) in Hs as [_ ?]).
    destruct (decide (s ∈ t_cur st)) as [Hc|Hc].
    - split; [done|]. exists s, n. split; [|by apply Hcur]. rewrite spouse_upair by done. by rewrite upair_comm.
    - apply IH. intros x Hx. apply Hl. by right.
  Qed.

  Lemma g_mark_sim fuel n st :
    (∀ x, x ∈ t_cur st → R x n) → msim (g_mark g o fuel n st) (mark_children_visited (dview g) o fuel n st) st.
  Proof.
    revert n st. induction fuel as [|fuel IH]; intros n st Hcur; cbn [g_mark mark_children_visited]; [done|].
    set (st1 := TState _ _ _ _).
    change (children (dview g) n) with (g_children g n). change (d_nodes (dview g)) with (g_nodes g).
    match goal with |- context [loopR ?f (on o [1; n] _) st1] => set (body := f) end.
    match goal with |- context [match loopR ?f (on o [1; n] _) st1 with _ => _ end] => set (body' := f) end.
    assert (∀ l s, (∀ c, c ∈ l → (n, c) ∈ g_dir g) → (∀ x, x ∈ t_cur s → R x n) →
              msim (loopR body l s) (loopR body' l s) s) as Hloop.
    { clear st1. induction l as [|c l IHl]; intros s Hl Hs; cbn [loopR]; [split; done|].
      assert (msim (body c s) (body' c s) s) as Hc.
      { unfold body, body'. destruct (decide (c ∈ g_nodes g)); [|done].
        destruct (decide (c ∈ t_any s)); [destruct (decide (c ∈ t_cur s))|].
        - split; [done|]. by eexists.
        - done.
        - apply IH. intros x Hx. eapply rtc_r; [by apply Hs|]. apply Hl. left. }
      destruct (body c s) as [s'|e] eqn:E.
      - destruct Hc as [-> Hsub].
        specialize (IHl s'). feed pose proof IHl as IH'.
        { intros c' Hc'. apply Hl. by right. } { intros x Hx. apply Hs. by apply Hsub. }
        unfold msim in IH' |- *. destruct (loopR body l s') as [s''|[]]; try done. destruct IH' as [-> ?]. split; [done|].
        set_solver.
      - destruct e; cbn in Hc |- *; try (by rewrite Hc); [|done]. destruct Hc as [-> [w ->]]. split; [done|]. by eexists. }
    specialize (Hloop (on o [1; n] (g_children g n)) st1). feed pose proof Hloop as H1.
    { intros c Hc%elem_of_on. by apply (gok_chi _ Hok). }
    { intros x. unfold st1. cbn. intros [->%elem_of_singleton|Hx]%elem_of_union; [done|by apply Hcur]. }
    clear Hloop. destruct (loopR body (on o [1; n] (g_children g n)) st1) as [st2|e]; cbn [res_bind].
    - destruct H1 as [-> Hsub].
      pose proof (spouse_loop (on o [84; n] (g_spouses g n)) n st2) as H2. feed specialize H2.
      { intros x Hx%Hsub. unfold st1 in Hx. cbn in Hx.
        apply elem_of_union in Hx as [->%elem_of_singleton|Hx]; [done|by apply Hcur]. }
      { intros s Hs%elem_of_on. done. }
      destruct (loopR _ _ st2) as [st3|e]; cbn [res_bind].
      + subst st3. split; [done|]. cbn. unfold st1 in Hsub. cbn in Hsub. set_solver.
      + destruct H2 as [-> ?]. done.
    - destruct e; cbn in H1 |- *; try (by rewrite H1); [|done]. destruct H1 as [-> [w ->]]. split; [done|]. by eexists.
  Qed.

  Lemma g_topological_sort_spec :
    match g_topological_sort g o with
    | Ok l => topo_order (g_nodes g) (g_dir g) l ∧ topological_sort (dview g) o = Ok l
    | Raise e => (e = CycleError [] ∧ ¬ acyclic (g_dir g)) ∨
                 (e = SpouseError ∧ ∃ x y, spouse (gmix g) x y ∧ R x y)
    end.
  Proof.
    pose proof (topological_sort_spec (dview g) o (dview_wf g Hok)) as Hd.
    unfold g_topological_sort. unfold topological_sort in *. change (d_nodes (dview g)) with (g_nodes g) in *.
    match goal with |- context [res_bind (loopR ?f _ ?s0) _] => set (body := f); set (st0 := s0) in * end.
    match type of Hd with context [match loopR ?f _ _ with _ => _ end] => set (body' := f) in * end.
    assert (∀ l s, t_cur s = ∅ → msim (loopR body l s) (loopR body' l s) s) as Hloop.
    { induction l as [|c l IHl]; intros s Hs; cbn [loopR]; [split; done|].
      assert (msim (body c s) (body' c s) s) as Hc.
      { unfold body, body'. destruct (decide (c ∈ t_any s)); [done|]. apply g_mark_sim. rewrite Hs. set_solver. }
      destruct (body c s) as [s'|e] eqn:E.
      - destruct Hc as [-> Hsub]. specialize (IHl s'). feed pose proof IHl as IH'; [set_solver|].
        unfold msim in IH' |- *. destruct (loopR body l s') as [s''|[]]; try done. destruct IH' as [-> ?]. split; [done|].
        set_solver.
      - destruct e; cbn in Hc |- *; try (by rewrite Hc); [|done]. destruct Hc as [-> [w ->]]. split; [done|]. by eexists. }
    specialize (Hloop (on o [0] (g_nodes g)) st0 eq_refl).
    destruct (loopR body (on o [0] (g_nodes g)) st0) as [st|e]; cbn [res_bind].
    - destruct Hloop as [E _]. rewrite E in Hd |- *. done.
    - unfold msim in Hloop.
      destruct (loopR body' (on o [0] (g_nodes g)) st0) as [st'|e'] eqn:E.
      { destruct e; try (by discriminate Hloop).
        - by destruct Hloop as [_ [w ?]].
        - right. by split. }
      destruct Hd as (w & -> & Hw). apply closes_cycle_not_acyclic in Hw. cbn in Hw.
      destruct e; try (by discriminate Hloop).
      + destruct Hloop as [-> _]. by left.
      + right. by split.
  Qed.
End topo.

Lemma check_ancestral_spec o g : gok g →
  check_ancestral o g = (g, Ok tt) ∧ acyclic (g_dir g) ∨
  check_ancestral o g = (g, Raise (CycleError [])) ∧ ¬ acyclic (g_dir g) ∨
  check_ancestral o g = (g, Raise SpouseError) ∧ ∃ x y, spouse (gmix g) x y ∧ rtc (edge (g_dir g)) x y.
Proof.
  intros H. unfold check_ancestral. pose proof (g_topological_sort_spec g o H) as Ht.
  destruct (g_topological_sort g o) as [l|e].
  - left. split; [done|]. eapply topo_order_acyclic; [apply (gok_dirN _ H)|apply Ht].
  - right. destruct Ht as [[-> ?]|[-> ?]]; [by left|by right].
Qed.

(** ** Insertion *)
Lemma adj_sym g i j : gok g → i ∈ g_adjacent g j ↔ j ∈ g_adjacent g i.
Proof. intros H. rewrite !(gok_adj _ H), (upair_comm i j). tauto. Qed.

Lemma add_directed_raw_spec i j g :
  gok g → i ≠ j →
  (add_directed_raw i j g = (g, Ok tt) ∧ (i, j) ∈ g_dir g) ∨
  (add_directed_raw i j g = (g, Raise NeighborError) ∧ (i, j) ∉ g_dir g ∧ g_neighbors g j ≠ ∅) ∨
  (add_directed_raw i j g = (g, Raise AdjacentError) ∧ (i, j) ∉ g_dir g ∧ j ∈ g_adjacent g i) ∨
  (add_directed_raw i j g = (link_directed i j g, Ok tt) ∧ (i, j) ∉ g_dir g ∧ j ∉ g_adjacent g i ∧ gok (link_directed i j g)).
Proof.
  intros H Hij. unfold add_directed_raw, has_directed.
  destruct (bool_decide_reflect ((i, j) ∈ g_dir g)) as [Hd|Hd]; [by left|right].
  destruct (decide (g_neighbors g j ≠ ∅)) as [Hn|Hn]; [by left|right]. apply dec_stable in Hn.
  destruct (decide (i ∈ g_adjacent g j)) as [Ha|Ha]; rewrite adj_sym in Ha by done; [by left|right].
  do 3 (split; [done|]). by apply link_directed_ok.
Qed.
Lemma add_bidirected_raw_spec i j g :
  gok g → i ≠ j →
  (add_bidirected_raw i j g = (g, Ok tt) ∧ upair i j ∈ g_bi g) ∨
  (add_bidirected_raw i j g = (g, Raise NeighborError) ∧ upair i j ∉ g_bi g ∧ (g_neighbors g i ≠ ∅ ∨ g_neighbors g j ≠ ∅)) ∨
  (add_bidirected_raw i j g = (g, Raise AdjacentError) ∧ upair i j ∉ g_bi g ∧ j ∈ g_adjacent g i) ∨
  (add_bidirected_raw i j g = (link_bidirected i j g, Ok tt) ∧ upair i j ∉ g_bi g ∧ j ∉ g_adjacent g i ∧ gok (link_bidirected i j g)).
Proof.
  intros H Hij. unfold add_bidirected_raw, has_bidirected.
  destruct (bool_decide_reflect (upair i j ∈ g_bi g)) as [Hd|Hd]; [by left|right].
  destruct (decide (g_neighbors g i ≠ ∅)) as [Hn|Hn]; [naive_solver|]. apply dec_stable in Hn.
  destruct (decide (g_neighbors g j ≠ ∅)) as [Hn'|Hn']; [naive_solver|right]. apply dec_stable in Hn'.
  destruct (decide (i ∈ g_adjacent g j)) as [Ha|Ha]; rewrite adj_sym in Ha by done; [by left|right].
  do 3 (split; [done|]). by apply link_bidirected_ok.
Qed.
Lemma add_undirected_raw_spec i j g :
  gok g → i ≠ j →
  (add_undirected_raw i j g = (g, Ok tt) ∧ upair i j ∈ g_un g) ∨
  (add_undirected_raw i j g = (g, Raise NeighborError) ∧ upair i j ∉ g_un g ∧
     (g_parents g i ∪ g_spouses g i ∪ g_parents g j ∪ g_spouses g j ≠ ∅)) ∨
  (add_undirected_raw i j g = (g, Raise AdjacentError) ∧ upair i j ∉ g_un g ∧ j ∈ g_adjacent g i) ∨
  (add_undirected_raw i j g = (link_undirected i j g, Ok tt) ∧ upair i j ∉ g_un g ∧ j ∉ g_adjacent g i ∧ gok (link_undirected i j g)).
Proof.
  intros H Hij. unfold add_undirected_raw, has_undirected.
  destruct (bool_decide_reflect (upair i j ∈ g_un g)) as [Hd|Hd]; [by left|right].
  assert (∀ X Y : nset, X ≠ ∅ → X ⊆ Y → Y ≠ ∅) as Hne by set_solver.
  destruct (decide (g_parents g i ≠ ∅)) as [Hn1|Hn1].
  { left. do 2 (split; [done|]). eapply Hne; [exact Hn1|]. clear. set_solver. }
  destruct (decide (g_spouses g i ≠ ∅)) as [Hn2|Hn2].
  { left. do 2 (split; [done|]). eapply Hne; [exact Hn2|]. clear. set_solver. }
  destruct (decide (g_parents g j ≠ ∅)) as [Hn3|Hn3].
  { left. do 2 (split; [done|]). eapply Hne; [exact Hn3|]. clear. set_solver. }
  destruct (decide (g_spouses g j ≠ ∅)) as [Hn4|Hn4].
  { left. do 2 (split; [done|]). eapply Hne; [exact Hn4|]. clear. set_solver. }
  apply dec_stable in Hn1, Hn2, Hn3, Hn4. right.
  destruct (decide (i ∈ g_adjacent g j)) as [Ha|Ha]; rewrite adj_sym in Ha by done; [by left|right].
  do 3 (split; [done|]). by apply link_undirected_ok.
Qed.

(** What a call changed, in terms of the four stored sets. *)
Definition stored (g : ag) (N : nset) (D B U : arcset) : Prop :=
  g_nodes g = N ∧ g_dir g = D ∧ g_bi g = B ∧ g_un g = U.

Lemma add_directed_spec o i j g :
  gok g → i ≠ j →
  let r := add_directed o i j g in
  let D' := {[(i, j)]} ∪ g_dir g in
  gok r.1 ∧
  match r.2 with
  | Ok _ => stored r.1 ({[i; j]} ∪ g_nodes g) D' (g_bi g) (g_un g) ∧ acyclic D'
  | Raise NeighborError => r.1 = g ∧ (i, j) ∉ g_dir g ∧ g_neighbors g j ≠ ∅
  | Raise AdjacentError => r.1 = g ∧ (i, j) ∉ g_dir g ∧ j ∈ g_adjacent g i
  | Raise (CycleError _) => stored r.1 ({[i; j]} ∪ g_nodes g) (g_dir g ∖ {[(i, j)]}) (g_bi g) (g_un g) ∧ ¬ acyclic D'
  | Raise SpouseError => stored r.1 ({[i; j]} ∪ g_nodes g) D' (g_bi g) (g_un g) ∧
      ∃ x y, spouse (gmix r.1) x y ∧ rtc (edge D') x y
  | Raise _ => False
  end.
Proof.
  intros H Hij. cbn zeta. unfold add_directed, mthen, mbind'.
  assert (∀ g1, gok g1 → stored g1 ({[i; j]} ∪ g_nodes g) ({[(i, j)]} ∪ g_dir g) (g_bi g) (g_un g) →
    let r := on_cycle_error (check_ancestral o) (remove_directed i j false) g1 in
    gok r.1 ∧
    match r.2 with
    | Ok _ => stored r.1 ({[i; j]} ∪ g_nodes g) ({[(i, j)]} ∪ g_dir g) (g_bi g) (g_un g) ∧ acyclic ({[(i, j)]} ∪ g_dir g)
    | Raise (CycleError _) => stored r.1 ({[i; j]} ∪ g_nodes g) (g_dir g ∖ {[(i, j)]}) (g_bi g) (g_un g) ∧ ¬ acyclic ({[(i, j)]} ∪ g_dir g)
    | Raise SpouseError => stored r.1 ({[i; j]} ∪ g_nodes g) ({[(i, j)]} ∪ g_dir g) (g_bi g) (g_un g) ∧
        ∃ x y, spouse (gmix r.1) x y ∧ rtc (edge ({[(i, j)]} ∪ g_dir g)) x y
    | Raise _ => False
    end) as Hmain.
  { intros g1 H1 Hst. cbn zeta. pose proof Hst as (HN & HD & HB & HU). unfold on_cycle_error, mcatch.
    destruct (check_ancestral_spec o g1 H1) as [[-> Hac]|[[-> Hac]|[-> Hsp]]]; cbn -[remove_directed].
    - rewrite <-HD at 2. done.
    - assert ((i, j) ∈ g_dir g1) as Hin by (rewrite HD; set_solver).
      unfold mthen, mbind'. rewrite (remove_directed_present i j false g1 H1 Hin). cbn. split; [by apply cut_directed_ok|].
      split; [|by rewrite <-HD]. unfold stored. cbn. rewrite HD. split_and!; [done| |done|done]. clear. set_solver.
    - split; [done|]. split; [done|]. rewrite <-HD. done. }
  destruct (add_directed_raw_spec i j g H Hij) as [[-> Hin]|[[-> Hn]|[[-> Hn]|[-> (Hn & Ha & Hg)]]]].
  - assert (stored g ({[i; j]} ∪ g_nodes g) ({[(i, j)]} ∪ g_dir g) (g_bi g) (g_un g)) as Hst.
    { pose proof (gok_dirN _ H _ _ Hin). unfold stored. split_and!; [| |done|done]; set_solver. }
    specialize (Hmain g H Hst). cbn zeta in Hmain. destruct (on_cycle_error _ _ g) as [g2 [a|[]]]; cbn in *; tauto.
  - cbn. done.
  - cbn. done.
  - assert (stored (link_directed i j g) ({[i; j]} ∪ g_nodes g) ({[(i, j)]} ∪ g_dir g) (g_bi g) (g_un g)) as Hst.
    { unfold stored. cbn. split_and!; [set_solver|done|done|done]. }
    specialize (Hmain _ Hg Hst). cbn zeta in Hmain. destruct (on_cycle_error _ _ (link_directed i j g)) as [g2 [a|[]]]; cbn in *; tauto.
Qed.

Lemma add_bidirected_spec i j g :
  gok g → i ≠ j →
  let r := add_bidirected i j g in
  gok r.1 ∧
  match r.2 with
  | Ok _ => stored r.1 ({[i; j]} ∪ g_nodes g) (g_dir g) ({[upair i j]} ∪ g_bi g) (g_un g)
  | Raise NeighborError => r.1 = g ∧ upair i j ∉ g_bi g ∧ (g_neighbors g i ≠ ∅ ∨ g_neighbors g j ≠ ∅)
  | Raise AdjacentError => r.1 = g ∧ upair i j ∉ g_bi g ∧ j ∈ g_adjacent g i
  | Raise _ => False
  end.
Proof.
  intros H Hij. cbn zeta. unfold add_bidirected, mthen, mbind'.
  assert (∀ g1, upair i j ∈ g_bi g1 →
    on_cycle_error (add_bidirected_raw i j) (remove_bidirected i j false) g1 = (g1, Ok tt)) as Hmain.
  { intros g1 Hin. unfold on_cycle_error, mcatch, add_bidirected_raw, has_bidirected. by rewrite bool_decide_eq_true_2. }
  destruct (add_bidirected_raw_spec i j g H Hij) as [[-> Hin]|[[-> Hn]|[[-> Hn]|[-> (Hn & Ha & Hg)]]]].
  - rewrite Hmain by done. cbn. split; [done|]. pose proof (over_upair _ _ _ _ (gok_biN _ H) Hin).
    unfold stored. split_and!; [|done| |done]; set_solver.
  - cbn. done.
  - cbn. done.
  - rewrite Hmain by (cbn; set_solver). cbn. split; [done|]. unfold stored. cbn. split_and!; [set_solver|done|done|done].
Qed.

Lemma add_undirected_spec i j g :
  gok g → i ≠ j →
  let r := add_undirected i j g in
  gok r.1 ∧
  match r.2 with
  | Ok _ => stored r.1 ({[i; j]} ∪ g_nodes g) (g_dir g) (g_bi g) ({[upair i j]} ∪ g_un g)
  | Raise NeighborError => r.1 = g ∧ upair i j ∉ g_un g ∧
      g_parents g i ∪ g_spouses g i ∪ g_parents g j ∪ g_spouses g j ≠ ∅
  | Raise AdjacentError => r.1 = g ∧ upair i j ∉ g_un g ∧ j ∈ g_adjacent g i
  | Raise _ => False
  end.
Proof.
  intros H Hij. cbn zeta. unfold add_undirected.
  destruct (add_undirected_raw_spec i j g H Hij) as [[-> Hin]|[[-> Hn]|[[-> Hn]|[-> (Hn & Ha & Hg)]]]].
  - cbn. split; [done|]. pose proof (over_upair _ _ _ _ (gok_unN _ H) Hin).
    unfold stored. split_and!; [|done|done|]; set_solver.
  - cbn. done.
  - cbn. done.
  - cbn. split; [done|]. unfold stored. cbn. split_and!; [set_solver|done|done|done].
Qed.

(** ** Removal of a node *)
Lemma elem_cons_decide {A} (p x : node) (l : list node) (a b : A) : p ∉ l →
  (if decide (x ∈ p :: l) then a else b) =
  (if decide (x ∈ l) then if decide (p = x) then b else a else if decide (p = x) then a else b).
Proof.
  intros Hp. destruct (decide (p = x)) as [->|Hpx].
  - rewrite (decide_False (P := x ∈ l)) by done. rewrite decide_True by left. done.
  - destruct (decide (x ∈ l)); [rewrite decide_True by (by right); done|].
    rewrite decide_False; [done|]. intros [->|]%elem_of_cons; done.
Qed.

Definition minus_at (l : list node) (n : node) (f f' : node → nset) : Prop :=
  ∀ x, f' x = if decide (x ∈ l) then f x ∖ {[n]} else f x.
Lemma minus_at_nil n f : minus_at [] n f f.
Proof. intros x. by rewrite decide_False by set_solver. Qed.
Lemma minus_at_cons p l n f f1 f2 : p ∉ l →
  (∀ x, f1 x = if decide (p = x) then f x ∖ {[n]} else f x) → minus_at l n f1 f2 → minus_at (p :: l) n f f2.
Proof.
  intros Hp H1 H2 x. rewrite H2, !H1. rewrite elem_cons_decide by done.
  destruct (decide (p = x)) as [->|]; [|done]. by rewrite !(decide_False (P := x ∈ l)) by done.
Qed.

Lemma gparents_loop n l g :
  NoDup l → (∀ p, p ∈ l → n ∈ g_children g p ∧ n ∈ g_adjacent g p ∧ (p, n) ∈ g_dir g) →
  ∃ g', mfor l (λ p, chi_remove' p n ;;; adj_remove p n ;;; dir_remove p n) g = (g', Ok tt) ∧
    g_nodes g' = g_nodes g ∧ (∀ x y, (x, y) ∈ g_dir g' ↔ (x, y) ∈ g_dir g ∧ ¬ (x ∈ l ∧ y = n)) ∧
    g_bi g' = g_bi g ∧ g_un g' = g_un g ∧ g_nei g' = g_nei g ∧ g_spo g' = g_spo g ∧ g_par g' = g_par g ∧
    minus_at l n (g_children g) (g_children g') ∧ minus_at l n (g_adjacent g) (g_adjacent g') ∧
    (g_adj g' !! n = None → g_adj g !! n = None).
Proof.
  revert g. induction l as [|p l IH]; intros g Hnd Hl.
  { exists g. cbn. split_and!; try done; try apply minus_at_nil. intros x y. set_solver. }
  apply NoDup_cons in Hnd as [Hp Hnd]. destruct (Hl p) as (Hc & Ha & Hd); [left|].
  cbn [mfor]. unfold mthen, mbind' in *. unfold chi_remove' at 1. rewrite decide_True by done. cbn.
  unfold adj_remove at 1. rewrite decide_True by done. cbn. unfold dir_remove at 1. rewrite decide_True by done. cbn.
  set (g1 := Ag _ _ _ _ _ _ _ _ _).
  assert (∀ x, g_children g1 x = if decide (p = x) then g_children g x ∖ {[n]} else g_children g x) as Hc1.
  { intros x. unfold g_children at 1. cbn. by rewrite dget_ddel. }
  assert (∀ x, g_adjacent g1 x = if decide (p = x) then g_adjacent g x ∖ {[n]} else g_adjacent g x) as Ha1.
  { intros x. unfold g_adjacent at 1. cbn. by rewrite dget_ddel. }
  destruct (IH g1 Hnd) as (g' & Hg' & HN & HD & HB & HU & Hnei & Hspo & Hpar & HC & HA & HK).
  { intros q Hq. assert (p ≠ q) by (intros ->; done). rewrite Hc1, Ha1, !decide_False by done.
    destruct (Hl q) as (? & ? & ?); [by right|]. split; [done|]. split; [done|]. cbn. set_solver. }
  exists g'. split; [exact Hg'|]. split_and!; try done.
  - intros x y. rewrite HD. cbn. rewrite elem_of_difference, elem_of_singleton, elem_of_cons. clear. naive_solver.
  - by eapply minus_at_cons.
  - by eapply minus_at_cons.
  - intros HK'. apply HK in HK'. cbn in HK'. unfold ddel in HK'. by apply lookup_insert_None in HK' as [? _].
Qed.

Lemma gchildren_loop n l g :
  NoDup l → (∀ p, p ∈ l → n ∈ g_parents g p ∧ n ∈ g_adjacent g p ∧ (n, p) ∈ g_dir g) →
  ∃ g', mfor l (λ p, par_remove' p n ;;; adj_remove p n ;;; dir_remove n p) g = (g', Ok tt) ∧
    g_nodes g' = g_nodes g ∧ (∀ x y, (x, y) ∈ g_dir g' ↔ (x, y) ∈ g_dir g ∧ ¬ (x = n ∧ y ∈ l)) ∧
    g_bi g' = g_bi g ∧ g_un g' = g_un g ∧ g_nei g' = g_nei g ∧ g_spo g' = g_spo g ∧ g_chi g' = g_chi g ∧
    minus_at l n (g_parents g) (g_parents g') ∧ minus_at l n (g_adjacent g) (g_adjacent g') ∧
    (g_adj g' !! n = None → g_adj g !! n = None).
Proof.
  revert g. induction l as [|p l IH]; intros g Hnd Hl.
  { exists g. cbn. split_and!; try done; try apply minus_at_nil. intros x y. set_solver. }
  apply NoDup_cons in Hnd as [Hp Hnd]. destruct (Hl p) as (Hc & Ha & Hd); [left|].
  cbn [mfor]. unfold mthen, mbind' in *. unfold par_remove' at 1. rewrite decide_True by done. cbn.
  unfold adj_remove at 1. rewrite decide_True by done. cbn. unfold dir_remove at 1. rewrite decide_True by done. cbn.
  set (g1 := Ag _ _ _ _ _ _ _ _ _).
  assert (∀ x, g_parents g1 x = if decide (p = x) then g_parents g x ∖ {[n]} else g_parents g x) as Hc1.
  { intros x. unfold g_parents at 1. cbn. by rewrite dget_ddel. }
  assert (∀ x, g_adjacent g1 x = if decide (p = x) then g_adjacent g x ∖ {[n]} else g_adjacent g x) as Ha1.
  { intros x. unfold g_adjacent at 1. cbn. by rewrite dget_ddel. }
  destruct (IH g1 Hnd) as (g' & Hg' & HN & HD & HB & HU & Hnei & Hspo & Hpar & HC & HA & HK).
  { intros q Hq. assert (p ≠ q) by (intros ->; done). rewrite Hc1, Ha1, !decide_False by done.
    destruct (Hl q) as (? & ? & ?); [by right|]. split; [done|]. split; [done|]. cbn. set_solver. }
  exists g'. split; [exact Hg'|]. split_and!; try done.
  - intros x y. rewrite HD. cbn. rewrite elem_of_difference, elem_of_singleton, elem_of_cons. clear. naive_solver.
  - by eapply minus_at_cons.
  - by eapply minus_at_cons.
  - intros HK'. apply HK in HK'. cbn in HK'. unfold ddel in HK'. by apply lookup_insert_None in HK' as [? _].
Qed.

Lemma gspouses_loop n l g :
  NoDup l → (∀ p, p ∈ l → p ≠ n ∧ n ∈ g_spouses g p ∧ n ∈ g_adjacent g p ∧ upair p n ∈ g_bi g) →
  ∃ g', mfor l (λ s, spo_remove s n ;;; adj_remove s n ;;; bi_remove s n ;;;
              (if decide (s = n) then mraise RuntimeError else mret tt)) g = (g', Ok tt) ∧
    g_nodes g' = g_nodes g ∧ g_dir g' = g_dir g ∧
    (∀ e, e ∈ g_bi g' ↔ e ∈ g_bi g ∧ ¬ (∃ s, s ∈ l ∧ e = upair s n)) ∧ g_un g' = g_un g ∧
    g_nei g' = g_nei g ∧ g_par g' = g_par g ∧ g_chi g' = g_chi g ∧
    minus_at l n (g_spouses g) (g_spouses g') ∧ minus_at l n (g_adjacent g) (g_adjacent g') ∧
    (g_adj g' !! n = None → g_adj g !! n = None).
Proof.
  revert g. induction l as [|p l IH]; intros g Hnd Hl.
  { exists g. cbn. split_and!; try done; try apply minus_at_nil. intros e. set_solver. }
  apply NoDup_cons in Hnd as [Hp Hnd]. destruct (Hl p) as (Hpn & Hc & Ha & Hd); [left|].
  cbn [mfor]. unfold mthen, mbind' in *. unfold spo_remove at 1. rewrite decide_True by done. cbn.
  unfold adj_remove at 1. rewrite decide_True by done. cbn. unfold bi_remove at 1. rewrite decide_True by done. cbn.
  rewrite decide_False by done. cbn.
  set (g1 := Ag _ _ _ _ _ _ _ _ _).
  assert (∀ x, g_spouses g1 x = if decide (p = x) then g_spouses g x ∖ {[n]} else g_spouses g x) as Hc1.
  { intros x. unfold g_spouses at 1. cbn. by rewrite dget_ddel. }
  assert (∀ x, g_adjacent g1 x = if decide (p = x) then g_adjacent g x ∖ {[n]} else g_adjacent g x) as Ha1.
  { intros x. unfold g_adjacent at 1. cbn. by rewrite dget_ddel. }
  destruct (IH g1 Hnd) as (g' & Hg' & HN & HD & HB & HU & Hnei & Hspo & Hpar & HC & HA & HK).
  { intros q Hq. assert (p ≠ q) by (intros ->; done). rewrite Hc1, Ha1, !decide_False by done.
    destruct (Hl q) as (? & ? & ? & ?); [by right|]. split_and!; [done..|]. cbn.
    rewrite elem_of_difference, elem_of_singleton, upair_eq_or. naive_solver. }
  exists g'. split; [exact Hg'|]. split_and!; try done.
  - intros e. rewrite HB. cbn. rewrite elem_of_difference, elem_of_singleton. setoid_rewrite elem_of_cons. clear. naive_solver.
  - by eapply minus_at_cons.
  - by eapply minus_at_cons.
  - intros HK'. apply HK in HK'. cbn in HK'. unfold ddel in HK'. by apply lookup_insert_None in HK' as [? _].
Qed.

Lemma gneighbors_loop n l g :
  NoDup l → (∀ p, p ∈ l → p ≠ n ∧ n ∈ g_neighbors g p ∧ n ∈ g_adjacent g p ∧ upair p n ∈ g_un g) →
  ∃ g', mfor l (λ s, nei_remove s n ;;; adj_remove s n ;;; un_remove s n ;;;
              (if decide (s = n) then mraise RuntimeError else mret tt)) g = (g', Ok tt) ∧
    g_nodes g' = g_nodes g ∧ g_dir g' = g_dir g ∧ g_bi g' = g_bi g ∧
    (∀ e, e ∈ g_un g' ↔ e ∈ g_un g ∧ ¬ (∃ s, s ∈ l ∧ e = upair s n)) ∧
    g_spo g' = g_spo g ∧ g_par g' = g_par g ∧ g_chi g' = g_chi g ∧
    minus_at l n (g_neighbors g) (g_neighbors g') ∧ minus_at l n (g_adjacent g) (g_adjacent g') ∧
    (g_adj g' !! n = None → g_adj g !! n = None).
Proof.
  revert g. induction l as [|p l IH]; intros g Hnd Hl.
  { exists g. cbn. split_and!; try done; try apply minus_at_nil. intros e. set_solver. }
  apply NoDup_cons in Hnd as [Hp Hnd]. destruct (Hl p) as (Hpn & Hc & Ha & Hd); [left|].
  cbn [mfor]. unfold mthen, mbind' in *. unfold nei_remove at 1. rewrite decide_True by done. cbn.
  unfold adj_remove at 1. rewrite decide_True by done. cbn. unfold un_remove at 1. rewrite decide_True by done. cbn.
  rewrite decide_False by done. cbn.
  set (g1 := Ag _ _ _ _ _ _ _ _ _).
  assert (∀ x, g_neighbors g1 x = if decide (p = x) then g_neighbors g x ∖ {[n]} else g_neighbors g x) as Hc1.
  { intros x. unfold g_neighbors at 1. cbn. by rewrite dget_ddel. }
  assert (∀ x, g_adjacent g1 x = if decide (p = x) then g_adjacent g x ∖ {[n]} else g_adjacent g x) as Ha1.
  { intros x. unfold g_adjacent at 1. cbn. by rewrite dget_ddel. }
  destruct (IH g1 Hnd) as (g' & Hg' & HN & HD & HB & HU & Hnei & Hspo & Hpar & HC & HA & HK).
  { intros q Hq. assert (p ≠ q) by (intros ->; done). rewrite Hc1, Ha1, !decide_False by done.
    destruct (Hl q) as (? & ? & ? & ?); [by right|]. split_and!; [done..|]. cbn.
    rewrite elem_of_difference, elem_of_singleton, upair_eq_or. naive_solver. }
  exists g'. split; [exact Hg'|]. split_and!; try done.
  - intros e. rewrite HU. cbn. rewrite elem_of_difference, elem_of_singleton. setoid_rewrite elem_of_cons. clear. naive_solver.
  - by eapply minus_at_cons.
  - by eapply minus_at_cons.
  - intros HK'. apply HK in HK'. cbn in HK'. unfold ddel in HK'. by apply lookup_insert_None in HK' as [? _].
Qed.

Lemma g_remove_node_absent o n ign g :
  n ∉ g_nodes g → g_remove_node o n ign g = (g, if ign then Ok tt else Raise KeyError).
Proof.
  intros H. unfold g_remove_node, guard_keyerror, mcatch, mthen, mbind', g_nodes_remove.
  rewrite decide_False by done. by destruct ign.
Qed.

Definition off (n : node) (X : arcset) : arcset := filter (λ e : arc, e.1 ≠ n ∧ e.2 ≠ n) X.
Lemma elem_of_off n X x y : (x, y) ∈ off n X ↔ (x, y) ∈ X ∧ x ≠ n ∧ y ≠ n.
Proof. unfold off. rewrite elem_of_filter. cbn. tauto. Qed.
Lemma upair_off n X x y : upair x y ∈ off n X ↔ upair x y ∈ X ∧ x ≠ n ∧ y ≠ n.
Proof.
  unfold off. rewrite elem_of_filter. unfold upair. cbn.
  destruct (Nat.min_spec x y) as [[? ->]|[? ->]], (Nat.max_spec x y) as [[? ->]|[? ->]]; try tauto; lia.
Qed.

Lemma gok_sub g g' :
  gok g → over (g_nodes g') (g_dir g') → over (g_nodes g') (g_bi g') → over (g_nodes g') (g_un g') →
  g_dir g' ⊆ g_dir g → g_bi g' ⊆ g_bi g → g_un g' ⊆ g_un g →
  (∀ i j, i ∈ g_parents g' j ↔ (i, j) ∈ g_dir g') →
  (∀ i j, j ∈ g_children g' i ↔ (i, j) ∈ g_dir g') →
  (∀ i j, j ∈ g_spouses g' i ↔ upair i j ∈ g_bi g') →
  (∀ i j, j ∈ g_neighbors g' i ↔ upair i j ∈ g_un g') →
  (∀ i j, j ∈ g_adjacent g' i ↔ (i, j) ∈ g_dir g' ∨ (j, i) ∈ g_dir g' ∨ upair i j ∈ g_bi g' ∨ upair i j ∈ g_un g') →
  gok g'.
Proof.
  intros H HD HB HU SD SB SU Hp Hc Hs Hn Ha. split; try done.
  - intros x y Hx. by apply (gok_bilt _ H), SB.
  - intros x y Hx. by apply (gok_unlt _ H), SU.
  - intros i j Hx. destruct (gok_dir1 _ H i j (SD _ Hx)) as (? & ? & ? & ?). set_solver.
  - intros i j Hx. pose proof (gok_bi1 _ H i j (SB _ Hx)). set_solver.
  - intros i j k Hx. pose proof (gok_sepd _ H i j k (SD _ Hx)). set_solver.
  - intros i j k Hx. pose proof (gok_sepb _ H i j k (SB _ Hx)). set_solver.
Qed.

Lemma elem_minus_at l n f f' x y : minus_at l n f f' → y ∈ f' x ↔ y ∈ f x ∧ ¬ (x ∈ l ∧ y = n).
Proof. intros ->. destruct (decide (x ∈ l)); [rewrite elem_of_difference, elem_of_singleton|]; tauto. Qed.

Lemma g_remove_node_spec o n ign g :
  gok g →
  let r := g_remove_node o n ign g in
  gok r.1 ∧
  (if decide (n ∈ g_nodes g) then
     stored r.1 (g_nodes g ∖ {[n]}) (off n (g_dir g)) (off n (g_bi g)) (off n (g_un g)) ∧
     r.2 = match g_adj g !! n with Some _ => Ok tt | None => if ign then Ok tt else Raise KeyError end
   else r = (g, if ign then Ok tt else Raise KeyError)).
Proof.
  intros H. cbn zeta. destruct (decide (n ∈ g_nodes g)) as [Hn|Hn]; cycle 1.
  { rewrite g_remove_node_absent by done. done. }
  assert (∀ x y, (x, y) ∈ g_dir g → x ≠ y) as Hirr. { intros x y Hx. by apply (gok_dir1 _ H) in Hx as [? _]. }
  assert (∀ x, upair n x ∈ g_bi g → x ≠ n) as HirrB.
  { intros x Hx. apply upair_ne_lt in Hx; [done|apply (gok_bilt _ H)]. }
  assert (∀ x, upair n x ∈ g_un g → x ≠ n) as HirrU.
  { intros x Hx. apply upair_ne_lt in Hx; [done|apply (gok_unlt _ H)]. }
  set (g0 := Ag (g_nodes g ∖ {[n]}) (g_dir g) (g_bi g) (g_un g) (g_nei g) (g_spo g) (g_par g) (g_chi g) (g_adj g)).
  assert (g_nodes_remove n g = (g0, Ok tt)) as E0.
  { unfold g_nodes_remove. by rewrite decide_True by done. }
  (* parents *)
  set (l1 := on o [80] (g_parents g0 n)).
  assert (∀ x, x ∈ l1 ↔ (x, n) ∈ g_dir g) as L1. { intros x. unfold l1. rewrite elem_of_on. apply (gok_par _ H). }
  destruct (gparents_loop n l1 g0 (NoDup_on _ _ _)) as (g1 & E1 & N1 & D1 & B1 & U1 & nei1 & spo1 & par1 & C1 & A1 & K1).
  { intros p Hp%L1. split_and!; [|apply (gok_adj _ H); by left|done]. by apply (gok_chi _ H). }
  (* children *)
  set (l2 := on o [81] (g_children g1 n)).
  assert (∀ x, x ∈ l2 ↔ (n, x) ∈ g_dir g) as L2.
  { intros x. unfold l2. rewrite elem_of_on, (elem_minus_at _ _ _ _ _ _ C1), L1.
    change (g_children g0 n) with (g_children g n). rewrite (gok_chi _ H). split; [tauto|]. intros Hx. split; [done|].
    intros [Hx' _]. by apply Hirr in Hx'. }
  destruct (gchildren_loop n l2 g1 (NoDup_on _ _ _)) as (g2 & E2 & N2 & D2 & B2 & U2 & nei2 & spo2 & chi2 & P2 & A2 & K2).
  { intros p Hp%L2. split_and!.
    - unfold g_parents. rewrite par1. by apply (gok_par _ H).
    - rewrite (elem_minus_at _ _ _ _ _ _ A1), L1. split; [apply (gok_adj _ H); by right; left|].
      intros [Hx _]. by apply (gok_dir1 _ H) in Hx as (_ & ? & _).
    - rewrite D1. split; [done|]. intros [Hx%L1 _]. by apply Hirr in Hx. }
  (* spouses *)
  set (l3 := on o [82] (g_spouses g2 n)).
  assert (∀ x, g_spouses g2 x = g_spouses g x) as S2. { intros x. unfold g_spouses. by rewrite spo2, spo1. }
  assert (∀ x, x ∈ l3 ↔ upair n x ∈ g_bi g) as L3. { intros x. unfold l3. rewrite elem_of_on, S2. apply (gok_spo _ H). }
  destruct (gspouses_loop n l3 g2 (NoDup_on _ _ _)) as (g3 & E3 & N3 & D3 & B3 & U3 & nei3 & par3 & chi3 & S3 & A3 & K3).
  { intros p Hp%L3. pose proof Hp as Hp'. rewrite upair_comm in Hp'. split_and!.
    - by apply HirrB.
    - rewrite S2. by apply (gok_spo _ H).
    - rewrite (elem_minus_at _ _ _ _ _ _ A2), L2, (elem_minus_at _ _ _ _ _ _ A1), L1.
      split; [split|]; [apply (gok_adj _ H); tauto|..]; intros [Hx _]; apply (gok_dir1 _ H) in Hx as (_ & _ & ? & _); done.
    - by rewrite B2, B1. }
  (* neighbors *)
  set (l4 := on o [83] (g_neighbors g3 n)).
  assert (∀ x, g_neighbors g3 x = g_neighbors g x) as Ne3. { intros x. unfold g_neighbors. by rewrite nei3, nei2, nei1. }
  assert (∀ x, x ∈ l4 ↔ upair n x ∈ g_un g) as L4. { intros x. unfold l4. rewrite elem_of_on, Ne3. apply (gok_nei _ H). }
  destruct (gneighbors_loop n l4 g3 (NoDup_on _ _ _)) as (g4 & E4 & N4 & D4 & B4 & U4 & spo4 & par4 & chi4 & Ne4 & A4 & K4).
  { intros p Hp%L4. pose proof Hp as Hp'. rewrite upair_comm in Hp'. split_and!.
    - by apply HirrU.
    - rewrite Ne3. by apply (gok_nei _ H).
    - rewrite (elem_minus_at _ _ _ _ _ _ A3), L3, (elem_minus_at _ _ _ _ _ _ A2), L2, (elem_minus_at _ _ _ _ _ _ A1), L1.
      split; [split; [split|]|]; [apply (gok_adj _ H); tauto|..]; intros [Hx _].
      + apply (gok_dir1 _ H) in Hx as (_ & _ & _ & ?). done.
      + apply (gok_dir1 _ H) in Hx as (_ & _ & _ & ?). done.
      + apply (gok_bi1 _ H) in Hx. done.
    - by rewrite U3, U2, U1. }
  set (g5 := Ag (g_nodes g4) (g_dir g4) (g_bi g4) (g_un g4) (delete n (g_nei g4)) (delete n (g_spo g4))
                (delete n (g_par g4)) (delete n (g_chi g4)) (delete n (g_adj g4))).
  assert (Hst : stored g5 (g_nodes g ∖ {[n]}) (off n (g_dir g)) (off n (g_bi g)) (off n (g_un g))).
  { unfold stored, g5. cbn. split_and!.
    - by rewrite N4, N3, N2, N1.
    - apply set_eq. intros [x y]. rewrite elem_of_off, D4, D3, D2, D1, L1, L2.
      change (g_dir g0) with (g_dir g). pose proof (Hirr n n). clear. split; [|naive_solver]. intros [[Hx H1] H2].
      split; [done|]. split; intros ->; tauto.
    - apply set_eq. intros [x y]. rewrite elem_of_off, B4, B3, B2, B1. change (g_bi g0) with (g_bi g).
      setoid_rewrite L3. split.
      + intros [Hx Hs]. pose proof (gok_bilt _ H _ _ Hx) as Hlt. split; [done|].
        assert (upair x y = (x, y)) as Hu by (apply (upair_id (x, y)); done).
        split; intros ->; apply Hs.
        * exists y. rewrite (upair_comm y n), Hu. done.
        * exists x. rewrite (upair_comm n x), Hu. done.
      + intros (Hx & Hxn & Hyn). split; [done|]. intros (s & Hs & Hs').
        pose proof (gok_bilt _ H _ _ Hx) as Hlt. rewrite <-(upair_id (x, y)) in Hs' by done.
        apply upair_eq_or in Hs'. naive_solver.
    - apply set_eq. intros [x y]. rewrite elem_of_off, U4, U3, U2, U1. change (g_un g0) with (g_un g).
      setoid_rewrite L4. split.
      + intros [Hx Hs]. pose proof (gok_unlt _ H _ _ Hx) as Hlt. split; [done|].
        assert (upair x y = (x, y)) as Hu by (apply (upair_id (x, y)); done).
        split; intros ->; apply Hs.
        * exists y. rewrite (upair_comm y n), Hu. done.
        * exists x. rewrite (upair_comm n x), Hu. done.
      + intros (Hx & Hxn & Hyn). split; [done|]. intros (s & Hs & Hs').
        pose proof (gok_unlt _ H _ _ Hx) as Hlt. rewrite <-(upair_id (x, y)) in Hs' by done.
        apply upair_eq_or in Hs'. naive_solver. }
  assert (Hok : gok g5).
  { pose proof Hst as (HN & HD & HB & HU).
    apply (gok_sub g); [done|..].
    - rewrite HN, HD. intros x y (Hx & ? & ?)%elem_of_off. apply (gok_dirN _ H) in Hx. rewrite !elem_of_difference, !elem_of_singleton. tauto.
    - rewrite HN, HB. intros x y (Hx & ? & ?)%elem_of_off. apply (gok_biN _ H) in Hx. rewrite !elem_of_difference, !elem_of_singleton. tauto.
    - rewrite HN, HU. intros x y (Hx & ? & ?)%elem_of_off. apply (gok_unN _ H) in Hx. rewrite !elem_of_difference, !elem_of_singleton. tauto.
    - rewrite HD. intros [x y] (Hx & ? & ?)%elem_of_off. done.
    - rewrite HB. intros [x y] (Hx & ? & ?)%elem_of_off. done.
    - rewrite HU. intros [x y] (Hx & ? & ?)%elem_of_off. done.
    - intros x y. rewrite HD, elem_of_off. unfold g_parents, g5. cbn. rewrite dget_delete.
      destruct (decide (n = y)) as [<-|]; [clear; set_solver|].
      rewrite par4, par3. change (dget (g_par g2) y) with (g_parents g2 y). rewrite (elem_minus_at _ _ _ _ _ _ P2), L2.
      unfold g_parents at 1. rewrite par1. change (dget (g_par g0) y) with (g_parents g y). rewrite (gok_par _ H).
      split; [intros [? Hx]; split; [done|]; split; [|done]; intros ->; by apply Hx|]. intros (? & ? & ?). split; [done|]. tauto.
    - intros x y. rewrite HD, elem_of_off. unfold g_children, g5. cbn. rewrite dget_delete.
      destruct (decide (n = x)) as [<-|]; [clear; set_solver|].
      rewrite chi4, chi3, chi2. change (dget (g_chi g1) x) with (g_children g1 x). rewrite (elem_minus_at _ _ _ _ _ _ C1), L1.
      change (g_children g0 x) with (g_children g x). rewrite (gok_chi _ H).
      split; [intros [? Hx]; split; [done|]; split; [done|]; intros ->; by apply Hx|]. intros (? & ? & ?). split; [done|]. tauto.
    - intros x y. rewrite HB, upair_off. unfold g_spouses, g5. cbn. rewrite dget_delete.
      destruct (decide (n = x)) as [<-|]; [clear; set_solver|].
      rewrite spo4. change (dget (g_spo g3) x) with (g_spouses g3 x). rewrite (elem_minus_at _ _ _ _ _ _ S3), L3, S2, (gok_spo _ H).
      split; [intros [? Hx]; split; [done|]; split; [done|]; intros ->; apply Hx; by rewrite upair_comm|]. intros (? & ? & ?). split; [done|]. tauto.
    - intros x y. rewrite HU, upair_off. unfold g_neighbors, g5. cbn. rewrite dget_delete.
      destruct (decide (n = x)) as [<-|]; [clear; set_solver|].
      change (dget (g_nei g4) x) with (g_neighbors g4 x). rewrite (elem_minus_at _ _ _ _ _ _ Ne4), L4, Ne3, (gok_nei _ H).
      split; [intros [? Hx]; split; [done|]; split; [done|]; intros ->; apply Hx; by rewrite upair_comm|]. intros (? & ? & ?). split; [done|]. tauto.
    - intros x y. rewrite HD, HB, HU, !elem_of_off, !upair_off. unfold g_adjacent, g5. cbn. rewrite dget_delete.
      destruct (decide (n = x)) as [<-|]; [clear; set_solver|].
      change (dget (g_adj g4) x) with (g_adjacent g4 x).
      rewrite (elem_minus_at _ _ _ _ _ _ A4), (elem_minus_at _ _ _ _ _ _ A3), (elem_minus_at _ _ _ _ _ _ A2), (elem_minus_at _ _ _ _ _ _ A1).
      rewrite L1, L2, L3, L4. change (g_adjacent g0 x) with (g_adjacent g x). rewrite (gok_adj _ H).
      rewrite (upair_comm n x). pose proof (eq_refl n). assert (x ≠ n) by done. destruct (decide (y = n)) as [->|]; tauto. }
  assert (Hrun : g_remove_node o n ign g =
    (g5, match g_adj g4 !! n with Some _ => Ok tt | None => if ign then Ok tt else Raise KeyError end)).
  { unfold g_remove_node. unfold guard_keyerror, mcatch.
    erewrite mthen_ok by exact E0. erewrite mthen_ok by exact E1. erewrite mthen_ok by exact E2.
    erewrite mthen_ok by exact E3. erewrite mthen_ok by exact E4. unfold del_entries. fold g5.
    destruct (g_adj g4 !! n); [done|]. by destruct ign. }
  rewrite Hrun. cbn. split; [done|]. split; [done|].
  (* presence of the entry *)
  destruct (g_adj g4 !! n) as [X|] eqn:E; destruct (g_adj g !! n) as [Y|] eqn:E'; try done.
  - exfalso.
    assert (∀ l (f : node → M ag unit), (∀ p g, g_adj g !! n = None → p ≠ n → g_adj (f p g).1 !! n = None) → n ∉ l →
              ∀ g, g_adj g !! n = None → g_adj (mfor l f g).1 !! n = None) as Hfor.
    { clear. intros l f Hf. induction l as [|p l IH]; intros Hnl g Hg; [done|]. cbn [mfor]. unfold mthen, mbind'.
      specialize (Hf p g Hg). destruct (f p g) as [g' [a|e]]; cbn in *; [|set_solver]. apply IH; set_solver. }
    assert (∀ p x g, p ≠ n → g_adj g !! n = None → g_adj (adj_remove p x g).1 !! n = None) as Hadj.
    { clear. intros p x g Hp Hg. unfold adj_remove. destruct (decide _); [|done]. cbn. unfold ddel.
      by rewrite lookup_insert_ne by done. }
    clear Hrun. assert (g_adj g0 !! n = None) as X0 by done.
    assert (g_adj g1 !! n = None) as X1.
    { replace g1 with (mfor l1 (λ p : node, chi_remove' p n ;;; adj_remove p n ;;; dir_remove p n) g0).1 by (by rewrite E1).
      apply Hfor; [|rewrite L1; intros Hx; by apply Hirr in Hx|done]. intros p g' Hg' Hp. unfold mthen, mbind'.
      unfold chi_remove'. destruct (decide _); [|done]. cbn.
      match goal with |- context [adj_remove p n ?s] => pose proof (Hadj p n s Hp Hg') as Hx; destruct (adj_remove p n s) as [g'' [a|e']] end; [|done].
      unfold dir_remove. by destruct (decide _). }
    assert (g_adj g2 !! n = None) as X2.
    { replace g2 with (mfor l2 (λ p : node, par_remove' p n ;;; adj_remove p n ;;; dir_remove n p) g1).1 by (by rewrite E2).
      apply Hfor; [|rewrite L2; intros Hx; by apply Hirr in Hx|done]. intros p g' Hg' Hp. unfold mthen, mbind'.
      unfold par_remove'. destruct (decide _); [|done]. cbn.
      match goal with |- context [adj_remove p n ?s] => pose proof (Hadj p n s Hp Hg') as Hx; destruct (adj_remove p n s) as [g'' [a|e']] end; [|done].
      unfold dir_remove. by destruct (decide _). }
    assert (g_adj g3 !! n = None) as X3.
    { replace g3 with (mfor l3 (λ s : node, spo_remove s n ;;; adj_remove s n ;;; bi_remove s n ;;;
              (if decide (s = n) then mraise RuntimeError else mret tt)) g2).1 by (by rewrite E3).
      apply Hfor; [|rewrite L3; intros Hx; by apply HirrB in Hx|done]. intros p g' Hg' Hp. unfold mthen, mbind'.
      unfold spo_remove. destruct (decide _); [|done]. cbn.
      match goal with |- context [adj_remove p n ?s] => pose proof (Hadj p n s Hp Hg') as Hx; destruct (adj_remove p n s) as [g'' [a|e']] end; [|done].
      unfold bi_remove. destruct (decide _); [|done]. cbn. by destruct (decide _). }
    assert (g_adj g4 !! n = None) as X4.
    { replace g4 with (mfor l4 (λ s : node, nei_remove s n ;;; adj_remove s n ;;; un_remove s n ;;;
              (if decide (s = n) then mraise RuntimeError else mret tt)) g3).1 by (by rewrite E4).
      apply Hfor; [|rewrite L4; intros Hx; by apply HirrU in Hx|done]. intros p g' Hg' Hp. unfold mthen, mbind'.
      unfold nei_remove. destruct (decide _); [|done]. cbn.
      match goal with |- context [adj_remove p n ?s] => pose proof (Hadj p n s Hp Hg') as Hx; destruct (adj_remove p n s) as [g'' [a|e']] end; [|done].
      unfold un_remove. destruct (decide _); [|done]. cbn. by destruct (decide _). }
    congruence.
  - specialize (K4 eq_refl). apply K3, K2, K1 in K4. cbn in K4. congruence.
Qed.

(** ** Histories *)
Lemma remove_directed_spec i j ign g :
  gok g → let r := remove_directed i j ign g in
  gok r.1 ∧ stored r.1 (g_nodes g) (g_dir g ∖ {[(i, j)]}) (g_bi g) (g_un g) ∧
  r.2 = (if decide ((i, j) ∈ g_dir g) then Ok tt else if ign then Ok tt else Raise KeyError).
Proof.
  intros H. cbn zeta. destruct (decide ((i, j) ∈ g_dir g)) as [Hin|Hin].
  - rewrite remove_directed_present by done. cbn. split; [by apply cut_directed_ok|]. done.
  - rewrite remove_directed_absent by done. cbn. split; [done|]. split; [|done]. unfold stored. split_and!; [done|set_solver|done|done].
Qed.
Lemma remove_bidirected_spec i j ign g :
  gok g → let r := remove_bidirected i j ign g in
  gok r.1 ∧ stored r.1 (g_nodes g) (g_dir g) (g_bi g ∖ {[upair i j]}) (g_un g) ∧
  r.2 = (if decide (upair i j ∈ g_bi g) then Ok tt else if ign then Ok tt else Raise KeyError).
Proof.
  intros H. cbn zeta. destruct (decide (upair i j ∈ g_bi g)) as [Hin|Hin].
  - rewrite remove_bidirected_present by done. cbn. split; [by apply cut_bidirected_ok|]. done.
  - rewrite remove_bidirected_absent by done. cbn. split; [done|]. split; [|done]. unfold stored. split_and!; [done|done|set_solver|done].
Qed.
Lemma remove_undirected_spec i j ign g :
  gok g → let r := remove_undirected i j ign g in
  gok r.1 ∧ stored r.1 (g_nodes g) (g_dir g) (g_bi g) (g_un g ∖ {[upair i j]}) ∧
  r.2 = (if decide (upair i j ∈ g_un g) then Ok tt else if ign then Ok tt else Raise KeyError).
Proof.
  intros H. cbn zeta. destruct (decide (upair i j ∈ g_un g)) as [Hin|Hin].
  - rewrite remove_undirected_present by done. cbn. split; [by apply cut_undirected_ok|]. done.
  - rewrite remove_undirected_absent by done. cbn. split; [done|]. split; [|done]. unfold stored. split_and!; [done|done|done|set_solver].
Qed.
Lemma remove_edge_spec i j ign g :
  gok g → let r := remove_edge i j ign g in
  gok r.1 ∧ stored r.1 (g_nodes g) (g_dir g ∖ {[(i, j); (j, i)]}) (g_bi g ∖ {[upair i j]}) (g_un g ∖ {[upair i j]}) ∧
  r.2 = (if decide (j ∈ g_adjacent g i) then Ok tt else if ign then Ok tt else Raise KeyError).
Proof.
  intros H. cbn zeta. unfold remove_edge, has_bidirected, has_directed, has_undirected.
  destruct (bool_decide_reflect (upair i j ∈ g_bi g)) as [Hb|Hb].
  { destruct (remove_bidirected_spec i j false g H) as (Hg & (HN & HD & HB & HU) & Hr).
    split; [done|]. rewrite Hr, (decide_True (P := upair i j ∈ g_bi g)) by done.
    rewrite decide_True by (apply (gok_adj _ H); tauto). split; [|done]. unfold stored. rewrite HN, HD, HB, HU. split_and!; [done| |done|].
    - symmetry. apply difference_disjoint_L. intros e He [->%elem_of_singleton| ->%elem_of_singleton]%elem_of_union.
      + by apply (gok_dir1 _ H) in He as (_ & _ & ? & _).
      + apply (gok_dir1 _ H) in He as (_ & _ & ? & _). by rewrite upair_comm in Hb.
    - symmetry. apply difference_disjoint_L. intros e He ->%elem_of_singleton. by apply (gok_bi1 _ H) in Hb. }
  destruct (bool_decide_reflect ((i, j) ∈ g_dir g)) as [Hd|Hd].
  { destruct (remove_directed_spec i j false g H) as (Hg & (HN & HD & HB & HU) & Hr).
    destruct (gok_dir1 _ H _ _ Hd) as (? & ? & ? & ?).
    split; [done|]. rewrite Hr, (decide_True (P := (i, j) ∈ g_dir g)) by done.
    rewrite decide_True by (apply (gok_adj _ H); tauto). split; [|done]. unfold stored. rewrite HN, HD, HB, HU. split_and!; [done|set_solver..]. }
  destruct (bool_decide_reflect ((j, i) ∈ g_dir g)) as [Hd'|Hd'].
  { destruct (remove_directed_spec j i false g H) as (Hg & (HN & HD & HB & HU) & Hr).
    destruct (gok_dir1 _ H _ _ Hd') as (? & ? & ? & Hu). rewrite upair_comm in Hu.
    split; [done|]. rewrite Hr, (decide_True (P := (j, i) ∈ g_dir g)) by done.
    rewrite decide_True by (apply (gok_adj _ H); tauto). split; [|done]. unfold stored. rewrite HN, HD, HB, HU. split_and!; [done|set_solver..]. }
  destruct (bool_decide_reflect (upair i j ∈ g_un g)) as [Hu|Hu].
  { destruct (remove_undirected_spec i j false g H) as (Hg & (HN & HD & HB & HU) & Hr).
    split; [done|]. rewrite Hr, (decide_True (P := upair i j ∈ g_un g)) by done.
    rewrite decide_True by (apply (gok_adj _ H); tauto). split; [|done]. unfold stored. rewrite HN, HD, HB, HU. split_and!; [done|set_solver..]. }
  rewrite decide_False by (rewrite (gok_adj _ H); tauto).
  assert (stored g (g_nodes g) (g_dir g ∖ {[(i, j); (j, i)]}) (g_bi g ∖ {[upair i j]}) (g_un g ∖ {[upair i j]})).
  { unfold stored. split_and!; [done|set_solver..]. }
  by destruct ign.
Qed.

(** No call adds a loop. *)
Definition gcall_ok (c : gcall) : Prop :=
  match c with
  | GAddDirected _ i j | GAddBidirected i j | GAddUndirected i j => i ≠ j
  | _ => True
  end.

Lemma gok_same g g' :
  gok g → g_nodes g ⊆ g_nodes g' → g_dir g' = g_dir g → g_bi g' = g_bi g → g_un g' = g_un g →
  g_nei g' = g_nei g → g_spo g' = g_spo g → g_par g' = g_par g → g_chi g' = g_chi g → g_adj g' = g_adj g → gok g'.
Proof.
  intros [H1 H2 H3] Hn. destruct g', g; cbn in *. intros -> -> -> -> -> -> -> ->. split; try done; cbn.
  - intros x y Hx. apply H1 in Hx. set_solver.
  - intros x y Hx. apply H2 in Hx. set_solver.
  - intros x y Hx. apply H3 in Hx. set_solver.
Qed.

Lemma mfor_gok {A} (l : list A) (f : A → M ag unit) g :
  (∀ a g, a ∈ l → gok g → gok (f a g).1) → gok g → gok (mfor l f g).1.
Proof.
  revert g. induction l as [|a l IH]; intros g Hf Hg; [done|]. cbn [mfor]. unfold mthen, mbind'.
  pose proof (Hf a g (elem_of_list_here _ _) Hg) as H1. destruct (f a g) as [g' [u|e]]; [|done].
  apply IH; [|done]. intros b h Hb. apply Hf. by right.
Qed.

Lemma gexec_ok c g : gcall_ok c → gok g → gok (gexec c g).1.
Proof.
  destruct c as [n|l|o i j|i j|i j|o n ign|i j ign|i j ign|i j ign|i j ign|l ign]; cbn [gexec gcall_ok]; intros Hc Hg.
  - eapply gok_same; [exact Hg|..]; cbn; try done. set_solver.
  - apply mfor_gok; [|done]. clear. intros n g _ Hg. eapply gok_same; [exact Hg|..]; cbn; try done. set_solver.
  - by apply add_directed_spec.
  - by apply add_bidirected_spec.
  - by apply add_undirected_spec.
  - by apply g_remove_node_spec.
  - by apply remove_directed_spec.
  - by apply remove_bidirected_spec.
  - by apply remove_undirected_spec.
  - by apply remove_edge_spec.
  - apply mfor_gok; [|done]. intros e g' _ Hg'. by apply remove_edge_spec.
Qed.
Lemma grun_ok h g : Forall gcall_ok h → gok g → gok (grun h g).
Proof.
  unfold grun. revert g. induction h as [|c h IH]; intros g Hh Hg; [done|]. cbn. apply Forall_cons in Hh as [Hc Hh].
  apply IH; [done|]. by apply gexec_ok.
Qed.

Lemma ag_new_gok (N : nset) (dir bi un : list arc) :
  (∀ e : arc, e ∈ dir ++ bi ++ un → e.1 ≠ e.2) → gok (ag_new N dir bi un).1.
Proof.
  intros Hne. unfold ag_new, mthen, mbind'.
  assert (∀ g i j, i ≠ j → gok g → gok (add_directed_raw i j g).1) as Hd.
  { intros g i j Hij Hg. destruct (add_directed_raw_spec i j g Hg Hij) as [[-> ?]|[[-> ?]|[[-> ?]|[-> (?&?&?)]]]]; done. }
  assert (∀ g i j, i ≠ j → gok g → gok (add_bidirected_raw i j g).1) as Hb.
  { intros g i j Hij Hg. destruct (add_bidirected_raw_spec i j g Hg Hij) as [[-> ?]|[[-> ?]|[[-> ?]|[-> (?&?&?)]]]]; done. }
  assert (∀ g i j, i ≠ j → gok g → gok (add_undirected_raw i j g).1) as Hu.
  { intros g i j Hij Hg. destruct (add_undirected_raw_spec i j g Hg Hij) as [[-> ?]|[[-> ?]|[[-> ?]|[-> (?&?&?)]]]]; done. }
  pose proof (mfor_gok dir (λ e : arc, add_directed_raw e.1 e.2) (ag_init N)) as H1. feed specialize H1.
  { intros a g Ha Hg. apply Hd; [|done]. apply Hne. set_solver. } { apply gok_init. }
  destruct (mfor dir _ _) as [g1 [u|e]]; [|done]. cbn in H1.
  pose proof (mfor_gok bi (λ e : arc, add_bidirected_raw e.1 e.2) g1) as H2. feed specialize H2.
  { intros a g Ha Hg. apply Hb; [|done]. apply Hne. set_solver. } { done. }
  destruct (mfor bi _ _) as [g2 [u2|e]]; [|done]. cbn in H2.
  apply mfor_gok; [|done]. intros a g Ha Hg. apply Hu; [|done]. apply Hne. set_solver.
Qed.
