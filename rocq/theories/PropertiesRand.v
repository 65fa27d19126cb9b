(** Final theorems about the random graph generators: C44. *)
From Verif Require Import Py Spec DagModel MagMatModel RandModel TopoProofs StateProofs ReachProofs OrderProofs QueryProofs
  CoreProofs MarkovProofs RandProofs PropertiesDag.
#[local] Open Scope nat_scope.

(** The list of all nodes that a permutation rearranges; without [random_order]
    the identity. *)
Definition order_of (n : nat) (perm : option (list node)) : list node := default (seq 0 n) perm.
Definition perm_ok (n : nat) (perm : option (list node)) : Prop := ∀ p, perm = Some p → p ≡ₚ seq 0 n.

Lemma erdos_make o n bools :
  let E : arcset := list_to_set (select (combinations2 (seq 0 n)) bools) in
  ∃ d, dag_make o (upto n) E = Ok d ∧ wf d ∧ acyclic (d_arcs d) ∧ d_arcs d = E ∧ d_nodes d = upto n.
Proof.
  intros E. assert (∀ x y, (x, y) ∈ E → x < y ∧ y < n) as HE.
  { intros x y H. unfold E in H. apply elem_of_list_to_set, select_in, elem_of_seq_pairs in H. lia. }
  destruct (dag_make_ok o (upto n) E) as [d Hd]. { apply increasing_acyclic. intros x y H%HE. lia. }
  pose proof (dag_make_spec _ _ _ _ Hd) as (Hwf & Hac & Harc & Hnod). exists d. split_and!; [done..|].
  rewrite Hnod. apply set_eq. intros v. rewrite !elem_of_union, !elem_of_map, elem_of_upto. split; [|by auto].
  intros [[?|([a b] & -> & H)]|([a b] & -> & H)]; [done|apply HE in H; cbn; lia..].
Qed.

(** For all coins and permutations [directed_erdos] returns a DAG on the nodes
    0..n-1.  Coin number [k] decides about the [k]-th pair [i < j] of positions: it
    puts an arc from the node at position [i] to the node at position [j].  No arc
    is lost: there are as many arcs as heads. *)
Theorem C44_directed_erdos (o : oracle) (n : nat) (bools : list bool) (perm : option (list node)) :
  length bools = n * (n - 1) / 2 → perm_ok n perm →
  ∃ d, directed_erdos o n bools perm = Ok d ∧ views_agree d ∧ acyclic (d_arcs d) ∧
    (∀ v, v ∈ d_nodes d ↔ v < n) ∧ size (d_arcs d) = length (filter (λ b : bool, b = true) bools) ∧
    ∀ x y, (x, y) ∈ d_arcs d ↔ ∃ i j k, order_of n perm !! i = Some x ∧ order_of n perm !! j = Some y ∧
      combinations2 (seq 0 n) !! k = Some (i, j) ∧ bools !! k = Some true.
Proof.
  intros Hlen Hp. unfold directed_erdos, order_of. destruct (erdos_make o n bools) as (d & -> & Hwf & Hac & Harc & Hnod). cbn.
  destruct (shuffled_spec o n d Hwf Hac ltac:(intros v; by rewrite Hnod, elem_of_upto) perm Hp) as (Hnd & Hq & Hql & d' & -> & Hwf' & Hac' & Hn' & Ha').
  exists d'. split; [done|]. split; [by apply wf_views_agree|]. split; [done|].
  assert (∀ x y, (x, y) ∈ d_arcs d' ↔ ∃ a1 a2, (a1, a2) ∈ select (combinations2 (seq 0 n)) bools ∧ default (seq 0 n) perm !! a1 = Some x ∧ default (seq 0 n) perm !! a2 = Some y) as HA.
  { intros x y. rewrite Ha', Harc. by setoid_rewrite elem_of_list_to_set. }
  split_and!.
  - intros v. rewrite Hn', Hnod. setoid_rewrite elem_of_upto. rewrite <-Hq, elem_of_list_lookup. split; [intros (a & _ & ?); by exists a|].
    intros (a & Ha). exists a. split; [|done]. rewrite <-Hql. by eapply lookup_lt_Some.
  - rewrite <-(length_select (combinations2 (seq 0 n)) bools) by (by rewrite length_pairs_seq).
    apply (renamed_size (default (seq 0 n) perm)); [done|by apply NoDup_select, NoDup_pairs, NoDup_seq| |done].
    intros a b H%select_in%elem_of_seq_pairs. rewrite Hql. lia.
  - intros x y. rewrite HA. setoid_rewrite elem_of_select. naive_solver.
Qed.

(** Density 0: no arcs. *)
Theorem C44_all_tails (o : oracle) (n : nat) (bools : list bool) (perm : option (list node)) :
  length bools = n * (n - 1) / 2 → perm_ok n perm → Forall (λ b, b = false) bools →
  ∃ d, directed_erdos o n bools perm = Ok d ∧ d_arcs d = ∅.
Proof.
  intros Hlen Hp Hf. destruct (C44_directed_erdos o n bools perm Hlen Hp) as (d & Hd & _ & _ & _ & _ & HA). exists d. split; [done|].
  apply set_eq. intros [x y]. rewrite HA. split; [|set_solver]. intros (i & j & k & _ & _ & _ & Hk).
  rewrite Forall_lookup in Hf. by apply Hf in Hk.
Qed.

(** All heads: all [n (n - 1) / 2] arcs, one between any two nodes. *)
Theorem C44_all_heads (o : oracle) (n : nat) (bools : list bool) (perm : option (list node)) :
  length bools = n * (n - 1) / 2 → perm_ok n perm → Forall (λ b, b = true) bools →
  ∃ d, directed_erdos o n bools perm = Ok d ∧ size (d_arcs d) = n * (n - 1) / 2 ∧
    ∀ x y, x < n → y < n → x ≠ y → adjacent (d_arcs d) x y.
Proof.
  intros Hlen Hp Hf. destruct (C44_directed_erdos o n bools perm Hlen Hp) as (d & Hd & _ & _ & _ & Hs & HA). exists d. split; [done|].
  assert (order_of n perm ≡ₚ seq 0 n) as Hq by (unfold order_of; destruct perm as [p|]; cbn; [by apply Hp|done]).
  split. { rewrite Hs, <-Hlen. f_equal. clear -Hf. induction Hf as [|b l -> _ IH]; [done|]. rewrite filter_cons_True by done. by rewrite IH. }
  assert (∀ i j x y, order_of n perm !! i = Some x → order_of n perm !! j = Some y → i < j → (x, y) ∈ d_arcs d) as HH.
  { intros i j x y Hi Hj Hij. apply HA. assert (j < n) as Hjn. { apply lookup_lt_Some in Hj. by rewrite Hq, seq_length in Hj. }
    assert ((i, j) ∈ combinations2 (seq 0 n)) as Hin by (apply elem_of_seq_pairs; lia). apply elem_of_list_lookup in Hin as [k Hk].
    exists i, j, k. split_and!; [done..|]. assert (is_Some (bools !! k)) as [b Hb].
    { apply lookup_lt_is_Some. rewrite Hlen, <-length_pairs_seq. by eapply lookup_lt_Some. }
    rewrite Hb. f_equal. rewrite Forall_lookup in Hf. by eapply Hf. }
  intros x y Hx Hy Hne. assert (∀ v, v < n → ∃ i, order_of n perm !! i = Some v) as Hpos.
  { intros v Hv. apply elem_of_list_lookup. rewrite Hq, elem_of_seq. lia. }
  destruct (Hpos x Hx) as [i Hi], (Hpos y Hy) as [j Hj]. destruct (lt_eq_lt_dec i j) as [[?| ->]|?].
  - left. by eapply HH. - exfalso. apply Hne. congruence. - right. by eapply HH.
Qed.

(** Every DAG on the nodes 0..n-1 is the result for some coins and permutation. *)
Theorem C44_every_dag (o : oracle) (n : nat) (E : arcset) :
  acyclic E → (∀ x y, (x, y) ∈ E → x < n ∧ y < n) →
  ∃ bools p d, length bools = n * (n - 1) / 2 ∧ p ≡ₚ seq 0 n ∧
    directed_erdos o n bools (Some p) = Ok d ∧ d_arcs d = E.
Proof.
  intros Hac Ho. destruct (exists_topo (upto n) E Hac) as (p & Hnd & Hin & Hord). { intros x y H. rewrite !elem_of_upto. auto. }
  assert (p ≡ₚ seq 0 n) as Hp.
  { apply NoDup_Permutation; [done|apply NoDup_seq|]. intros x. rewrite Hin, elem_of_upto, elem_of_seq. lia. }
  set (coin := λ a : arc, match p !! a.1, p !! a.2 with Some x, Some y => bool_decide ((x, y) ∈ E) | _, _ => false end).
  set (bools := coin <$> combinations2 (seq 0 n)).
  assert (length bools = n * (n - 1) / 2) as Hlen by (unfold bools; by rewrite fmap_length, length_pairs_seq).
  destruct (C44_directed_erdos o n bools (Some p) Hlen) as (d & Hd & _ & _ & _ & _ & HA). { by intros ? [= <-]. }
  exists bools, p, d. split_and!; [done..|]. apply set_eq. intros [x y]. rewrite HA. cbn. split.
  - intros (i & j & k & Hi & Hj & Hk & Hb). unfold bools in Hb. rewrite list_lookup_fmap, Hk in Hb. cbn in Hb. injection Hb as Hb.
    unfold coin in Hb. cbn in Hb. rewrite Hi, Hj in Hb. by apply bool_decide_eq_true in Hb.
  - intros HE. pose proof (Ho _ _ HE) as [Hx Hy]. rewrite <-elem_of_upto, <-Hin, elem_of_list_lookup in Hx, Hy.
    destruct Hx as [i Hi], Hy as [j Hj]. pose proof (Hord _ _ _ _ HE Hi Hj) as Hij.
    assert (j < n) as Hjn. { apply lookup_lt_Some in Hj. by rewrite Hp, seq_length in Hj. }
    assert ((i, j) ∈ combinations2 (seq 0 n)) as Hijn by (apply elem_of_seq_pairs; lia). apply elem_of_list_lookup in Hijn as [k Hk].
    exists i, j, k. split_and!; [done..|]. unfold bools. rewrite list_lookup_fmap, Hk. cbn. f_equal. unfold coin. cbn. rewrite Hi, Hj. by apply bool_decide_eq_true.
Qed.

Example C44_erdos_ex : perm_ok 3 (Some [2; 0; 1]) ∧ length [true; false; true] = 3 * (3 - 1) / 2 ∧
  ∃ d, directed_erdos oracle0 3 [true; false; true] (Some [2; 0; 1]) = Ok d ∧ d_arcs d = {[(2, 0); (0, 1)]}.
Proof.
  split; [intros p [= <-]; cbn; by apply (bool_decide_unpack _); vm_compute|]. split; [done|].
  assert (match directed_erdos oracle0 3 [true; false; true] (Some [2; 0; 1]) with Ok d => bool_decide (d_arcs d = {[(2, 0); (0, 1)]}) | Raise _ => false end = true) as H by by_vm.
  destruct (directed_erdos oracle0 3 [true; false; true] (Some [2; 0; 1])) as [d|]; [|done]. exists d. split; [done|]. by apply bool_decide_eq_true in H.
Qed.

(** ** Graphs with confounders *)

Lemma elem_of_pairs_of l k i j : (i, j) ∈ pairs_of l k ↔ i ∈ l ∧ j ∈ k.
Proof.
  unfold pairs_of. rewrite elem_of_list_bind. setoid_rewrite elem_of_list_bind. setoid_rewrite elem_of_list_singleton. naive_solver.
Qed.

(** For all coins and permutations the result is a DAG; the nodes at the first [c]
    positions are confounders: the arcs between two nodes follow their positions and
    none enters a confounder.  The [k]-th coin of each kind decides about the [k]-th
    pair.  The nodes are those at the first [n] positions and the endpoints of arcs. *)
Theorem C44_erdos_with_confounders (o : oracle) (n c : nat) (cbools bools : list bool) (perm : option (list node)) :
  perm_ok (n + c) perm →
  ∃ d, erdos_confounders o n c cbools bools perm = Ok d ∧ views_agree d ∧ acyclic (d_arcs d) ∧
    (∀ v, v ∈ d_nodes d ↔ (∃ i, i < n ∧ order_of (n + c) perm !! i = Some v) ∨ ∃ w, adjacent (d_arcs d) v w) ∧
    ∀ x y, (x, y) ∈ d_arcs d ↔ ∃ i j k, order_of (n + c) perm !! i = Some x ∧ order_of (n + c) perm !! j = Some y ∧
      (pairs_of (seq 0 c) (seq c n) !! k = Some (i, j) ∧ cbools !! k = Some true ∨
       combinations2 (seq c n) !! k = Some (i, j) ∧ bools !! k = Some true).
Proof.
  intros Hp. unfold erdos_confounders, order_of.
  set (E := (list_to_set (select (pairs_of (seq 0 c) (seq c n)) cbools) ∪ list_to_set (select (combinations2 (seq c n)) bools)) : arcset).
  assert (∀ x y, (x, y) ∈ E → x < y ∧ y < n + c) as HE.
  { intros x y. unfold E. rewrite elem_of_union, !elem_of_list_to_set. intros [H%select_in%elem_of_pairs_of|H%select_in%elem_of_seq_pairs]; [|lia].
    rewrite !elem_of_seq in H. lia. }
  destruct (dag_make_ok o (upto n) E) as [d Hd]. { apply increasing_acyclic. intros x y H%HE. lia. }
  rewrite Hd. cbn [res_bind]. pose proof (dag_make_spec _ _ _ _ Hd) as (Hwf & Hac & Harc & Hnod).
  assert (∀ v, v ∈ d_nodes d ↔ v < n ∨ ∃ w, adjacent E v w) as Hnod'.
  { intros v. rewrite Hnod, !elem_of_union, !elem_of_map, elem_of_upto. unfold adjacent. split.
    - intros [[?|([a b] & -> & H)]|([a b] & -> & H)]; [by left|right; exists b; by left|right; exists a; by right].
    - intros [?|[w [H|H]]]; [by do 2 left|left; right; by exists (v, w)|right; by exists (w, v)]. }
  destruct (shuffled_spec o (n + c) d Hwf Hac) with (perm := perm) as (Hnd & Hq & Hql & d' & -> & Hwf' & Hac' & Hn' & Ha'); [|done|].
  { intros v Hv. apply Hnod' in Hv as [?|[w [H|H]]]; [lia|apply HE in H; lia..]. }
  exists d'. split; [done|]. split; [by apply wf_views_agree|]. split; [done|].
  rewrite Harc in Ha'. split.
  - intros v. rewrite Hn'. setoid_rewrite Hnod'. unfold adjacent. setoid_rewrite Ha'. split.
    + intros (a & [Ha|[w Hw]] & Hav); [left; by exists a|]. right.
      assert (∀ z, z < n + c → ∃ t, default (seq 0 (n + c)) perm !! z = Some t) as Hz.
      { intros z Hz. apply lookup_lt_is_Some. by rewrite Hql. }
      destruct (Hz w) as [t Ht]. { destruct Hw as [H|H]; apply HE in H; lia. }
      exists t. destruct Hw as [H|H]; [left; by exists a, w|right; by exists w, a].
    + intros [(i & Hi & Hv)|(w & [(a1 & a2 & H & H1 & H2)|(a1 & a2 & H & H1 & H2)])].
      * exists i. auto.
      * exists a1. split; [|done]. right. exists a2. by left.
      * exists a2. split; [|done]. right. exists a1. by right.
  - intros x y. rewrite Ha'. unfold E. setoid_rewrite elem_of_union. setoid_rewrite elem_of_list_to_set. setoid_rewrite elem_of_select. naive_solver.
Qed.

(** Hence no arc enters a confounder. *)
Theorem C44_confounders_are_sources (o : oracle) (n c : nat) (cbools bools : list bool) (perm : option (list node)) d :
  perm_ok (n + c) perm → erdos_confounders o n c cbools bools perm = Ok d →
  ∀ x y i, i < c → order_of (n + c) perm !! i = Some y → (x, y) ∉ d_arcs d.
Proof.
  intros Hp Hd x y i Hi Hy Hxy. destruct (C44_erdos_with_confounders o n c cbools bools perm Hp) as (d' & Hd' & _ & _ & _ & HA).
  rewrite Hd in Hd'. injection Hd' as <-. apply HA in Hxy as (a & j & k & _ & Hj & Hk).
  assert (order_of (n + c) perm ≡ₚ seq 0 (n + c)) as Hq by (unfold order_of; destruct perm as [p|]; cbn; [by apply Hp|done]).
  assert (NoDup (order_of (n + c) perm)) as Hnd by (rewrite Hq; apply NoDup_seq).
  assert (i = j) as <- by (exact (NoDup_lookup _ _ _ _ Hnd Hy Hj)).
  destruct Hk as [[Hk%elem_of_list_lookup_2%elem_of_pairs_of _]|[Hk%elem_of_list_lookup_2%elem_of_seq_pairs _]]; [rewrite !elem_of_seq in Hk|]; lia.
Qed.

(** The graph need not have all [n + c] nodes: [DAG(nodes=set(range(nnodes)))]
    forgets the last [c] of them unless an arc mentions them. *)
Theorem C44_confounder_nodes_refuted :
  ∃ (n c : nat) (cbools bools : list bool) (perm : list node) (d : dag),
    length cbools = c * n ∧ length bools = n * (n - 1) / 2 ∧ perm_ok (n + c) (Some perm) ∧
    erdos_confounders oracle0 n c cbools bools (Some perm) = Ok d ∧ ¬ ∀ v, v < n + c → v ∈ d_nodes d.
Proof.
  exists 1, 1, [false], [], [0; 1].
  assert (match erdos_confounders oracle0 1 1 [false] [] (Some [0; 1]) with Ok d => bool_decide (1 ∉ d_nodes d) | Raise _ => false end = true) as H by by_vm.
  destruct (erdos_confounders oracle0 1 1 [false] [] (Some [0; 1])) as [d|]; [|done]. exists d. apply bool_decide_eq_true in H.
  split_and!; [done|done|by intros p [= <-]|done|]. intros Hall. apply H, Hall. lia.
Qed.

Example C44_confounders_ex : perm_ok 3 (Some [2; 0; 1]) ∧
  ∃ d, erdos_confounders oracle0 2 1 [true; true] [false] (Some [2; 0; 1]) = Ok d ∧ d_arcs d = {[(2, 0); (2, 1)]}.
Proof.
  split; [intros p [= <-]; cbn; by apply (bool_decide_unpack _); vm_compute|].
  assert (match erdos_confounders oracle0 2 1 [true; true] [false] (Some [2; 0; 1]) with Ok d => bool_decide (d_arcs d = {[(2, 0); (2, 1)]}) | Raise _ => false end = true) as H by by_vm.
  destruct (erdos_confounders oracle0 2 1 [true; true] [false] (Some [2; 0; 1])) as [d|]; [|done]. exists d. split; [done|]. by apply bool_decide_eq_true in H.
Qed.

(** ** Orienting a random undirected graph *)

Lemma where_is_lookup p v k : NoDup p → p !! k = Some v → where_is p v = Ok k.
Proof.
  intros Hnd Hk. unfold where_is. destruct (list_find (v =.) p) as [[k' v']|] eqn:E.
  - apply list_find_Some in E as (H & <- & _). f_equal. by eapply NoDup_lookup.
  - exfalso. apply list_find_None in E. rewrite Forall_lookup in E. by apply (E k v).
Qed.

Section random.
  Context (p : list node) (Hnd : NoDup p).
  Definition directed_along (e e' : arc) : Prop :=
    ∃ i j, p !! i = Some e'.1 ∧ p !! j = Some e'.2 ∧ i < j ∧ (e' = e ∨ e' = (e.2, e.1)).
  Lemma random_loop edges acc :
    (∀ x y, (x, y) ∈ edges → x ∈ p ∧ y ∈ p ∧ x ≠ y) →
    ∃ arcs, loopR (λ e acc, res_bind (where_is p e.1) (λ p1, res_bind (where_is p e.2) (λ p2,
        Ok (acc ++ [if decide (p1 < p2) then (e.1, e.2) else (e.2, e.1)])))) edges acc = Ok (acc ++ arcs) ∧ Forall2 directed_along edges arcs.
  Proof.
    revert acc. induction edges as [|[x y] edges IH]; intros acc Hin; cbn [loopR].
    { exists []. split; [by rewrite app_nil_r|constructor]. }
    destruct (Hin x y) as (Hx & Hy & Hne); [by left|]. apply elem_of_list_lookup in Hx as [i Hi], Hy as [j Hj].
    rewrite (where_is_lookup p _ i) by done. cbn [res_bind snd]. rewrite (where_is_lookup p _ j) by done. cbn [res_bind fst snd].
    destruct (IH (acc ++ [if decide (i < j) then (x, y) else (y, x)])) as (arcs & -> & HF). { intros a b H. apply Hin. by right. }
    exists ((if decide (i < j) then (x, y) else (y, x)) :: arcs). split; [by rewrite <-app_assoc|]. constructor; [|done].
    destruct (decide (i < j)); [exists i, j|exists j, i]; cbn; split_and!; auto.
    assert (i ≠ j) by congruence. lia.
  Qed.
End random.

(** For every drawn graph without self loops on the nodes 0..n-1 and every
    permutation the result is a DAG whose arcs are exactly the drawn edges, directed
    from the earlier to the later node of the permutation. *)
Theorem C44_directed_random_graph (o : oracle) (n : nat) (edges : list arc) (p : list node) :
  p ≡ₚ seq 0 n → (∀ x y, (x, y) ∈ edges → x < n ∧ y < n ∧ x ≠ y) →
  ∃ d, directed_random_graph o n edges p = Ok d ∧ views_agree d ∧ acyclic (d_arcs d) ∧ (∀ v, v ∈ d_nodes d ↔ v < n) ∧
    (∀ x y, adjacent (d_arcs d) x y ↔ (x, y) ∈ edges ∨ (y, x) ∈ edges) ∧
    ∀ x y i j, (x, y) ∈ d_arcs d → p !! i = Some x → p !! j = Some y → i < j.
Proof.
  intros Hp Hin. assert (NoDup p) as Hnd by (rewrite Hp; apply NoDup_seq).
  assert (∀ v, v ∈ p ↔ v < n) as Hv by (intros v; rewrite Hp, elem_of_seq; lia).
  destruct (random_loop p Hnd edges []) as (arcs & Hloop & HF). { intros x y H. rewrite !Hv. auto. }
  unfold directed_random_graph. rewrite Hloop. cbn [res_bind app].
  set (E := list_to_set arcs : arcset).
  assert (∀ x y, (x, y) ∈ E → (∃ i j, p !! i = Some x ∧ p !! j = Some y ∧ i < j) ∧ ((x, y) ∈ edges ∨ (y, x) ∈ edges)) as HE1.
  { intros x y H. unfold E in H. rewrite elem_of_list_to_set in H. apply elem_of_list_lookup in H as [k Hk].
    destruct (Forall2_lookup_r _ _ _ _ _ HF Hk) as ([a b] & Hab & i & j & Hi & Hj & Hij & Hor). apply elem_of_list_lookup_2 in Hab. cbn in *.
    split; [by exists i, j|]. destruct Hor as [[= -> ->]|[= -> ->]]; auto. }
  assert (∀ x y, (x, y) ∈ edges → adjacent E x y) as HE2.
  { intros x y H. apply elem_of_list_lookup in H as [k Hk].
    destruct (Forall2_lookup_l _ _ _ _ _ HF Hk) as (e & He & i & j & _ & _ & _ & Hor). apply elem_of_list_lookup_2 in He.
    unfold adjacent, E. rewrite !elem_of_list_to_set. cbn in Hor. destruct Hor as [->| ->]; auto. }
  assert (∀ x y i j, (x, y) ∈ E → p !! i = Some x → p !! j = Some y → i < j) as HE3.
  { intros x y i j H Hi Hj. apply HE1 in H as [(i' & j' & Hi' & Hj' & ?) _].
    by rewrite (NoDup_lookup _ _ _ _ Hnd Hi Hi'), (NoDup_lookup _ _ _ _ Hnd Hj Hj'). }
  assert (acyclic E) as Hac.
  { assert (∀ x y, tc (edge E) x y → ∃ i j, p !! i = Some x ∧ p !! j = Some y ∧ i < j) as Htc.
    { intros x y Hxy. induction Hxy as [x y Hxy|x y z Hxy _ IH]; [by apply HE1 in Hxy as [? _]|].
      apply HE1 in Hxy as [(i & j & Hi & Hj & ?) _]. destruct IH as (j' & k & Hj' & Hk & ?). exists i, k. split_and!; [done..|].
      rewrite (NoDup_lookup _ _ _ _ Hnd Hj Hj') in *. lia. }
    intros x (i & j & Hi & Hj & ?)%Htc. rewrite (NoDup_lookup _ _ _ _ Hnd Hi Hj) in *. lia. }
  destruct (dag_make_ok o (upto n) E Hac) as [d Hd]. pose proof (dag_make_spec _ _ _ _ Hd) as (Hwf & _ & Harc & Hnod).
  exists d. rewrite Harc. split_and!; [done|by apply wf_views_agree|done| | |done].
  - intros v. rewrite Hnod, !elem_of_union, !elem_of_map, elem_of_upto. split; [|by auto].
    intros [[?|([a b] & -> & H)]|([a b] & -> & H)]; [done|apply HE1 in H as [_ [H|H]]; apply Hin in H; cbn; lia..].
  - intros x y. split.
    + intros [H|H]; apply HE1 in H as [_ H]; naive_solver.
    + intros [H%HE2|H%HE2]; [done|]. destruct H; [by right|by left].
Qed.

(** Every DAG on the nodes 0..n-1 is the result for some drawn graph and permutation. *)
Theorem C44_random_graph_every_dag (o : oracle) (n : nat) (E : arcset) :
  acyclic E → (∀ x y, (x, y) ∈ E → x < n ∧ y < n) →
  ∃ p d, p ≡ₚ seq 0 n ∧ directed_random_graph o n (elements E) p = Ok d ∧ d_arcs d = E.
Proof.
  intros Hac Ho. destruct (exists_topo (upto n) E Hac) as (p & Hnd & Hin & Hord). { intros x y H. rewrite !elem_of_upto. auto. }
  assert (p ≡ₚ seq 0 n) as Hp.
  { apply NoDup_Permutation; [done|apply NoDup_seq|]. intros x. rewrite Hin, elem_of_upto, elem_of_seq. lia. }
  destruct (C44_directed_random_graph o n (elements E) p Hp) as (d & Hd & _ & _ & _ & Hadj & Hdir).
  { intros x y H%elem_of_elements. destruct (Ho _ _ H). split_and!; [done..|]. intros ->. apply (Hac y). by apply tc_once. }
  exists p, d. split_and!; [done..|]. apply set_eq. intros [x y]. split.
  - intros H. assert ((x, y) ∈ E ∨ (y, x) ∈ E) as [?|Hyx]; [|done|]. { rewrite <-(elem_of_elements E (x, y)), <-(elem_of_elements E (y, x)). apply Hadj. by left. }
    exfalso. pose proof (Ho _ _ Hyx) as [Hy Hx]. rewrite <-elem_of_upto, <-Hin, elem_of_list_lookup in Hx, Hy. destruct Hx as [i Hi], Hy as [j Hj].
    pose proof (Hord _ _ _ _ Hyx Hj Hi). pose proof (Hdir _ _ _ _ H Hi Hj). lia.
  - intros H. assert (adjacent (d_arcs d) x y) as [?|Hyx]; [|done|]. { apply Hadj. left. by apply elem_of_elements. }
    exfalso. pose proof (Ho _ _ H) as [Hx Hy]. rewrite <-elem_of_upto, <-Hin, elem_of_list_lookup in Hx, Hy. destruct Hx as [i Hi], Hy as [j Hj].
    pose proof (Hord _ _ _ _ H Hi Hj). pose proof (Hdir _ _ _ _ Hyx Hj Hi). lia.
Qed.

(** With a self loop among the drawn edges it raises [KeyError] (the rollback after
    the [CycleError] removes the neighbor 0 of 0 twice); with a node outside 0..n-1
    it raises [IndexError]. *)
Theorem C44_random_graph_refuted :
  directed_random_graph oracle0 2 [(0, 0)] [0; 1] = Raise KeyError ∧
  directed_random_graph oracle0 2 [(0, 2)] [0; 1] = Raise IndexError.
Proof.
  assert (match directed_random_graph oracle0 2 [(0, 0)] [0; 1] with Raise e => bool_decide (e = KeyError) | Ok _ => false end = true) as H by by_vm.
  split; [|done]. destruct (directed_random_graph oracle0 2 [(0, 0)] [0; 1]); [done|]. by apply bool_decide_eq_true in H as ->.
Qed.

Example C44_random_ex : [2; 0; 1] ≡ₚ seq 0 3 ∧ (∀ x y, (x, y) ∈ [(0, 1); (1, 2)] → x < 3 ∧ y < 3 ∧ x ≠ y) ∧
  ∃ d, directed_random_graph oracle0 3 [(0, 1); (1, 2)] [2; 0; 1] = Ok d ∧ d_arcs d = {[(0, 1); (2, 1)]}.
Proof.
  split; [by apply (bool_decide_unpack _); vm_compute|]. split.
  { intros x y H. rewrite !elem_of_cons, elem_of_nil in H. destruct H as [[= -> ->]|[[= -> ->]|[]]]; lia. }
  assert (match directed_random_graph oracle0 3 [(0, 1); (1, 2)] [2; 0; 1] with Ok d => bool_decide (d_arcs d = {[(0, 1); (2, 1)]}) | Raise _ => false end = true) as H by by_vm.
  destruct (directed_random_graph oracle0 3 [(0, 1); (1, 2)] [2; 0; 1]) as [d|]; [|done]. exists d. split; [done|]. by apply bool_decide_eq_true in H.
Qed.

Print Assumptions C44_directed_erdos.
Print Assumptions C44_all_tails.
Print Assumptions C44_all_heads.
Print Assumptions C44_every_dag.
Print Assumptions C44_erdos_with_confounders.
Print Assumptions C44_confounders_are_sources.
Print Assumptions C44_confounder_nodes_refuted.
Print Assumptions C44_directed_random_graph.
Print Assumptions C44_random_graph_every_dag.
Print Assumptions C44_random_graph_refuted.
