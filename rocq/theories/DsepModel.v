(** Model of the separation queries of [DAG] (graphical_models/classes/dags/dag.py).
    Arguments are sets (the coercion [core_utils.to_set] is modelled in
    [CoreUtilsModel]). *)
From Verif Require Import Py DagModel.

(** [set.pop]: removes an unspecified element; [pop k] is the choice made at the
    [k]-th iteration. *)
Record popper (X : Type) `{Countable X} := Popper {
  pop : nat → gset X → option X;
  pop_some : ∀ k S, S ≠ ∅ → ∃ x, pop k S = Some x ∧ x ∈ S
}.
Arguments pop {X _ _} p k S.
Arguments pop_some {X _ _} p k S.

Lemma head_elements_some {X} `{Countable X} (S : gset X) : S ≠ ∅ → ∃ x, head (elements S) = Some x ∧ x ∈ S.
Proof.
  intros HS. destruct (elements S) as [|x l] eqn:He.
  - destruct HS. apply elements_empty_inv in He. by apply leibniz_equiv.
  - exists x. split; [done|]. rewrite <-elem_of_elements, He. left.
Qed.
Definition popper0 {X} `{Countable X} : popper X := Popper X _ _ (λ _ S, head (elements S)) (λ _ S, head_elements_some S).

Lemma last_elements_some {X} `{Countable X} (S : gset X) : S ≠ ∅ → ∃ x, last (elements S) = Some x ∧ x ∈ S.
Proof.
  intros HS. destruct (last (elements S)) as [x|] eqn:He.
  - exists x. split; [done|]. apply last_Some in He as [l He]. rewrite <-elem_of_elements, He. set_solver.
  - destruct HS. apply last_None, elements_empty_inv in He. by apply leibniz_equiv.
Qed.
Definition popper_last {X} `{Countable X} : popper X := Popper X _ _ (λ _ S, last (elements S)) (λ _ S, last_elements_some S).

(** The worklist loop shared by [dsep] and [is_invariant]:
    [while schedule: x = schedule.pop(); if stop x: return False;
     if x in visited: continue; visited.add(x); schedule.update(next x)]
    then [return True]. *)
Section worklist.
  Context {X : Type} `{Countable X} (p : popper X) (stop : X → bool) (next : X → gset X).
  Fixpoint worklist (fuel : nat) (sched visited : gset X) : res bool :=
    match fuel with
    | 0 => Raise OutOfFuel
    | S fuel' =>
        match pop p fuel' sched with
        | None => Ok true
        | Some x =>
            if decide (sched = ∅) then Ok true else
            let sched' := sched ∖ {[x]} in
            if stop x then Ok false
            else if decide (x ∈ visited) then worklist fuel' sched' visited
            else worklist fuel' (sched' ∪ next x) ({[x]} ∪ visited)
        end
    end.
End worklist.

(** [shaded_nodes]: [C] and its ancestors, dag.py:1897-1899 (and 2053-2055). *)
Definition shaded (d : dag) (o : oracle) (C : nset) : res nset :=
  loopR (λ c acc, add_closure (parents d) o (closure_fuel d) c acc) (on o [20] C) C.

(** Moves of the ball, dag.py:1923-1935 (and 2066-2078): [true] is the mark [_c]
    (coming from a child), [false] is [_p] (coming from a parent). *)
Definition with_dir (b : bool) (S : nset) : gset (node * bool) := set_map (λ n, (n, b)) S.
Definition ball_next (d : dag) (sh C : nset) (s : node * bool) : gset (node * bool) :=
  let '(v, dir) := s in
  if dir then
    if decide (v ∈ C) then ∅ else with_dir true (parents d v) ∪ with_dir false (children d v)
  else
    (if decide (v ∈ sh) then with_dir true (parents d v) else ∅) ∪
    (if decide (v ∈ C) then ∅ else with_dir false (children d v)).

Definition ball_fuel (d : dag) (A : nset) : nat :=
  let m := 2 * size (d_nodes d ∪ A) in S (m * (m + 1) + m).

(** [dsep], dag.py:1890-1939, with [certify=False]. *)
Definition dsep (d : dag) (o : oracle) (p : popper (node * bool)) (A B C : nset) : res bool :=
  res_bind (shaded d o C) (λ sh,
    worklist p (λ s, bool_decide (s.1 ∈ B)) (ball_next d sh C) (ball_fuel d A) (with_dir true A) ∅).

(** [is_invariant], dag.py:2046-2080. *)
Definition is_invariant (d : dag) (o : oracle) (p : popper (node * bool)) (A I C : nset) : res bool :=
  res_bind (shaded d o C) (λ sh,
    worklist p
      (λ s : node * bool, bool_decide (s.1 ∈ I) && (if s.2 then bool_decide (s.1 ∉ C) else bool_decide (s.1 ∈ sh)))
      (ball_next d sh C) (ball_fuel d A) (with_dir true A) ∅).

(** [dsep_from_given], dag.py:1966-2010.  A link is [(u, v)] with [u = None] for
    the dummy link into a member of [A].  One round of the [while True] loop
    computes [i_p_1_links] (lines 1988-2000); the reads [self._children[u]]
    create the key [u] in the [defaultdict], so the keys read are collected. *)
Notation link := (option nat * nat)%type.
Definition is_child (d : dag) (v : node) (u : option node) : bool :=
  match u with Some u => bool_decide (v ∈ children d u) | None => false end.
Definition legal_next (d : dag) (desc C : nset) (l : link) : gset link :=
  let '(u, v) := l in
  set_map (λ w, (Some v, w))
    (filter (λ w, u ≠ Some w ∧
        (if is_child d v u && bool_decide (v ∈ children d w)
         then bool_decide (v ∈ desc) else bool_decide (v ∉ C)) = true) (nbrs d v)).
Definition round (d : dag) (desc C : nset) (labeled ilinks : gset link) : gset link :=
  set_fold (λ l acc, legal_next d desc C l ∪ acc) ∅ ilinks ∖ labeled.

(** Keys of [self._children] read in one round: [u] whenever the body of the
    inner [if] is entered, then [w] if [v in self._children[u]]. *)
Definition keys_read (d : dag) (labeled ilinks : gset link) : gset (option nat) :=
  set_fold (λ (l : link) acc,
    set_fold (λ w acc,
      if decide (l.1 ≠ Some w ∧ (Some l.2, w) ∉ labeled) then
        {[l.1]} ∪ (if is_child d l.2 l.1 then {[Some w]} else ∅) ∪ acc else acc) acc (nbrs d l.2)) ∅ ilinks.

Fixpoint link_loop (d : dag) (desc C : nset) (fuel : nat) (labeled ilinks : gset link) (reach : nset)
    (keys : gset (option nat)) : res (nset * gset (option nat)) :=
  match fuel with
  | 0 => Raise OutOfFuel
  | S fuel' =>
      let nxt := round d desc C labeled ilinks in
      let reach' := reach ∪ set_map snd nxt in
      let keys' := keys ∪ keys_read d labeled ilinks in
      if decide (nxt = ∅) then Ok (reach', keys')
      else link_loop d desc C fuel' (labeled ∪ ilinks) nxt reach' keys'
  end.

Definition link_fuel (d : dag) (A : nset) : nat :=
  let m := size (d_nodes d ∪ A) in 2 * (S m * m) + 3.

(** The loop of lines 1973-1976 shares one accumulator over all [c]. *)
Definition dsep_from_given_keys (d : dag) (o : oracle) (A C : nset) : res (nset * gset (option nat)) :=
  res_bind (loopR (λ c acc, add_closure (parents d) o (closure_fuel d) c ({[c]} ∪ acc)) (on o [21] C) ∅) (λ desc,
  res_bind (link_loop d desc C (link_fuel d A) ∅ (set_map (λ a, (None, a)) A) A ∅) (λ rk,
    Ok (d_nodes d ∖ A ∖ C ∖ rk.1, rk.2))).
Definition dsep_from_given (d : dag) (o : oracle) (A C : nset) : res nset :=
  res_bind (dsep_from_given_keys d o A C) (λ rk, Ok rk.1).

(** [local_markov_statements], dag.py:2100-2105. *)
Definition local_markov_statements (d : dag) (o : oracle) : res (gset (node * nset * nset)) :=
  loopR (λ n acc, res_bind (descendants_of d o n) (λ D,
           Ok ({[(n, d_nodes d ∖ {[n]} ∖ D ∖ parents d n, parents d n)]} ∪ acc)))
    (on o [22] (d_nodes d)) ∅.

(** [is_imap], dag.py:1297: [all] stops at the first [False]; the statements are
    enumerated in an arbitrary order [ord]. *)
Fixpoint all_res {A} (f : A → res bool) (l : list A) : res bool :=
  match l with
  | [] => Ok true
  | x :: l' => match f x with
               | Ok true => all_res f l'
               | r => r
               end
  end.
Definition is_imap (d other : dag) (o : oracle) (p : popper (node * bool))
    (ord : gset (node * nset * nset) → list (node * nset * nset)) : res bool :=
  res_bind (local_markov_statements d o) (λ st,
    all_res (λ s : node * nset * nset, dsep other o p {[s.1.1]} s.1.2 s.2) (ord st)).

(** [next((... for i, j in self._arcs if ...), None)], dag.py:1339. *)
Fixpoint find_res {A} (f : A → res bool) (l : list A) : res (option A) :=
  match l with
  | [] => Ok None
  | x :: l' => match f x with
               | Ok true => Ok (Some x)
               | Ok false => find_res f l'
               | Raise e => Raise e
               end
  end.
(** [is_minimal_imap], dag.py:1333-1343, as the pair returned for [certify=True]
    (the first component is what is returned otherwise). *)
Definition is_minimal_imap (d other : dag) (o : oracle) (p : popper (node * bool))
    (ord : gset (node * nset * nset) → list (node * nset * nset)) (check_imap : bool) : res (bool * option arc) :=
  res_bind (if check_imap then is_imap d other o p ord else Ok true) (λ b,
    if b then
      res_bind (find_res (λ a : arc, dsep other o p {[a.1]} {[a.2]} (parents d a.2 ∖ {[a.1]})) (oa o [23] (d_arcs d)))
        (λ c, Ok (bool_decide (c = None), c))
    else Ok (false, None)).
