(** Model of the class [DAG] (graphical_models/classes/dags/dag.py): state,
    mutators, topological sort, reachability and elementary queries.
    Line numbers refer to that file unless stated otherwise. *)
From Verif Require Import Py.

(** Attributes of a [DAG] instance, dag.py:53-57. *)
Record dag := Dag {
  d_nodes : nset;
  d_arcs : arcset;
  d_nbr : dmap;
  d_par : dmap;
  d_chi : dmap
}.

Definition nbrs (d : dag) (n : node) : nset := dget (d_nbr d) n.
Definition parents (d : dag) (n : node) : nset := dget (d_par d) n.
Definition children (d : dag) (n : node) : nset := dget (d_chi d) n.

(** [DAG()] before any arc is added, dag.py:53-57. *)
Definition dag_init (nodes : nset) : dag := Dag nodes ∅ ∅ ∅ ∅.

(** [__eq__], dag.py:61-64 (both arguments are DAGs). *)
Definition dag_eqb (d1 d2 : dag) : bool :=
  bool_decide (d_nodes d1 = d_nodes d2) && bool_decide (d_arcs d1 = d_arcs d2).

(** [_mark_children_visited], dag.py:951-963.  The dictionaries [any_visited]
    and [curr_path_visited] are represented by the set of keys mapped to [True];
    their key set is [d_nodes d], so looking up another node is a [KeyError].
    Python's recursion limit is not modelled. *)
Record tstate := TState {
  t_any : nset;
  t_cur : nset;
  t_path : list node;
  t_stack : list node
}.

Fixpoint mark_children_visited (d : dag) (o : oracle) (fuel : nat) (n : node) (st : tstate) : res tstate :=
  match fuel with
  | 0 => Raise OutOfFuel
  | S fuel' =>
      let st1 := TState ({[n]} ∪ t_any st) ({[n]} ∪ t_cur st) (t_path st ++ [n]) (t_stack st) in
      match
        loopR
          (λ c st,
             if decide (c ∈ d_nodes d) then
               if decide (c ∈ t_any st) then
                 if decide (c ∈ t_cur st) then Raise (CycleError (t_path st ++ [c])) else Ok st
               else mark_children_visited d o fuel' c st
             else Raise KeyError)
          (on o [1; n] (children d n)) st1
      with
      | Raise e => Raise e
      | Ok st2 => Ok (TState (t_any st2) (t_cur st2 ∖ {[n]}) (take (pred (length (t_path st2))) (t_path st2)) (t_stack st2 ++ [n]))
      end
  end.

(** [topological_sort], dag.py:618-641. *)
Definition topological_sort (d : dag) (o : oracle) : res (list node) :=
  match
    loopR
      (λ n st,
         if decide (n ∈ t_any st) then Ok st
         else mark_children_visited d o (S (size (d_nodes d))) n st)
      (on o [0] (d_nodes d)) (TState ∅ ∅ [] [])
  with
  | Raise e => Raise e
  | Ok st => Ok (reverse (t_stack st))
  end.

(** [_check_acyclic], dag.py:948-949. *)
Definition check_acyclic (o : oracle) : M dag unit :=
  λ d, match topological_sort d o with Ok _ => (d, Ok tt) | Raise e => (d, Raise e) end.

(** [add_node], dag.py:692-714. *)
Definition add_node (n : node) : M dag unit :=
  λ d, (Dag ({[n]} ∪ d_nodes d) (d_arcs d) (d_nbr d) (d_par d) (d_chi d), Ok tt).

(** [add_nodes_from], dag.py:716-739. *)
Definition add_nodes_from (l : list node) : M dag unit := mfor l add_node.

(** The attribute updates of [add_arc], dag.py:804-812. *)
Definition insert_arc (i j : node) (d : dag) : dag :=
  Dag ({[j]} ∪ ({[i]} ∪ d_nodes d)) ({[(i, j)]} ∪ d_arcs d)
    (dadd (dadd (d_nbr d) i j) j i)
    (dadd (d_par d) j i)
    (dadd (d_chi d) i j).

(** [self._arcs.remove((i, j))] and the [set.remove] calls on the three maps:
    [KeyError] when the element is absent. *)
Definition arcs_remove (i j : node) : M dag unit :=
  λ d, if decide ((i, j) ∈ d_arcs d)
       then (Dag (d_nodes d) (d_arcs d ∖ {[(i, j)]}) (d_nbr d) (d_par d) (d_chi d), Ok tt)
       else (d, Raise KeyError).
Definition par_remove (k x : node) : M dag unit :=
  λ d, if decide (x ∈ parents d k)
       then (Dag (d_nodes d) (d_arcs d) (d_nbr d) (ddel (d_par d) k x) (d_chi d), Ok tt)
       else (d, Raise KeyError).
Definition chi_remove (k x : node) : M dag unit :=
  λ d, if decide (x ∈ children d k)
       then (Dag (d_nodes d) (d_arcs d) (d_nbr d) (d_par d) (ddel (d_chi d) k x), Ok tt)
       else (d, Raise KeyError).
Definition nbr_remove (k x : node) : M dag unit :=
  λ d, if decide (x ∈ nbrs d k)
       then (Dag (d_nodes d) (d_arcs d) (ddel (d_nbr d) k x) (d_par d) (d_chi d), Ok tt)
       else (d, Raise KeyError).
Definition nodes_remove (n : node) : M dag unit :=
  λ d, if decide (n ∈ d_nodes d)
       then (Dag (d_nodes d ∖ {[n]}) (d_arcs d) (d_nbr d) (d_par d) (d_chi d), Ok tt)
       else (d, Raise KeyError).

(** The [except KeyError] clause shared by the removal methods,
    dag.py:773-777 and 894-898. *)
Definition guard_keyerror {S} (ignore_error : bool) (m : M S unit) : M S unit :=
  mcatch m (λ e, match e with
                 | KeyError => if ignore_error then mret tt else mraise KeyError
                 | e => mraise e
                 end).

(** [remove_arc], dag.py:867-898. *)
Definition remove_arc (i j : node) (ignore_error : bool) : M dag unit :=
  guard_keyerror ignore_error
    (arcs_remove i j ;;;
     par_remove j i ;;;
     chi_remove i j ;;;
     nbr_remove j i ;;;
     nbr_remove i j).

(** [remove_arcs_from], dag.py:900-920. *)
Definition remove_arcs_from (arcs : list arc) (ignore_error : bool) : M dag unit :=
  mfor arcs (λ a, remove_arc a.1 a.2 ignore_error).

(** [except CycleError as e: h; raise e], dag.py:817-819 and 862-865. *)
Definition on_cycle_error {S} (m : M S unit) (h : M S unit) : M S unit :=
  mcatch m (λ e, match e with
                 | CycleError w => h ;;; mraise (CycleError w)
                 | e => mraise e
                 end).

(** [add_arc], dag.py:779-819. *)
Definition add_arc (o : oracle) (i j : node) (check : bool) : M dag unit :=
  λ d, let d1 := insert_arc i j d in
       if check then on_cycle_error (check_acyclic o) (remove_arc i j false) d1 else (d1, Ok tt).

(** [add_arcs_from], dag.py:821-865.  [arcs] is the set obtained at line 845.
    The updates of lines 849-857 are [insert_arc] for every arc. *)
Definition add_arcs_from (o : oracle) (arcs : arcset) (check : bool) : M dag unit :=
  λ d, let l := oa o [2] arcs in
       let d1 := foldl (λ d a, insert_arc a.1 a.2 d) d l in
       if decide (arcs = ∅) then (d, Ok tt)
       else if check then
         on_cycle_error (check_acyclic o) (mfor l (λ a, remove_arc a.1 a.2 false)) d1
       else (d1, Ok tt).

(** [reverse_arc], dag.py:922-946. *)
Definition reverse_arc (o : oracle) (i j : node) (ignore_error check : bool) : M dag unit :=
  remove_arc i j ignore_error ;;; add_arc o j i check.

(** [remove_node], dag.py:741-777.  The two loops iterate over
    [self._parents[node]] and [self._children[node]]; neither set is modified
    while it is being iterated (a self loop is removed from [_children[node]] by
    the first loop, before the second loop starts). *)
Definition remove_node (o : oracle) (n : node) (ignore_error : bool) : M dag unit :=
  guard_keyerror ignore_error
    (nodes_remove n ;;;
     (λ d, mfor (on o [3] (parents d n)) (λ p, chi_remove p n ;;; nbr_remove p n) d) ;;;
     (λ d, mfor (on o [4] (children d n)) (λ c, par_remove c n ;;; nbr_remove c n) d) ;;;
     (λ d, (Dag (d_nodes d) (filter (λ a, a.1 ≠ n ∧ a.2 ≠ n) (d_arcs d))
              (delete n (d_nbr d)) (delete n (d_par d)) (delete n (d_chi d)), Ok tt))).

(** Constructor [DAG(nodes, arcs)], dag.py:39-59: arcs are added with the
    acyclicity check. *)
Definition dag_new (o : oracle) (nodes : nset) (arcs : arcset) : dag * res unit :=
  add_arcs_from o arcs true (dag_init nodes).
(** The constructor as an expression: no object is returned if it raises. *)
Definition dag_make (o : oracle) (nodes : nset) (arcs : arcset) : res dag :=
  match dag_new o nodes arcs with (d, Ok _) => Ok d | (_, Raise e) => Raise e end.

(** [copy] = [DAG(dag=self)], dag.py:40-51, 80-85: every set is copied. *)
Definition dag_copy (d : dag) : dag := Dag (d_nodes d) (d_arcs d) (d_nbr d) (d_par d) (d_chi d).

(** A call of a public mutator, with the iteration oracle it happens to use. *)
Inductive call :=
  | CAddNode (n : node)
  | CAddNodesFrom (l : list node)
  | CAddArc (o : oracle) (i j : node) (check : bool)
  | CAddArcsFrom (o : oracle) (arcs : arcset) (check : bool)
  | CRemoveArc (i j : node) (ignore_error : bool)
  | CRemoveArcsFrom (arcs : list arc) (ignore_error : bool)
  | CReverseArc (o : oracle) (i j : node) (ignore_error check : bool)
  | CRemoveNode (o : oracle) (n : node) (ignore_error : bool).

Definition exec (c : call) : M dag unit :=
  match c with
  | CAddNode n => add_node n
  | CAddNodesFrom l => add_nodes_from l
  | CAddArc o i j chk => add_arc o i j chk
  | CAddArcsFrom o arcs chk => add_arcs_from o arcs chk
  | CRemoveArc i j ign => remove_arc i j ign
  | CRemoveArcsFrom arcs ign => remove_arcs_from arcs ign
  | CReverseArc o i j ign chk => reverse_arc o i j ign chk
  | CRemoveNode o n ign => remove_node o n ign
  end.

(** A history of calls; exceptions are caught by the caller, who goes on using
    the object. *)
Definition run (h : list call) (d : dag) : dag := foldl (λ d c, (exec c d).1) d h.

(** [_add_ancestors] / [_add_descendants], dag.py:361-365 and 323-327: recursive
    closure over [next] = [self._parents] / [self._children]. *)
Fixpoint add_closure (next : node → nset) (o : oracle) (fuel : nat) (n : node) (acc : nset) : res nset :=
  match fuel with
  | 0 => Raise OutOfFuel
  | S fuel' =>
      loopR (λ p acc, if decide (p ∈ acc) then Ok acc else add_closure next o fuel' p ({[p]} ∪ acc))
        (on o [5; n] (next n)) acc
  end.

Definition closure_fuel (d : dag) : nat := S (size (d_nodes d)).

Definition add_ancestors (d : dag) (o : oracle) (n : node) (acc : nset) : res nset :=
  add_closure (parents d) o (closure_fuel d) n acc.
Definition add_descendants (d : dag) (o : oracle) (n : node) (acc : nset) : res nset :=
  add_closure (children d) o (closure_fuel d) n acc.

(** [ancestors_of(node)], dag.py:392-394,397, and with a set argument,
    dag.py:395-397. *)
Definition ancestors_of (d : dag) (o : oracle) (n : node) : res nset := add_ancestors d o n ∅.
Definition ancestors_of_set (d : dag) (o : oracle) (X : nset) : res nset :=
  loopR (λ n acc, res_bind (ancestors_of d o n) (λ a, Ok (acc ∪ a))) (on o [6] X) ∅.

(** [descendants_of(node)], dag.py:354-356,359, and with a set argument,
    dag.py:357-358: [set.union()] of no argument is a [TypeError]. *)
Definition descendants_of (d : dag) (o : oracle) (n : node) : res nset := add_descendants d o n ∅.
Definition descendants_of_set (d : dag) (o : oracle) (X : nset) : res nset :=
  if decide (X = ∅) then Raise TypeError
  else loopR (λ n acc, res_bind (descendants_of d o n) (λ a, Ok (acc ∪ a))) (on o [6] X) ∅.

(** [is_ancestor_of], dag.py:321. *)
Definition is_ancestor_of (d : dag) (o : oracle) (a b : node) : res bool :=
  if decide (b ∈ children d a) then Ok true
  else res_bind (descendants_of d o a) (λ X, Ok (bool_decide (b ∈ X))).

(** [ancestor_dict], dag.py:416-427 (the returned dictionary, read at any node). *)
Definition ancestor_dict (d : dag) (o : oracle) : res dmap :=
  res_bind (topological_sort d o) (λ top,
    let m := foldl (λ m n,
               let m1 := dadd m n n in
               foldl (λ m c, <[c := dget m c ∪ dget m n]> m) m1 (on o [7; n] (children d n)))
             (∅ : dmap) top in
    Ok (foldl (λ m n, ddel m n n) m (on o [8] (d_nodes d)))).

(** [descendant_dict], dag.py:446-457. *)
Definition descendant_dict (d : dag) (o : oracle) : res dmap :=
  res_bind (topological_sort d o) (λ top,
    let m := foldl (λ m n,
               let m1 := dadd m n n in
               foldl (λ m c, <[c := dget m c ∪ dget m n]> m) m1 (on o [7; n] (parents d n)))
             (∅ : dmap) (reverse top) in
    Ok (foldl (λ m n, ddel m n n) m (on o [8] (d_nodes d)))).

(** [{node: ix for ix, node in enumerate(order)}]: a later position overrides. *)
Fixpoint node2ix_from (k : nat) (order : list node) (m : gmap nat nat) : gmap nat nat :=
  match order with
  | [] => m
  | n :: order' => node2ix_from (S k) order' (<[n := k]> m)
  end.
Definition node2ix (order : list node) : gmap nat nat := node2ix_from 0 order ∅.

(** [is_topological], dag.py:664-665: [all] stops at the first [False]; a
    missing node is a [KeyError]. *)
Fixpoint all_arcs_before (m : gmap nat nat) (l : list arc) : res bool :=
  match l with
  | [] => Ok true
  | (i, j) :: l' =>
      match m !! i, m !! j with
      | Some x, Some y => if decide (x < y) then all_arcs_before m l' else Ok false
      | _, _ => Raise KeyError
      end
  end.
Definition is_topological (d : dag) (o : oracle) (order : list node) : res bool :=
  all_arcs_before (node2ix order) (oa o [9] (d_arcs d)).

(** [permutation_score], dag.py:688-689. *)
Fixpoint count_errors (m : gmap nat nat) (l : list arc) : res nat :=
  match l with
  | [] => Ok 0
  | (i, j) :: l' =>
      match m !! i, m !! j with
      | Some x, Some y =>
          res_bind (count_errors m l') (λ k, Ok ((if decide (y < x) then 1 else 0) + k))
      | _, _ => Raise KeyError
      end
  end.
Definition permutation_score (d : dag) (o : oracle) (order : list node) : res nat :=
  count_errors (node2ix order) (oa o [9] (d_arcs d)).

(** [markov_blanket_of], dag.py:299-301 ([-] binds tighter than [|]). *)
Definition union_over (f : node → nset) (X : nset) : nset := set_fold (λ n acc, f n ∪ acc) ∅ X.
Definition markov_blanket_of (d : dag) (n : node) : nset :=
  parents d n ∪ children d n ∪ (union_over (parents d) (children d n) ∖ {[n]}).

(** [sources], [sinks], dag.py:1004 and 1022. *)
Definition sources (d : dag) : nset := filter (λ n, parents d n = ∅) (d_nodes d).
Definition sinks (d : dag) : nset := filter (λ n, children d n = ∅) (d_nodes d).

(** [reversible_arcs], [is_reversible], dag.py:1041-1045 and 1071. *)
Definition is_reversible (d : dag) (i j : node) : bool :=
  bool_decide (parents d i = parents d j ∖ {[i]}).
Definition reversible_arcs (d : dag) : arcset :=
  filter (λ a, parents d a.1 = parents d a.2 ∖ {[a.1]}) (d_arcs d).

(** [arcs_in_vstructures], dag.py:1091. *)
Definition arcs_in_vstructures (d : dag) : arcset :=
  filter (λ a, parents d a.2 ∖ nbrs d a.1 ∖ {[a.1]} ≠ ∅) (d_arcs d).

(** [vstructures], dag.py:1112-1117. *)
Definition vstructures (d : dag) (o : oracle) : gset (node * node * node) :=
  list_to_set
    (n ← on o [10] (d_nodes d);
     '(p1, p2) ← combinations2 (on o [11; n] (parents d n));
     if decide (p1 ∉ parents d p2 ∧ p2 ∉ parents d p1) then [(p1, n, p2)] else []).

(** [upstream_most], dag.py:1153. *)
Definition upstream_most (d : dag) (o : oracle) (s : nset) : res nset :=
  loopR (λ n acc, res_bind (ancestors_of d o n) (λ a,
           Ok (if decide (a ∩ s = ∅) then {[n]} ∪ acc else acc))) (on o [12] s) ∅.

(** [induced_subgraph], dag.py:131. *)
Definition induced_subgraph (d : dag) (o : oracle) (X : nset) : res dag :=
  dag_make o X (filter (λ a, a.1 ∈ X ∧ a.2 ∈ X) (d_arcs d)).

(** [ancestral_subgraph] with a set argument, dag.py:134-136. *)
Definition ancestral_subgraph (d : dag) (o : oracle) (X : nset) : res dag :=
  res_bind (ancestors_of_set d o X) (λ a, induced_subgraph d o (a ∪ X)).

(** [rename_nodes], dag.py:104-107; a label missing from [name_map] is a
    [KeyError]. *)
Definition rename_nodes (d : dag) (o : oracle) (name_map : gmap nat nat) : res dag :=
  if decide (set_Forall (λ n, is_Some (name_map !! n)) (d_nodes d)
             ∧ set_Forall (λ a, is_Some (name_map !! a.1) ∧ is_Some (name_map !! a.2)) (d_arcs d))
  then dag_make o (set_map (λ n, default 0 (name_map !! n)) (d_nodes d))
         (set_map (λ a, (default 0 (name_map !! a.1), default 0 (name_map !! a.2))) (d_arcs d))
  else Raise KeyError.

(** [nodes_between], dag.py:460-461. *)
Definition nodes_between (d : dag) (o : oracle) (s t : node) : res nset :=
  res_bind (ancestors_of d o t) (λ a, res_bind (descendants_of d o s) (λ b,
    let between := a ∩ b in
    Ok (if decide (between = ∅) then between else between ∪ {[s; t]}))).

(** [edges_between], dag.py:464-465: [itr.combinations] yields each unordered
    pair once, in iteration order. *)
Definition edges_between (d : dag) (o : oracle) (s t : node) : res arcset :=
  res_bind (nodes_between d o s t) (λ X,
    Ok (list_to_set (filter (λ a, a ∈ d_arcs d) (combinations2 (on o [13] X))))).
