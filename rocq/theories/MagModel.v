(** Model of districts, Markov blankets, pairwise statements and maximality of
    [AncestralGraph].  Line numbers refer to
    graphical_models/classes/mags/ancestral_graph.py. *)
From Verif Require Import Py DagModel DsepModel UGraphModel PdagModel InterveneModel AncestralModel MsepModel.

(** [_bidirected_reachable], lines 992-998, with [next v] for
    [self._spouses[v] & node_subset].  The state is ([tmp], [visited]); the
    [filter] is lazy, so [visited] is read when the loop reaches the element.
    [PDAG._undirected_reachable] has the same text. *)
Fixpoint dfs (next : node → nset) (o : oracle) (fuel : nat) (v : node) (st : nset * nset) : res (nset * nset) :=
  match fuel with
  | 0 => Raise OutOfFuel
  | S fuel' =>
      loopR (λ w st, if decide (w ∈ st.2) then Ok st else dfs next o fuel' w st)
        (on o [92; v] (next v)) ({[v]} ∪ st.1, {[v]} ∪ st.2)
  end.
Definition dfs_fuel (N : nset) : nat := S (S (size N)).
(** [district_of], line 391. *)
Definition district_of (g : ag) (o : oracle) (v : node) (sub : option nset) : res nset :=
  let X := default (g_nodes g) sub in
  res_bind (dfs (λ u, g_spouses g u ∩ X) o (dfs_fuel (g_nodes g)) v (∅, ∅)) (λ st, Ok st.1).
(** The loop of [c_components], lines 1013-1022: [node_queue] is popped until it
    is empty, in some order. *)
Definition dfs_all (next : node → nset) (o : oracle) (N : nset) : res (list nset * nset) :=
  loopR (λ v st, if decide (v ∈ st.2) then Ok st
                 else res_bind (dfs next o (dfs_fuel N) v (∅, st.2)) (λ r, Ok (st.1 ++ [r.1], r.2)))
    (on o [93] N) ([], ∅).
Definition c_components (g : ag) (o : oracle) : res (list nset) :=
  res_bind (dfs_all (λ v, g_spouses g v ∩ g_nodes g) o (g_nodes g)) (λ st, Ok st.1).

(** [markov_blanket_of], lines 1338-1342; [set.union] of at least one set. *)
Definition mag_blanket (g : ag) (o : oracle) (v : node) : res nset :=
  res_bind (district_of g o v None) (λ d,
    Ok (d ∪ foldr (λ u acc, g_parents g u ∪ acc) ∅ (on o [97] d) ∪ {[v]})).
Definition mag_blanket_dict (g : ag) (o : oracle) (v : node) : res (list (node * nset)) :=
  res_bind (district_of g o v None) (λ d, Ok ((λ u, (u, g_parents g u)) <$> on o [97] d)).

(** [pairwise_markov_statements], lines 1119-1123.  [-] binds tighter than [|], so
    [{i, j}] is removed from the second set only. *)
Definition pairwise (g : ag) (o : oracle) : res (list (node * node * nset)) :=
  loopR (λ e acc,
    if has_any_edge g e.1 e.2 then Ok acc
    else res_bind (g_ancestors_of g o e.1) (λ a, res_bind (g_ancestors_of g o e.2) (λ b,
      Ok (acc ++ [(e.1, e.2, a ∪ (b ∖ {[e.1; e.2]}))]))))
    (combinations2 (on o [94] (g_nodes g))) [].

(** [_reachable], lines 1079-1108, with [next v] for the allowed neighbours that
    satisfy the predicate.  [visited] is shared by the recursive calls; the start
    is not in it. *)
Fixpoint reachable_to (next : node → nset) (o : oracle) (e : node) (fuel : nat) (v : node) (vis : nset) : res (bool * nset) :=
  match fuel with
  | 0 => Raise OutOfFuel
  | S fuel' =>
      (fix go (l : list node) (results : bool) (vis : nset) : res (bool * nset) :=
         match l with
         | [] => Ok (results, vis)
         | w :: l' =>
             if decide (w ∈ vis) then go l' results vis
             else if decide (w = e) then Ok (true, {[w]} ∪ vis)
             else res_bind (reachable_to next o e fuel' w ({[w]} ∪ vis)) (λ r, go l' (results || r.1) r.2)
         end) (on o [95; v] (next v)) false vis
  end.

(** [to_maximal(new=True)], lines 1887-1928. *)
Definition node2component (o : oracle) (cs : list nset) : gmap node nat :=
  foldl (λ m c, foldl (λ m n, <[n := c.1]> m) m (on o [96; c.1] c.2)) ∅ (zip (seq 0 (length cs)) cs).
Definition product (l k : list node) : list arc := l ≫= λ x, (λ y, (x, y)) <$> k.
Definition into_of (g : ag) (v : node) : nset := g_children g v ∪ g_spouses g v.
Definition induced_pairs (g : ag) (o : oracle) : res (list arc) :=
  res_bind (g_ancestor_dict g o) (λ anc,
  res_bind (c_components g o) (λ cs,
    let comp := node2component o cs in
    loopR (λ e acc,
      if has_any_edge g e.1 e.2 then Ok acc
      else loopR (λ n acc,
        match comp !! n.1, comp !! n.2 with
        | Some c1, Some c2 =>
            if decide (c1 = c2 ∧ n.1 ∈ dget anc e.2 ∧ n.2 ∈ dget anc e.1) then
              res_bind (reachable_to (λ v, g_spouses g v ∩ (dget anc e.1 ∪ dget anc e.2)) o n.2 (dfs_fuel (g_nodes g)) n.1 ∅)
                (λ r, Ok (if r.1 then acc ++ [e] else acc))
            else Ok acc
        | _, _ => Raise KeyError
        end) (product (on o [98; e.1; e.2] (into_of g e.1)) (on o [98; e.2; e.1] (into_of g e.2))) acc)
      (combinations2 (on o [94] (g_nodes g))) [])).
Fixpoint max_loop (o : oracle) (fuel : nat) : M ag unit :=
  match fuel with
  | 0 => mraise OutOfFuel
  | S fuel' => λ g,
      match induced_pairs g (at_call o [99; fuel]) with
      | Raise e => (g, Raise e)
      | Ok l => (mfor l (λ e, add_bidirected e.1 e.2) ;;; if decide (l = []) then mret tt else max_loop o fuel') g
      end
  end.
Definition to_maximal (o : oracle) : M ag unit :=
  λ g, max_loop o (S (size (g_nodes g) * size (g_nodes g))) g.

(** [to_maximal(new=False)], lines 1930-1934. *)
Fixpoint any_msep (g : ag) (o : oracle) (p : popper (node * bool)) (i j : node) (l : list (list node)) : res bool :=
  match l with
  | [] => Ok false
  | s :: l' => res_bind (msep g o p {[i]} {[j]} (list_to_set s)) (λ b, if b then Ok true else any_msep g o p i j l')
  end.
Definition to_maximal_old (o : oracle) (p : popper (node * bool)) : M ag unit :=
  λ g0, mfor (combinations2 (on o [94] (g_nodes g0))) (λ e g,
    if has_any_edge g e.1 e.2 then (g, Ok tt)
    else match any_msep g o p e.1 e.2 (powerset (on o [100; e.1; e.2] (g_nodes g ∖ {[e.1; e.2]})) 0) with
         | Raise x => (g, Raise x)
         | Ok true => (g, Ok tt)
         | Ok false => add_bidirected e.1 e.2 g
         end) g0.

(** [is_maximal], lines 1372-1374. *)
Definition is_maximal (g : ag) (o : oracle) (flip : arc → bool) : res bool :=
  res_bind (ag_copy g o flip) (λ h,
    match to_maximal o h with (h', Ok _) => Ok (ag_eqb h' g) | (_, Raise e) => Raise e end).

(** [is_imap] with [certify=False], lines 1147-1158.  The [Exception] is modelled
    as [RuntimeError].  The statements are kept in the order in which they were
    produced; the Python code iterates over a set of them and only uses whether
    one fails. *)
Fixpoint all_msep (h : ag) (o : oracle) (p : popper (node * bool)) (l : list (node * node * nset)) : res bool :=
  match l with
  | [] => Ok true
  | (i, j, C) :: l' => res_bind (msep h o p {[i]} {[j]} C) (λ b, if b then all_msep h o p l' else Ok false)
  end.
Definition mag_is_imap (g h : ag) (o : oracle) (p : popper (node * bool)) (flip : arc → bool) : res bool :=
  res_bind (is_maximal g o flip) (λ b,
    if b then res_bind (pairwise g o) (all_msep h o p) else Raise RuntimeError).

(** [PDAG.induced_subgraph] with [rename=False], pdag.py:367-377. *)
Definition p_induced_subgraph (g : pdag) (o : oracle) (X : nset) : pdag :=
  pdag_make o X (filter (λ a, a.1 ∈ X ∧ a.2 ∈ X) (p_arcs g)) (filter (λ e, e.1 ∈ X ∧ e.2 ∈ X) (p_edges g)) ∅.
(** [PDAG.chain_components] with [rename=False], pdag.py:348-365. *)
Definition chain_components (g : pdag) (o : oracle) : res (list pdag) :=
  res_bind (dfs_all (p_unbrs g) o (p_nodes g)) (λ st, Ok (p_induced_subgraph g o <$> filter (λ c, 1 < size c) st.1)).
