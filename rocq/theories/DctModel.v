(** Model of the directed clique trees of graphical_models/classes/dags/dag.py, lines 2484-2630.  Cliques are frozensets of
    nodes.  [networkx.chordal_graph_cliques] is not modelled: the list [cl] of the cliques it returns is a parameter, in
    the order in which the set of cliques is iterated. *)
From Verif Require Import Py Spec DagModel.

(** [networkx.utils.UnionFind]: each object has a parent, the parent of a root is the root itself.  Each object
    that has a parent has a weight. *)
Record uf := UF { uf_par : gmap nset nset; uf_wt : gmap nset nat }.
Definition uf0 : uf := UF ∅ ∅.
(** [__getitem__]: an unknown object becomes a root.  Otherwise the parents are followed up to the root, and all objects
    on the way get the root as parent. *)
Fixpoint uf_walk (fuel : nat) (p : gmap nset nset) (x : nset) (path : list nset) : res (list nset * nset) :=
  match fuel with
  | O => Raise OutOfFuel
  | S fuel =>
    match p !! x with
    | None => Raise KeyError
    | Some r => if decide (r = x) then Ok (path, r) else uf_walk fuel p r (path ++ [r])
    end
  end.
Definition uf_find (u : uf) (x : nset) : res (uf * nset) :=
  match uf_par u !! x with
  | None => Ok (UF (<[x := x]> (uf_par u)) (<[x := 1]> (uf_wt u)), x)
  | Some _ =>
    res_bind (uf_walk (S (size (uf_par u))) (uf_par u) x [x]) (λ pr,
      Ok (UF (foldl (λ p a, <[a := pr.2]> p) (uf_par u) pr.1) (uf_wt u), pr.2))
  end.
(** [union(x, y)]: the root with the larger weight becomes the parent of the other one.  If the weights are equal, [tie]
    says which root comes first in the set of the two roots. *)
Definition uf_union (tie : nset → nset → bool) (u : uf) (x y : nset) : res uf :=
  res_bind (uf_find u x) (λ ua, res_bind (uf_find ua.1 y) (λ ub,
    let u := ub.1 in
    let a := ua.2 in
    let b := ub.2 in
    if decide (a = b) then Ok u else
    let wa := default 0 (uf_wt u !! a) in
    let wb := default 0 (uf_wt u !! b) in
    let first := if decide (wb < wa) then true else if decide (wa < wb) then false else tie a b in
    let root := if first then a else b in
    let other := if first then b else a in
    Ok (UF (<[other := root]> (uf_par u)) (<[root := wa + wb]> (uf_wt u))))).

(** The edges of the tree (a [MultiDiGraph]; an edge is only added between different subtrees) and the two [UnionFind]s. *)
Notation cedge := (nset * nset)%type.
Record dct_state := Dct { s_ct : list cedge; s_sub : uf; s_bid : uf }.

(** Line 2516: the pairs of cliques with common nodes in the order of [itertools.combinations]. *)
Fixpoint pairs {A} (l : list A) : list (A * A) :=
  match l with
  | [] => []
  | x :: l => ((x,.) <$> l) ++ pairs l
  end.
Definition meet (e : cedge) : nat := size (e.1 ∩ e.2).
(** Line 2519: [sorted] is stable, also with [reverse=True]. *)
Definition by_size (l : list cedge) : list cedge :=
  concat ((λ w, filter (λ e, meet e = w) l) <$> reverse (seq 1 (foldr (λ e m, meet e `max` m) 0 l))).
(** Lines 2523-2524. *)
Definition all_into (A : arcset) (s c : nset) : bool := bool_decide (set_Forall (λ x, set_Forall (λ y, (x, y) ∈ A) (c ∖ s)) s).
(** [set(ct.predecessors(c)) - set(ct.successors(c))] is not empty. *)
Definition is_target (ct : list cedge) (c : nset) : bool := existsb (λ e, bool_decide (e.2 = c ∧ (c, e.1) ∉ ct)) ct.
(** Lines 2528-2531 and 2541-2548: the objects whose parent is the root [r] are looked at. *)
Definition has_source (ct : list cedge) (u : uf) (r : nset) : bool :=
  existsb (λ p, bool_decide (p.2 = r) && is_target ct p.1) (map_to_list (uf_par u)).
(** The loop body, lines 2519-2552. *)
Definition dct_step (A : arcset) (tie : nset → nset → bool) (e : cedge) (st : dct_state) : res dct_state :=
  let '(c1, c2) := e in
  res_bind (uf_find (s_sub st) c1) (λ p1, res_bind (uf_find p1.1 c2) (λ p2,
    let sub := p2.1 in
    if decide (p1.2 = p2.2) then Ok (Dct (s_ct st) sub (s_bid st)) else
    let shared := c1 ∩ c2 in
    let into1 := all_into A shared c1 in
    let into2 := all_into A shared c2 in
    if into1 && into2 then
      res_bind (uf_find (s_bid st) c1) (λ b1, res_bind (uf_find b1.1 c2) (λ b2,
        let bid := b2.1 in
        if has_source (s_ct st) bid b1.2 && has_source (s_ct st) bid b2.2 then Ok (Dct (s_ct st) sub bid) else
        res_bind (uf_union tie sub c1 c2) (λ sub, res_bind (uf_union tie bid c1 c2) (λ bid,
          Ok (Dct (s_ct st ++ [(c1, c2); (c2, c1)]) sub bid)))))
    else
      let '(c1, c2) := if into2 then (c1, c2) else (c2, c1) in
      res_bind (uf_find (s_bid st) c2) (λ b2,
        let bid := b2.1 in
        if has_source (s_ct st) bid b2.2 then Ok (Dct (s_ct st) sub bid) else
        res_bind (uf_union tie sub c1 c2) (λ sub, Ok (Dct (s_ct st ++ [(c1, c2)]) sub bid))))).
(** [directed_clique_tree], lines 2513-2557, without the labels of the edges. *)
Definition directed_clique_tree (tie : nset → nset → bool) (cl : list nset) (d : dag) : res (list cedge) :=
  res_bind (loopR (dct_step (d_arcs d) tie) (by_size (filter (λ e : cedge, e.1 ∩ e.2 ≠ ∅) (pairs cl))) (Dct [] uf0 uf0))
    (λ st, Ok (s_ct st)).

(** [networkx.connected_components] of the graph of the edges that are there in both directions, lines 2586-2590: cliques in the
    same component get the same label. *)
Definition join_label (L : nset → nset) (e : cedge) : nset → nset :=
  let a := L e.1 in
  let b := L e.2 in
  λ x, let r := L x in if decide (r = b) then a else r.
Definition labels (ct : list cedge) : nset → nset :=
  foldl join_label (λ x, x) (filter (λ e : cedge, (e.2, e.1) ∈ ct) ct).
(** [clique2component], line 2591. *)
Definition comp_of (ct : list cedge) (cl : list nset) : nset → list nset :=
  let L := labels ct in λ c, let r := L c in filter (λ c', L c' = r) cl.
(** [contracted_directed_clique_tree], lines 2583-2601: the components, in the order of their first cliques, and the arcs between them. *)
Definition contracted (ct : list cedge) (cl : list nset) : list (list nset) * list (list nset * list nset) :=
  (reverse (remove_dups (reverse (comp_of ct cl <$> cl))),
   remove_dups (filter (λ p : list nset * list nset, p.1 ≠ p.2) ((λ e : cedge, (comp_of ct cl e.1, comp_of ct cl e.2)) <$> ct))).
(** [residuals], lines 2625-2630.  [ord] is the order in which the predecessors of a component are iterated. *)
Definition parents_in (g : list (list nset) * list (list nset * list nset)) (c : list nset) : list (list nset) :=
  fst <$> filter (λ p : list nset * list nset, p.2 = c) g.2.
Definition residual (ord : list (list nset) → list (list nset)) (g : list (list nset) * list (list nset * list nset)) (c : list nset) : nset :=
  ⋃ c ∖ match ord (parents_in g c) with p :: _ => ⋃ p | [] => ∅ end.
Definition residuals (tie : nset → nset → bool) (ord : list (list nset) → list (list nset)) (cl : list nset) (d : dag) : res (list nset) :=
  res_bind (directed_clique_tree tie cl d) (λ ct,
    let g := contracted ct cl in Ok (residual ord g <$> g.1)).
