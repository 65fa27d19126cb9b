(** Model of the faster comparison of ancestral graphs up to Markov equivalence.  Line numbers refer to
    graphical_models/classes/mags/ancestral_graph.py. *)
From Verif Require Import Py DagModel UGraphModel PdagModel CompareModel InterveneModel AncestralModel MagModel MagMecModel.

(** [parents_of] and [spouses_of] of a set, lines 195 and 218: [set.union] of at least one set.  The empty set
    raises [TypeError]. *)
Definition g_parents_of_set (g : ag) (o : oracle) (X : nset) : res nset := g_union_of (λ n, Ok (g_parents g n)) o X.
Definition g_spouses_of_set (g : ag) (o : oracle) (X : nset) : res nset := g_union_of (λ n, Ok (g_spouses g n)) o X.

(** [_tail_of], lines 1518-1522; [-] binds stronger than [|]. *)
Definition g_tail_of (g : ag) (o : oracle) (v w : node) (anc : dmap) : res nset :=
  let ancestors : nset := dget anc v ∪ dget anc w ∪ {[v; w]} in
  res_bind (district_of g o v (Some ancestors)) (λ d,
  res_bind (g_parents_of_set g o d) (λ p, Ok (p ∪ (d ∖ {[v; w]})))).

(** The test of lines 1502 and 1510. *)
Definition triple_open (g : ag) (v w z : node) : bool := negb (has_any_edge g v z && has_any_edge g w z).
(** Lines 1498-1514, for one bidirected edge. *)
Definition triples_edge (g : ag) (o : oracle) (anc des : dmap) (v w : node) (acc : gset nset) : res (gset nset) :=
  res_bind (g_tail_of g o v w anc) (λ t,
  let acc1 := foldl (λ (acc : gset nset) z, if triple_open g v w z then {[ {[v; w; z]} ]} ∪ acc else acc) acc (on o [182; v; w] t) in
  let a : nset := dget anc v ∪ dget anc w ∪ {[v; w]} in
  let d : nset := dget des v ∪ dget des w ∪ {[v; w]} in
  res_bind (g_spouses_of_set g o a) (λ sp,
  res_bind (district_of g o v None) (λ dis,
  loopR (λ z acc,
    if triple_open g v w z then
      res_bind (district_of g o v (Some (a ∪ dget anc z ∪ {[z]}))) (λ dz,
        Ok (if decide (z ∈ dz) then {[ {[v; w; z]} ]} ∪ acc else acc))
    else Ok acc) (on o [183; v; w] (sp ∩ (dis ∖ (a ∪ d)))) acc1))).
(** [discriminating_triples], lines 1493-1516.  A frozenset of nodes is a set of nodes; [flip] gives the order in
    which the two nodes of a bidirected edge are unpacked. *)
Definition discriminating_triples (g : ag) (o : oracle) (flip : arc → bool) : res (gset nset) :=
  res_bind (g_ancestor_dict g o) (λ anc,
  res_bind (g_descendant_dict g o) (λ des,
  res_bind (loopR (λ e acc, let e' := unpack flip e in triples_edge g o anc des e'.1 e'.2 acc) (oa o [181] (g_bi g)) ∅) (λ X,
    Ok (X ∪ set_map (λ t : node * node * node, ({[t.1.1; t.1.2; t.2]} : nset)) (g_vstructures g o))))).

(** [fast_markov_equivalent], lines 1580-1586. *)
Definition fast_markov_equivalent (g h : ag) (o o' : oracle) (flip flip' : arc → bool) : res bool :=
  if decide (g_skeleton g = g_skeleton h) then
    if decide (g_vstructures g o = g_vstructures h o') then
      res_bind (discriminating_triples g o flip) (λ a,
      res_bind (discriminating_triples h o' flip') (λ b, Ok (bool_decide (a = b))))
    else Ok false
  else Ok false.
