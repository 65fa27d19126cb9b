(** Model of [residual_essential_graph] (classes/dags/dag.py, lines 2632-2668).

    The [PDAG] that is built in line 2667 is the one of the package causaldag, which is not in this repository; the model returns the
    three arguments [nodes], [arcs] and [edges] of that call.  The pairs given as edges have the direction of the arcs of the graph. *)
From Verif Require Import Py DagModel DctModel.

(** Lines 2659-2660: the nodes of the first predecessor of a component. *)
Definition parent_nodes (ord : list (list nset) → list (list nset)) (g : list (list nset) * list (list nset * list nset)) (c : list nset) : nset :=
  match ord (parents_in g c) with p :: _ => ⋃ p | [] => ∅ end.
(** Lines 2662-2666; the residuals of line 2661 are those of [residuals]. *)
Definition reg_arcs (ord : list (list nset) → list (list nset)) (g : list (list nset) * list (list nset * list nset)) : arcset :=
  list_to_set (c ← g.1; p ← elements (parent_nodes ord g c ∩ ⋃ c); r ← elements (residual ord g c); [(p, r)]).
(** Line 2667. *)
Definition residual_essential_graph (tie : nset → nset → bool) (ord : list (list nset) → list (list nset)) (cl : list nset) (d : dag) :
    res (nset * arcset * arcset) :=
  res_bind (directed_clique_tree tie cl d) (λ ct,
    let arcs := reg_arcs ord (contracted ct cl) in Ok (d_nodes d, arcs ∩ d_arcs d, d_arcs d ∖ arcs)).
