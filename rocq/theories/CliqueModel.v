(** Model of [PDAG.clique_size] and [PDAG.max_cliques], pdag.py:278-292, and of
    [PDAG.to_nx], pdag.py:105-110.  An undirected networkx graph built by
    [add_edges_from] is the set of its edges.  [networkx.chordal_graph_cliques] is
    not modelled: it is the parameter [nxc], which is given the edges and returns
    the cliques in the order in which they are iterated, or raises.
    [networkx.chordal_graph_treewidth] is modelled on top of it as in its source:
    the largest length of a clique, starting with -1, minus 1.  Both methods call
    themselves on the chain components; [n] bounds the depth of the calls, and
    [OutOfFuel] stands for the [RecursionError] of Python. *)
From Verif Require Import Py DagModel PdagModel UGraphModel MagModel.

Definition nx_cliques := arcset → res (list nset).

(** [PDAG.to_nx], lines 105-110; [NotImplementedError] is modelled as [RuntimeError]. *)
Definition p_to_nx (g : pdag) : res arcset :=
  if decide (p_arcs g = ∅) then Ok (p_edges g) else Raise RuntimeError.

(** [networkx.chordal_graph_treewidth]. *)
Definition chordal_graph_treewidth (nxc : nx_cliques) (E : arcset) : res Z :=
  res_bind (nxc E) (λ cl, Ok (foldl (λ m (C : nset), Z.max m (Z.of_nat (size C))) (-1)%Z cl - 1)%Z).

(** The values of the generators in lines 284 and 292. *)
Fixpoint res_each {A B} (f : A → res B) (l : list A) : res (list B) :=
  match l with [] => Ok [] | x :: l' => res_bind (f x) (λ y, res_bind (res_each f l') (λ ys, Ok (y :: ys))) end.

(** [clique_size], lines 278-284; [max] of nothing raises [ValueError]. *)
Fixpoint clique_size (nxc : nx_cliques) (o : oracle) (n : nat) (g : pdag) : res Z :=
  match n with
  | 0 => Raise OutOfFuel
  | S n' =>
    if decide (size (p_arcs g) = 0) then
      res_bind (p_to_nx g) (λ E, res_bind (chordal_graph_treewidth nxc E) (λ w, Ok (w + 1)%Z))
    else
      res_bind (chain_components g o) (λ cs,
      res_bind (res_each (clique_size nxc o n') cs) (λ zs,
        match zs with [] => Raise ValueError | z :: zs' => Ok (foldl Z.max z zs') end))
  end.

(** [max_cliques], lines 286-292; [set.union] without arguments raises [TypeError]. *)
Fixpoint max_cliques (nxc : nx_cliques) (o : oracle) (n : nat) (g : pdag) : res (gset nset) :=
  match n with
  | 0 => Raise OutOfFuel
  | S n' =>
    if decide (size (p_arcs g) = 0) then
      res_bind (p_to_nx g) (λ E, res_bind (nxc E) (λ cl, Ok (list_to_set cl)))
    else
      res_bind (chain_components g o) (λ cs,
      res_bind (res_each (max_cliques nxc o n') cs) (λ Cs,
        match Cs with [] => Raise TypeError | _ => Ok (⋃ Cs) end))
  end.
