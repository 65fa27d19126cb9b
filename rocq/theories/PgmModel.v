(** Model of the conversion from and to [pgmpy].  Line numbers refer to graphical_models/classes/dags/discrete_dag.py.  Floats are
    exact rationals. *)
From Coq Require Import QArith.Qcanon.
From Verif Require Import Py Spec DagModel QMatModel DiscreteModel.
#[local] Open Scope Qc_scope.

(** What is used of a [BayesianNetwork] of [pgmpy]: the nodes in the order of the graph, the
    list [get_parents] of each node, and for each node with a [TabularCPD] its [evidence] and its array [values], whose axes
    are the node and then the evidence.  Names of states are left out, and so are labels that are not numbers. *)
Record pgm := Pgm { pg_nodes : list node; pg_preds : node → list node; pg_cpds : gmap node (list node * tensor) }.

(** [reshape] of numpy: entries are counted row by row. *)
Definition volume (sh : list nat) : nat := foldr Nat.mul 1%nat sh.
Fixpoint ravel (sh ix : list nat) : nat :=
  match sh, ix with
  | _ :: sh, i :: ix => (i * volume sh + ravel sh ix)%nat
  | _, _ => 0%nat
  end.
Fixpoint unravel (sh : list nat) (k : nat) : list nat :=
  match sh with
  | [] => []
  | _ :: sh => (k / volume sh)%nat :: unravel sh (k mod volume sh)
  end.

(** Line 758 and the call of [TabularCPD] at line 762: [conditional.reshape(-1, conditional.shape[-1]).T] must have as many rows as the
    node has values and as many columns as the evidence has; it is kept with one axis for each of these. *)
Definition pgm_values (c : tensor) (card : nat) (dims : list nat) : res tensor :=
  match reverse (t_shape c) with
  | [] => Raise IndexError
  | last :: r =>
    let rest := reverse r in
    if decide (last = card ∧ volume rest = volume dims) then
      Ok (Tensor (card :: dims) (λ ix,
        match ix with [] => 0 | i :: ps => t_at c (unravel rest (ravel dims ps) ++ [i]) end))
    else Raise ValueError
  end.
(** [to_pgm] with [as_string=False], lines 744-765.  Copying the graph of [to_nx] adds the arcs in the order of their
    first nodes, so [get_parents] lists parents in the order of the nodes.  [BayesianNetwork] raises for a graph
    with a cycle, and [add_cpds] for evidence that is no node. *)
Definition to_pgm (o : oracle) (D : ddag) : res pgm :=
  let d := dd_dag D in
  let nodes := on o [209%nat] (d_nodes d) in
  match topological_sort d o with
  | Raise _ => Raise ValueError
  | Ok _ =>
    res_bind (loopR (λ v cpds,
      match dd_par D !! v with
      | None => Raise KeyError
      | Some ps =>
        if decide (Forall (λ p, is_Some (dd_alph D !! p)) (ps ++ [v])) then
          match dd_cond D !! v with
          | None => Raise KeyError
          | Some c =>
            res_bind (pgm_values c (length (default [] (dd_alph D !! v))) (shape_of (dd_alph D) ps)) (λ t,
              if decide (Forall (.∈ nodes) ps) then Ok (<[v := (ps, t)]> cpds) else Raise ValueError)
          end
        else Raise KeyError
      end) (on o [210%nat] (d_nodes d)) ∅) (λ cpds,
    Ok (Pgm nodes (λ v, filter (λ p, (p, v) ∈ d_arcs d) nodes) cpds))
  end.

(** [vals.transpose(new_dims)], lines 790-793: the first axis becomes the last one. *)
Definition first_to_last (t : tensor) : tensor :=
  match t_shape t with
  | [] => t
  | n :: sh => Tensor (sh ++ [n]) (λ ix, t_at t (default O (last ix) :: take (length sh) ix))
  end.
(** [from_pgm], lines 768-808, without [values2nums]: the new labels are the positions in [node_order], which is also returned.
    A missing table, which is [None], has no attribute [values]; this is a [TypeError] here.  Parents that are no nodes give a [KeyError]. *)
Definition pgm_node (m : pgm) (i : nat) (acc : arcset * gmap node tensor * gmap node (list node) * gmap node (list Qc)) :
    res (arcset * gmap node tensor * gmap node (list node) * gmap node (list Qc)) :=
  let '(arcs, conds, par, alph) := acc in
  match pg_nodes m !! i with
  | None => Raise IndexError
  | Some v =>
    let ps := pg_preds m v in
    if decide (Forall (.∈ pg_nodes m) ps) then
      match pg_cpds m !! v with
      | None => Raise TypeError
      | Some (_, t) =>
        match t_shape t with
        | [] => Raise IndexError
        | n :: _ =>
          let is := pos (pg_nodes m) <$> ps in
          Ok (list_to_set ((λ p, (p, i)) <$> is) ∪ arcs, <[i := first_to_last t]> conds, <[i := is]> par,
              <[i := (λ k, qz (Z.of_nat k)) <$> seq 0 n]> alph)
        end
      end
    else Raise KeyError
  end.
Definition from_pgm (o : oracle) (m : pgm) : res (ddag * list node) :=
  let n := length (pg_nodes m) in
  res_bind (loopR (pgm_node m) (seq 0 n) (∅, ∅, ∅, ∅)) (λ '(arcs, conds, par, alph),
    res_bind (ddag_make o (seq 0 n) arcs conds par alph) (λ D, Ok (D, pg_nodes m))).
