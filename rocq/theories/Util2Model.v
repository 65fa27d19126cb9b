(** Model of small helpers: [random_max] (graphical_models/utils/core_utils.py),
    two private methods of [PDAG] and the skeleton distance of [PAG]. *)
From Verif Require Import Py DagModel UGraphModel PdagModel CompareModel MagMatModel.

(** [random_max], core_utils.py:106-112.  The dictionary is the list of its items,
    the values are integers.  [choice] is [random.choice]: any function that maps a
    list to an entry of it.  [max] of no values raises [ValueError]. *)
Definition random_max (d : list (node * Z)) (minimize : bool) (choice : list node → node) : res node :=
  match d with
  | [] => Raise ValueError
  | p :: l =>
    let m := foldl (if minimize then Z.min else Z.max) p.2 (l.*2) in
    match (filter (λ q, q.2 = m) d).*1 with
    | [k] => Ok k
    | ks => Ok (choice ks)
    end
  end.

(** [PDAG._possible_sinks], pdag.py:710-711. *)
Definition p_possible_sinks (g : pdag) : nset := filter (λ n, p_children g n = ∅) (p_nodes g).

(** [PDAG._neighbors_covered], pdag.py:713-714.  The property [neighbors], lines
    253-255, is a dictionary over the nodes of the graph and the keys of the
    neighbour map: any other argument raises [KeyError] (unless there are no nodes).
    The result is the set of nodes that are mapped to [True]. *)
Definition p_neighbors_covered (g : pdag) (n : node) : res nset :=
  if bool_decide (p_nodes g = ∅) then Ok ∅
  else if bool_decide (n ∈ p_nodes g ∪ dom (p_nbr g)) then
    Ok (filter (λ m, p_neighbors g m ∖ {[n]} = p_neighbors g n) (p_nodes g))
  else Raise KeyError.

(** [PAG.skeleton] and [PAG.shd_skeleton], pag.py:88-93. *)
Definition pg_shd_skeleton (g h : pag) : nat := size (sym_diff (pg_adj g) (pg_adj h)).
