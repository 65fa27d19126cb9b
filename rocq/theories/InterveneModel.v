(** Model of the intervention design methods of [DAG].  Line numbers refer to
    graphical_models/classes/dags/dag.py unless stated otherwise. *)
From Verif Require Import Py DagModel UGraphModel PdagModel.

(** The oracle used inside the [k]-th call. *)
Definition at_call (o : oracle) (k : list nat) : oracle :=
  Oracle (λ l X, on o (k ++ l) X) (λ l X, oa o (k ++ l) X) (λ l X, on_perm o (k ++ l) X) (λ l X, oa_perm o (k ++ l) X).

(** [PDAG.dominated_nodes], pdag.py:265-276.  With one neighbour the [max] is its degree. *)
Definition is_dominated (g : pdag) (n : node) : bool :=
  match elements (p_unbrs g n) with
  | [] => true
  | [m] => bool_decide (1 < size (p_unbrs g m))
  | _ => false
  end.
Definition dominated_nodes (g : pdag) : nset := filter (λ n, is_dominated g n = true) (p_nodes g).

(** [{node: f(node) for node in l}] as a list of items. *)
Fixpoint tabulate {A} (f : node → res A) (l : list node) : res (list (node * A)) :=
  match l with
  | [] => Ok []
  | n :: l' => res_bind (f n) (λ a, res_bind (tabulate f l') (λ r, Ok ((n, a) :: r)))
  end.
(** [max(items, key=...)]: the first item with the largest key. *)
Definition first_max {A} (key : A → nat) (l : list A) : res A :=
  match l with
  | [] => Raise ValueError
  | x :: l' => Ok (foldl (λ b y, if decide (key b < key y) then y else b) x l')
  end.

(** [DAG.greedy_optimal_single_node_intervention], lines 2809-2831, with [cpdag]
    given.  [fuel] bounds the depth of the recursion. *)
Fixpoint greedy_single (fuel : nat) (d : dag) (o : oracle) (c : pdag) (num : Z) : res (list (option node) * list pdag) :=
  match fuel with
  | 0 => Raise OutOfFuel
  | S fuel' =>
      if decide (p_edges c = ∅) then Ok (replicate (Z.to_nat num) None, replicate (Z.to_nat num) c)
      else
        res_bind (tabulate (λ n, interventional_cpdag d (at_call o [70; fuel; n]) [{[n]}] c)
                    (on o [71; fuel] (d_nodes d ∖ dominated_nodes c))) (λ nodes2icpdags,
        res_bind (first_max (λ p, size (p_arcs p.2)) nodes2icpdags) (λ best,
          if decide (num = 1%Z) then Ok ([Some best.1], [best.2])
          else res_bind (greedy_single fuel' d o best.2 (num - 1)) (λ r, Ok (Some best.1 :: r.1, best.2 :: r.2))))
  end.
(** The same with [cpdag=None]. *)
Definition greedy_single_node (d : dag) (o : oracle) (num : Z) : res (list (option node) * list pdag) :=
  res_bind (cpdag d o) (λ c, greedy_single (S (size (p_edges c))) d o c num).

(** [DAG.greedy_optimal_fully_orienting_interventions], lines 2862-2874. *)
Fixpoint greedy_loop (fuel : nat) (d : dag) (o : oracle) (c : pdag) : res (list (option node) * list pdag) :=
  match fuel with
  | 0 => Raise OutOfFuel
  | S fuel' =>
      if decide (p_edges c = ∅) then Ok ([], [])
      else res_bind (greedy_single 1 d (at_call o [72; fuel]) c 1) (λ r,
        match r with
        | (iv :: _, icpdag :: _) =>
            res_bind (greedy_loop fuel' d o icpdag) (λ r', Ok (iv :: r'.1, icpdag :: r'.2))
        | _ => Raise IndexError
        end)
  end.
Definition greedy_fully_orienting (d : dag) (o : oracle) : res (list (option node) * list pdag) :=
  res_bind (cpdag d o) (λ c, greedy_loop (S (size (p_edges c))) d o c).

(** [itertools.combinations(l, r)]. *)
Fixpoint combinations {A} (l : list A) (r : nat) : list (list A) :=
  match r, l with
  | 0, _ => [[]]
  | S _, [] => []
  | S r', x :: l' => ((cons x) <$> combinations l' r') ++ combinations l' r
  end.
(** [core_utils.powerset(l, r_min)], core_utils.py:64-66; each element is turned
    into a set where it is used. *)
Definition powerset {A} (l : list A) (r_min : nat) : list (list A) :=
  seq r_min (S (length l) - r_min) ≫= combinations l.

(** [DAG.optimal_fully_orienting_single_node_interventions], lines 2764-2776, with
    [new=False].  [None] is returned when the loop ends. *)
Definition lookup_arcs (t : list (node * pdag)) (n : node) : arcset :=
  foldr (λ p r, if decide (p.1 = n) then p_arcs p.2 else r) ∅ t.
Definition optimal_single_node (d : dag) (o : oracle) : res (option (list node)) :=
  res_bind (cpdag d o) (λ c,
  res_bind (tabulate (λ n, interventional_cpdag d (at_call o [73; n]) [{[n]}] c)
              (on o [74] (d_nodes d ∖ dominated_nodes c))) (λ node2oriented,
  Ok (head (filter (λ ss, size (⋃ (lookup_arcs node2oriented <$> ss) : arcset) = size (p_edges c) + size (p_arcs c))
                   (powerset (on o [75] (d_nodes d ∖ dominated_nodes c)) 1))))).

(** [DAG.compute_covered_edges], lines 2671-2683.  [G.predecessors] reads the arcs. *)
Definition nx_predecessors (E : arcset) (n : node) : nset := set_map fst (filter (λ a : arc, a.2 = n) E).
Definition compute_covered_edges (d : dag) : arcset :=
  filter (λ a : arc, nx_predecessors (d_arcs d) a.1 = nx_predecessors (d_arcs d) a.2 ∖ {[a.1]}) (d_arcs d).
(** [DAG.atomic_verification], lines 2709-2725.  The result of [difference] is
    dropped, so [cpdag] has no influence.  [mvc] stands for
    [core_utils.compute_minimum_vertex_cover], core_utils.py:124-133, which calls
    networkx and asserts that its argument is bipartite. *)
Definition atomic_verification (mvc : arcset → nset) (d : dag) (c : option pdag) (o : oracle) : res nset :=
  res_bind (match c with None => cpdag d o | Some c => Ok c end) (λ c,
    let covered_edges := compute_covered_edges d in
    let _ := covered_edges ∖ p_arcs c in
    Ok (mvc covered_edges)).
