(** Model of [core_utils.powerset], [core_utils.powerset_predicate] and
    [PDAG.possible_parents].  Line numbers refer to
    graphical_models/utils/core_utils.py unless stated otherwise.  The argument
    [s] is the list of elements in iteration order: a list, or a set that is not
    modified while it is iterated, whose order is the same every time. *)
From Verif Require Import Py Spec DagModel PdagModel InterveneModel.
#[local] Open Scope nat_scope.

(** [range(a, b)]. *)
Definition py_range (a b : Z) : list Z := (λ k, (a + Z.of_nat k)%Z) <$> seq 0 (Z.to_nat (b - a)).
(** [itertools.combinations(s, r)]: a negative [r] is a [ValueError]. *)
Definition py_combinations (l : list node) (r : Z) : res (list (list node)) :=
  if decide (r < 0)%Z then Raise ValueError else Ok (combinations l (Z.to_nat r)).
(** [powerset], lines 64-66.  [itr.chain( *g )] evaluates the whole generator [g],
    so the error is raised by the call. *)
Definition py_powerset (l : list node) (r_min : Z) (r_max : option Z) : res (list nset) :=
  let hi := match r_max with None => Z.of_nat (length l) | Some r => r end in
  res_bind (loopR (λ r acc, res_bind (py_combinations l r) (λ c, Ok (acc ++ c))) (py_range r_min (hi + 1)) [])
    (λ ss, Ok (list_to_set <$> ss)).

(** [powerset_predicate], lines 69-77: the list of all values that the generator
    yields. *)
Fixpoint pp_loop (P : list node → bool) (l : list node) (sizes : list nat) : list nset :=
  match sizes with
  | [] => []
  | k :: ks =>
      match filter (λ s, P s = true) (combinations l k) with
      | [] => []
      | ys => (list_to_set <$> ys) ++ pp_loop P l ks
      end
  end.
Definition powerset_predicate (P : list node → bool) (l : list node) : list nset :=
  pp_loop P l (seq 0 (length l + 1)).

(** [PDAG.is_edge_clique], pdag.py:828-832. *)
Definition is_edge_clique (g : pdag) (s : list node) : bool :=
  forallb (λ e, has_edge g e.1 e.2) (combinations2 s).
(** [PDAG.possible_parents], pdag.py:834-835. *)
Definition possible_parents (g : pdag) (o : oracle) (v : node) : list nset :=
  powerset_predicate (is_edge_clique g) (on o [125] (p_unbrs g v)).
