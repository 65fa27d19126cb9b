(** Model of [SemiMarkovian].  Line numbers refer to
    graphical_models/classes/semi_markovian.py. *)
From Verif Require Import Py Spec DagModel UGraphModel PdagModel AncestralModel MagModel.

(** [__init__], lines 128-143.  [_undirected] is never written.  A frozenset is
    represented by its sorted pair; [frozenset({i})] is [(i, i)]. *)
Record sm := Sm {
  s_nodes : nset; s_dir : arcset; s_bi : arcset;
  s_spo : dmap; s_par : dmap; s_chi : dmap; s_adj : dmap
}.
Definition s_spouses (g : sm) (n : node) : nset := dget (s_spo g) n.
Definition s_parents (g : sm) (n : node) : nset := dget (s_par g) n.
Definition s_children (g : sm) (n : node) : nset := dget (s_chi g) n.
Definition s_adjacent (g : sm) (n : node) : nset := dget (s_adj g) n.
(** [_add_directed], lines 145-153; [_add_bidirected], lines 155-163. *)
Definition s_add_directed (i j : node) (g : sm) : sm :=
  Sm ({[j]} ∪ ({[i]} ∪ s_nodes g)) ({[(i, j)]} ∪ s_dir g) (s_bi g) (s_spo g)
    (dadd (s_par g) j i) (dadd (s_chi g) i j) (dadd (dadd (s_adj g) i j) j i).
Definition s_add_bidirected (i j : node) (g : sm) : sm :=
  Sm ({[j]} ∪ ({[i]} ∪ s_nodes g)) (s_dir g) ({[upair i j]} ∪ s_bi g) (dadd (dadd (s_spo g) j i) i j)
    (s_par g) (s_chi g) (dadd (dadd (s_adj g) i j) j i).
Definition sm_make (N : nset) (D B : list arc) : sm :=
  foldl (λ g e, s_add_bidirected e.1 e.2 g) (foldl (λ g e, s_add_directed e.1 e.2 g) (Sm N ∅ ∅ ∅ ∅ ∅ ∅) D) B.

(** [parents_of], lines 165-166: [set.union] without argument is a [TypeError].
    The entries that reads create in the [defaultdict]s are not modelled. *)
Definition s_parents_of (g : sm) (X : nset) : res nset :=
  if decide (X = ∅) then Raise TypeError else Ok (set_fold (λ v acc, s_parents g v ∪ acc) ∅ X).
(** [_add_ancestors], lines 168-172: the state is the set [ancestors].  Python's
    recursion limit is not modelled. *)
Fixpoint s_add_ancestors (g : sm) (fuel : nat) (X : nset) : M nset unit :=
  match fuel with
  | 0 => mraise OutOfFuel
  | S fuel' => λ anc,
      match s_parents_of g X with
      | Raise e => (anc, Raise e)
      | Ok ps => let new := ps ∖ anc in s_add_ancestors g fuel' new (new ∪ anc)
      end
  end.
(** [ancestors_of], lines 174-177, with a set as argument.  [to_set] returns the
    argument itself, so with [include_argument] the set that is filled is the
    caller's.  The result is the caller's set after the call, and the outcome. *)
Definition s_ancestors_of (g : sm) (X : nset) (include : bool) : nset * res nset :=
  let r := s_add_ancestors g (S (S (S (size (s_nodes g))))) X (if include then X else ∅) in
  (if include then r.1 else X, match r.2 with Ok _ => Ok r.1 | Raise e => Raise e end).

(** [for i, j in S] for a set of frozensets: a self-loop is a [ValueError]. *)
Definition s_unpack (o : oracle) (k : list nat) (flip : arc → bool) (S : arcset) : res (list arc) :=
  if decide (set_Forall (λ e : arc, e.1 ≠ e.2) S) then Ok (unpack flip <$> oa o k S) else Raise ValueError.
(** [mutilated_graph], lines 179-184; [i not in None] is a [TypeError]. *)
Definition s_mutilated (g : sm) (o : oracle) (flip : arc → bool) (out inc : option nset) : res sm :=
  res_bind (loopR (λ e acc,
      match out with
      | None => Raise TypeError
      | Some X => if decide (e.1 ∈ X) then Ok acc
                  else match inc with
                       | None => Raise TypeError
                       | Some Y => Ok (if decide (e.2 ∈ Y) then acc else {[e]} ∪ acc)
                       end
      end) (oa o [126] (s_dir g)) ∅) (λ D,
  res_bind (s_unpack o [127] flip (s_bi g)) (λ B, Ok (sm_make (s_nodes g) (oa o [128] D) B))).
(** [induced_subgraph], lines 186-191, with [nodes=X], and with [removed_nodes=R]. *)
Definition s_induced (g : sm) (o : oracle) (flip : arc → bool) (X : nset) : res sm :=
  res_bind (s_unpack o [127] flip (s_bi g)) (λ B,
    Ok (sm_make X (oa o [128] (filter (λ e : arc, e.1 ∈ X ∧ e.2 ∈ X) (s_dir g)))
          (oa o [129] (list_to_set (filter (λ e : arc, e.1 ∈ X ∧ e.2 ∈ X) B))))).
Definition s_removed (g : sm) (o : oracle) (flip : arc → bool) (R : nset) : res sm :=
  s_induced g o flip (s_nodes g ∖ R).

(** [_bidirected_reachable] and [c_components], lines 193-210; the text is that of
    [AncestralGraph] without [node_subset]. *)
Definition s_components (g : sm) (o : oracle) : res (list nset) :=
  res_bind (dfs_all (s_spouses g) o (s_nodes g)) (λ st, Ok st.1).

(** [topological_sort] and [_mark_children_visited], lines 212-236: the text is that
    of [DAG], but the error is an [Exception], modelled as [RuntimeError]. *)
Definition s_topological_sort (g : sm) (o : oracle) : res (list node) :=
  match topological_sort (Dag (s_nodes g) (s_dir g) ∅ (s_par g) (s_chi g)) o with
  | Raise (CycleError _) => Raise RuntimeError
  | r => r
  end.

(** [general_identification], lines 238-288, up to the first call of
    [ancestors_of], line 247; [rest] stands for lines 248-288.  A result is the
    pair of the fields [active_variables] and [intervened] of a
    [ProbabilityTerm]; an empty [matching_experiment] is false.  [es] is
    [available_experiments] in iteration order.  The first component is the
    caller's set [y] after the call. *)
Definition s_identify (rest : nset → res (nset * nset)) (g : sm) (y x : nset) (es : list nset) : nset * res (nset * nset) :=
  match list_find (λ e : nset, x = e ∩ s_nodes g) es with
  | Some (_, e) =>
      if decide (e = ∅) then
        let r := s_ancestors_of g y true in (r.1, match r.2 with Ok a => rest a | Raise x => Raise x end)
      else (y, Ok (y, e))
  | None =>
      let r := s_ancestors_of g y true in (r.1, match r.2 with Ok a => rest a | Raise x => Raise x end)
  end.
