(** Model of the random graph generators.  Line numbers refer to
    graphical_models/rand/graphs.py.  The outcomes of the random draws are
    arguments: the coins of [_coin] as a list of booleans, and the permutation
    drawn by [np.random.permutation] or [np.random.shuffle] as a list.  Only
    [size=1] and [as_list=False] are modelled; otherwise the result is a list of
    such graphs. *)
From Verif Require Import Py Spec DagModel MagMatModel.
#[local] Open Scope nat_scope.

(** [x for x, b in zip(l, bools) if b]. *)
Definition select {A} (l : list A) (bools : list bool) : list A :=
  fst <$> filter (λ p : A * bool, p.2 = true) (zip l bools).
(** [dict(enumerate(p))]. *)
Definition enum_map (p : list node) : gmap nat nat := list_to_map (zip (seq 0 (length p)) p).
(** The step [if random_order]. *)
Definition shuffled (o : oracle) (perm : option (list node)) (d : dag) : res dag :=
  match perm with None => Ok d | Some p => rename_nodes d o (enum_map p) end.

(** [directed_erdos], lines 88-98. *)
Definition directed_erdos (o : oracle) (n : nat) (bools : list bool) (perm : option (list node)) : res dag :=
  res_bind (dag_make o (upto n) (list_to_set (select (combinations2 (seq 0 n)) bools))) (shuffled o perm).

(** [directed_erdos_with_confounders], lines 115-127.  [itr.product]: the first
    argument varies slowest. *)
Definition pairs_of (l k : list node) : list arc := i ← l; j ← k; [(i, j)].
Definition erdos_confounders (o : oracle) (n c : nat) (cbools bools : list bool) (perm : option (list node)) : res dag :=
  let conf := seq 0 c in
  let rest := seq c n in
  res_bind (dag_make o (upto n)
      (list_to_set (select (pairs_of conf rest) cbools) ∪ list_to_set (select (combinations2 rest) bools)))
    (shuffled o perm).

(** [np.where(p == v)[0][0]]. *)
Definition where_is (p : list node) (v : node) : res nat :=
  match list_find (v =.) p with Some (k, _) => Ok k | None => Raise IndexError end.
(** [directed_random_graph], lines 419-441: [edges] are the edges of the undirected
    graph drawn from [random_graph_model]. *)
Definition directed_random_graph (o : oracle) (n : nat) (edges : list arc) (perm : list node) : res dag :=
  res_bind (loopR (λ e acc,
      res_bind (where_is perm e.1) (λ p1, res_bind (where_is perm e.2) (λ p2,
        Ok (acc ++ [if decide (p1 < p2) then (e.1, e.2) else (e.2, e.1)])))) edges []) (λ arcs,
    dag_make o (upto n) (list_to_set arcs)).
