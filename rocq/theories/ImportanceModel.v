(** Model of [get_conditional_importance_sampling].  Line numbers refer to
    graphical_models/classes/dags/discrete_dag.py. *)
From Coq Require Import QArith.Qcanon.
From Verif Require Import Py Spec DagModel QMatModel DiscreteModel DiscreteSampleModel.
#[local] Open Scope Qc_scope.

(** [itr.product]: the last place changes first. *)
Fixpoint tuples {A} (l : list (list A)) : list (list A) :=
  match l with
  | [] => [[]]
  | xs :: l => x ← xs; (λ t, x :: t) <$> tuples l
  end.
(** Results of [f] in order, or the first exception. *)
Fixpoint rmap {A B} (f : A → res B) (l : list A) : res (list B) :=
  match l with
  | [] => Ok []
  | x :: l => res_bind (f x) (λ y, res_bind (rmap f l) (λ ys, Ok (y :: ys)))
  end.
(** [np.prod(weights, axis=1)], line 642, for one row.  The column of a node is the one of its first place in [nodes]
    (line 294); the others stay 0. *)
Definition row_weight (nodes : list node) (w : gmap node Qc) : Qc :=
  if decide (NoDup nodes) then foldr (λ v acc, default 0 (w !! v) * acc) 1 nodes else 0.
(** A value of an alphabet as an index. *)
Definition value_index (n : nat) (x : Qc) : option nat :=
  if decide (QArith_base.Qden (this x) = 1%positive) then np_index n (QArith_base.Qnum (this x)) else None.
Fixpoint value_indices (shape : list nat) (mv : list Qc) : option (list nat) :=
  match shape, mv with
  | [], [] => Some []
  | n :: shape, x :: mv => k ← value_index n x; ks ← value_indices shape mv; Some (k :: ks)
  | _, _ => None
  end.
(** [conditional_unnorm], lines 651-656, from the rows of one value of the given nodes and their weights.  The nodes are taken
    as columns and the values as indices. *)
Definition weight_table (marg : list node) (alphs : list (list Qc)) (rows : list (row * Qc)) : res tensor :=
  let shape := length <$> alphs in
  loopR (λ mv t,
    match value_indices shape mv with
    | None => Raise IndexError
    | Some ix =>
      let s := qfold (snd <$> filter (λ r : row * Qc, (λ v, qz (default 0%Z (r.1 !! v))) <$> marg = mv) rows) in
      Ok (Tensor shape (λ jx, if decide (jx = ix) then s else t_at t jx))
    end) (tuples alphs) (Tensor shape (λ _, 0)).
(** [np.sum] of a table. *)
Definition t_total (t : tensor) : Qc := qfold (t_at t <$> tuples (seq 0 <$> t_shape t)).
(** Division of a table or number by [s]; [None] stands for the [nan] of a division by 0. *)
Definition q_over (s : Qc) (x : Qc) : option Qc := if decide (s = 0) then None else Some (x / s).
Definition t_over (s : Qc) (t : tensor) : option tensor := if decide (s = 0) then None else Some (map_t (λ x, x / s) t).

(** [get_conditional_importance_sampling], lines 632-662.  [u k i] are the random numbers of particle [i] for the
    [k]-th value.  The two dictionaries are one list of pairs with the values as keys, in the order of [cond_values] (a value that
    is listed twice has two entries).  The values must all have one number per node in [cond_nodes]; numpy would also stretch a
    single number, and an empty list of values is not modelled.  If the rows raise different exceptions, the model raises that of the first
    row, and numpy that of the first node in the topological order. *)
Definition importance_sampling (o : oracle) (D : ddag) (u : nat → nat → node → Qc) (marg cond : list node) (cvals : list (list Z)) (np : nat) :
  res (list (list Z * (option tensor * option Qc))) :=
  if decide (cvals ≠ [] ∧ Forall (λ c, length c = length cond) cvals) then
    res_bind (rmap (λ kc : nat * list Z,
      rmap (λ i, res_bind (weighted_samples o D (u kc.1 i) (zip cond kc.2)) (λ rw, Ok (rw.1, row_weight cond rw.2))) (seq 0 np))
      (zip (seq 0 (length cvals)) cvals)) (λ groups,
    res_bind (rmap (λ v, match dd_alph D !! v with Some al => Ok al | None => Raise KeyError end) marg) (λ alphs,
    if decide (Forall (λ v, (v < size (d_nodes (dd_dag D)))%nat) marg) then
      let all := qfold ((λ rows : list (row * Qc), qfold (snd <$> rows)) <$> groups) in
      rmap (λ cr : list Z * list (row * Qc),
        res_bind (weight_table marg alphs cr.2) (λ t,
        Ok (cr.1, (t_over (t_total t) t, q_over all (qfold (snd <$> cr.2)))))) (zip cvals groups)
    else Raise IndexError))
  else Raise ValueError.
