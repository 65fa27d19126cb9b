(** Model of fitting discrete Bayesian networks to data by counting.  Line numbers refer to
    graphical_models/classes/dags/discrete_dag.py.  [data] is an array of integers with [w] columns, one list per row.  The
    methods ["xgboost"], ["random_forest"] and ["logistic"] of [fit] are in [ClfModel.v]. *)
From Coq Require Import QArith.Qcanon.
From Verif Require Import Py Spec DagModel QMatModel DiscreteModel DiscreteSampleModel.
#[local] Open Scope Qc_scope.

(** [data[r, v]], for a column that exists. *)
Definition cell (r : row) (v : node) : Z := default 0%Z (r !! v).
(** [get_conditional] without parents, lines 160-164.  Dividing 0 by 0 gives [nan] in numpy and 0 here. *)
Definition gc_counts (data : list row) (v : node) (vals : list Qc) : list Qc :=
  (λ val, qz (Z.of_nat (length (filter (λ r, qz (cell r v) = val) data)))) <$> vals.
Definition gc_base (w : nat) (data : list row) (v : node) (vals : list Qc) (add_one : bool) (alpha : Qc) : res tensor :=
  if decide (v < w)%nat then
    let counts := (λ c, if add_one then c + alpha else c) <$> gc_counts data v vals in
    Ok (Tensor [length vals] (λ ix, default 0 (ix !! 0%nat ≫= (counts !!.)) / qfold counts))
  else Raise IndexError.
(** [tuple(parent_vals)] as an index of the leading axes. *)
Fixpoint np_ixs (shape : list nat) (zs : list Z) {struct zs} : option (list nat) :=
  match zs, shape with
  | [], _ => Some []
  | z :: zs, n :: shape => k ← np_index n z; ks ← np_ixs shape zs; Some (k :: ks)
  | _ :: _, [] => None
  end.
(** The loop body of [get_conditional], lines 170-173. *)
Definition gc_step (w : nat) (data : list row) (v : node) (vals : list Qc) (parents : list node) (add_one : bool) (alpha : Qc)
    (pv : list Z) (c : tensor) : res tensor :=
  let sub := filter (λ r, cell r <$> parents = pv) data in
  if decide (sub = []) then Ok c else
  res_bind (gc_base w sub v vals add_one alpha) (λ b,
    match np_ixs (t_shape c) pv with
    | None => Raise IndexError
    | Some k => Ok (Tensor (t_shape c) (λ ix, if decide (take (length k) ix = k) then t_at b (drop (length k) ix) else t_at c ix))
    end).
(** [get_conditional], lines 151-174.  [ord] gives the iteration order of the set of tuples [parent_vals_list]. *)
Definition data_conditional (ord : list (list Z) → list (list Z)) (w : nat) (data : list row) (v : node) (vals : list Qc)
    (parents : list node) (alphs : list (list Qc)) (add_one : bool) (alpha : Qc) : res tensor :=
  if decide (parents = []) then gc_base w data v vals add_one alpha
  else if decide (Forall (λ p, (p < w)%nat) parents) then
    loopR (gc_step w data v vals parents add_one alpha) (ord (remove_dups ((λ r, cell r <$> parents) <$> data)))
      (Tensor ((length <$> alphs) ++ [length vals]) (λ _, / qz (Z.of_nat (length vals))))
  else Raise IndexError.

(** The alphabets found in the data, lines 833-837. *)
Definition col_max (data : list row) (v : node) : res Z :=
  match data with
  | [] => Raise ValueError
  | r :: data => Ok (foldr (λ r m, Z.max (cell r v) m) (cell r v) data)
  end.
Definition py_nat_range (m : Z) : list Qc := (λ k, qz (Z.of_nat k)) <$> seq 0 (Z.to_nat m).
Definition found_alphabets (o : oracle) (d : dag) (w : nat) (data : list row) : res (gmap node (list Qc)) :=
  loopR (λ v (m : gmap node (list Qc)),
      if decide (v < w)%nat then res_bind (col_max data v) (λ z, Ok (<[v := py_nat_range (z + 1)]> m)) else Raise IndexError)
    (on o [166]%nat (d_nodes d)) ∅.
(** [node2parents] when it is not given, lines 828-831. *)
Definition found_parents (o : oracle) (d : dag) : gmap node (list node) :=
  set_to_map (λ v, (v, on o [167; v]%nat (parents d v))) (d_nodes d).
(** The loop body of [fit], lines 866-874. *)
Definition fit_node (ord : list (list Z) → list (list Z)) (w : nat) (data : list row) (n2p : gmap node (list node))
    (alph : gmap node (list Qc)) (add_one : bool) (alpha : Qc) (v : node) (conds : gmap node tensor) : res (gmap node tensor) :=
  match n2p !! v, alph !! v with
  | Some ps, Some al =>
    if decide (Forall (λ p, is_Some (alph !! p)) ps) then
      res_bind (data_conditional ord w data v al ps ((λ p, default [] (alph !! p)) <$> ps) add_one alpha) (λ c, Ok (<[v := c]> conds))
    else Raise KeyError
  | _, _ => Raise KeyError
  end.
(** [fit], lines 810-884, for the methods ["mle"] and ["add_one_mle"] ([add_one]), with [alpha] from [kwargs]. *)
Definition fit (o : oracle) (ord : list (list Z) → list (list Z)) (d : dag) (w : nat) (data : list row)
    (n2p : option (gmap node (list node))) (alph : option (gmap node (list Qc))) (add_one : bool) (alpha : Qc) : res ddag :=
  let n2p := default (found_parents o d) n2p in
  res_bind (match alph with Some m => Ok m | None => found_alphabets o d w data end) (λ alph,
  res_bind (topological_sort d o) (λ t,
  res_bind (loopR (fit_node ord w data n2p alph add_one alpha) t ∅) (λ conds,
    ddag_make o (on o [168]%nat (d_nodes d)) (d_arcs d) conds n2p alph))).
