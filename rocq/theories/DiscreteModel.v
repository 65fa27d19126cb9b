(** Model of discrete Bayesian networks.  Line numbers refer to
    graphical_models/classes/dags/discrete_dag.py.  Floats are exact rationals.  Tables are
    kept by the code as logarithms; the model keeps the numbers themselves, so that [+] on
    logarithms is a product and [logsumexp] a sum, with [-inf] for the number 0. *)
From Coq Require Import QArith.Qcanon.
From Verif Require Import Py Spec DagModel QMatModel.
#[local] Open Scope Qc_scope.

(** A numpy array: its shape and its entry at each index tuple of that shape. *)
Record tensor := Tensor { t_shape : list nat; t_at : list nat → Qc }.

(** The attributes set in [__init__], lines 210-219, without [node2dims] and [_node2ix], which are computed
    from [node_alphabets] and [_node_list]. *)
Record ddag := DDag {
  dd_dag : dag;
  dd_list : list node;
  dd_cond : gmap node tensor;
  dd_par : gmap node (list node);
  dd_alph : gmap node (list Qc)
}.
Definition dd_dims (D : ddag) : gmap node nat := length <$> dd_alph D.

(** [no_warn_log], lines 28-32: numbers up to 1e-10 become [-inf]. *)
Definition tiny : Qc := Q2Qc (QArith_base.Qmake 1 10000000000).
Definition clip (x : Qc) : Qc := if decide (tiny < x) then x else 0.
Definition map_t (f : Qc → Qc) (t : tensor) : tensor := Tensor (t_shape t) (λ ix, f (t_at t ix)).
Definition clip_t : tensor → tensor := map_t clip.

(** The position of [x] in a list. *)
Definition pos {A} `{EqDecision A} (l : list A) (x : A) : nat := default 0%nat (fst <$> list_find (x =.) l).

(** Axis names of [einops] patterns: ["d{n}"] is [(0, n)], ["r{n}"] is [(1, n)], ["d_new"] is [(2, 0)]. *)
Notation axis := (nat * nat)%type.
Definition ax_d (n : node) : axis := (0, n)%nat.
Definition ax_r (n : node) : axis := (1, n)%nat.
Definition ax_new : axis := (2, 0)%nat.
(** [einops.repeat(t, "left -> right", **sizes)]: axes of [left] keep their size, further axes of [right]
    need a size.  An [EinopsError] is a [RuntimeError]. *)
Definition einops_repeat (t : tensor) (left right : list axis) (sizes : axis → option nat) : res tensor :=
  if decide (NoDup left ∧ NoDup right ∧ left ⊆ right ∧ length (t_shape t) = length left ∧
             Forall (λ a, a ∈ left ∨ is_Some (sizes a)) right) then
    Ok (Tensor
      ((λ a, if decide (a ∈ left) then default 0%nat (t_shape t !! pos left a) else default 0%nat (sizes a)) <$> right)
      (λ ix, t_at t ((λ a, default 0%nat (ix !! pos right a)) <$> left)))
  else Raise RuntimeError.
(** [repeat_dimensions], lines 108-123.  [None] as [dim_sizes] cannot be subscripted. *)
Definition repeat_dimensions (t : tensor) (curr new : list node) (sizes : option (gmap node nat)) (add_new : bool) : res tensor :=
  let missing := filter (λ x, x ∉ curr) new in
  let extra := if add_new then [ax_new] else [] in
  let run (m : gmap node nat) :=
    einops_repeat t ((ax_d <$> curr) ++ extra) ((ax_d <$> new) ++ extra)
      (λ a, if decide (a.1 = 0%nat ∧ a.2 ∈ missing) then m !! a.2 else None) in
  match sizes with
  | None => if decide (missing = []) then run ∅ else Raise TypeError
  | Some m => if decide (Forall (λ x, is_Some (m !! x)) missing) then run m else Raise KeyError
  end.
(** [add_variable], lines 177-194.  The shapes must agree (numpy would stretch a dimension of size 1,
    which does not happen when the tables have the sizes of the alphabets).  [f] is the exponential of the logarithm
    that is used, which is [clip] here. *)
Definition add_variable_by (f : Qc → Qc) (table : tensor) (cur : list node) (cond : tensor) (dims : gmap node nat) (par : list node) : res tensor :=
  res_bind (repeat_dimensions (map_t f cond) par cur (Some dims) true) (λ c,
    if decide (t_shape table = take (length cur) (t_shape c)) then
      Ok (Tensor (t_shape c) (λ ix, t_at table (take (length cur) ix) * t_at c ix))
    else Raise ValueError).
Definition add_variable := add_variable_by clip.
(** [marginalize], lines 197-198: [logsumexp] over several axes, here one after the other from the last. *)
Definition sum_axis (k : nat) (t : tensor) : tensor :=
  Tensor (delete k (t_shape t))
    (λ ix, qsum (default 0%nat (t_shape t !! k)) (λ v, t_at t (take k ix ++ v :: drop k ix))).
Definition marginalize (t : tensor) (axes : list nat) : tensor :=
  foldr sum_axis t (filter (λ k, k ∈ axes) (seq 0 (length (t_shape t)))).

(** [__init__], lines 202-224.  An [AssertionError] is represented by [ValueError]; when there are several faults,
    which one is reported depends on the order of the dictionary. *)
Definition shape_of (alph : gmap node (list Qc)) (l : list node) : list nat := (λ v, length (default [] (alph !! v))) <$> l.
Definition ddag_make (o : oracle) (nodes : list node) (arcs : arcset) (conds : gmap node tensor)
    (par : gmap node (list node)) (alph : gmap node (list Qc)) : res ddag :=
  res_bind (dag_make o (list_to_set nodes) arcs) (λ d,
    if decide (map_Forall (λ v ps, Forall (λ p, is_Some (alph !! p)) (ps ++ [v]) ∧ is_Some (conds !! v)) par) then
      if decide (map_Forall (λ v ps, (t_shape <$> conds !! v) = Some (shape_of alph (ps ++ [v]))) par) then
        Ok (DDag d nodes conds par alph)
      else Raise ValueError
    else Raise KeyError).

(** The loop body of [get_marginals], lines 470-494, and [get_marginal], lines 511-537.  [keep v]: [v] is not to
    be marginalised although all its children have been added. *)
Definition elim_state := (list node * nset * tensor)%type.
Definition elim_step_by (f : Qc → Qc) (D : ddag) (g : dag) (keep : node → node → bool) (new : node) (st : elim_state) : res elim_state :=
  let '(cur, added, table) := st in
  match dd_cond D !! new, dd_par D !! new with
  | Some c, Some ps =>
    res_bind (add_variable_by f table cur c (dd_dims D) ps) (λ table,
      let cur' := cur ++ [new] in
      let added := {[new]} ∪ added in
      let ms := filter (λ v, children g v ⊆ added ∧ keep new v = false) cur' in
      if decide (ms = []) then Ok (cur', added, table)
      else if decide (new ∈ ms) then Raise KeyError
      else Ok (filter (λ v, v ∉ ms) cur', added, marginalize table (pos cur <$> ms)))
  | _, _ => Raise KeyError
  end.
Definition elim_step := elim_step_by clip.
(** [get_marginals], lines 462-500. *)
Definition get_marginals_by (f : Qc → Qc) (o : oracle) (D : ddag) (S : list node) : res tensor :=
  res_bind (ancestral_subgraph (dd_dag D) o (list_to_set S)) (λ g,
  res_bind (topological_sort g o) (λ t,
    match t with
    | [] => Raise IndexError
    | v0 :: rest =>
      match dd_cond D !! v0 with
      | None => Raise KeyError
      | Some c0 =>
        res_bind (loopR (elim_step_by f D g (λ _ v, bool_decide (v ∈ S))) rest ([v0], {[v0]}, c0)) (λ st,
          repeat_dimensions st.2 st.1.1 S None false)
      end
    end)).
Definition get_marginals := get_marginals_by clip.
(** [get_marginal], lines 502-541. *)
Definition get_marginal (o : oracle) (D : ddag) (x : node) : res tensor :=
  res_bind (ancestral_subgraph (dd_dag D) o {[x]}) (λ g,
  res_bind (topological_sort g o) (λ t,
    match t with
    | [] => Raise IndexError
    | v0 :: rest =>
      match dd_cond D !! v0 with
      | None => Raise KeyError
      | Some c0 =>
        res_bind (loopR (elim_step D g (λ new v, bool_decide (v = new))) rest ([v0], {[v0]}, clip_t c0)) (λ st, Ok st.2)
      end
    end)).
(** [get_marginals_new], lines 425-460. *)
Definition new_child (D : ddag) (c : node) (st : list node * tensor) : res (list node * tensor) :=
  match dd_cond D !! c, dd_par D !! c with
  | Some t, Some ps =>
    res_bind (add_variable st.2 st.1 t (dd_dims D) (filter (λ p, p ∈ st.1) ps)) (λ table, Ok (st.1 ++ [c], table))
  | _, _ => Raise KeyError
  end.
Definition new_step (o : oracle) (D : ddag) (g : dag) (S : list node) (v : node) (st : list node * tensor) : res (list node * tensor) :=
  res_bind (loopR (new_child D) (on o [138%nat; v] (children g v ∖ list_to_set st.1)) st) (λ st,
    if decide (v ∈ S) then Ok st
    else if decide (v ∈ st.1) then Ok (filter (λ w, w ≠ v) st.1, marginalize st.2 [pos st.1 v])
    else Raise ValueError).
Definition get_marginals_new (o : oracle) (D : ddag) (S : list node) : res tensor :=
  if decide (S = []) then Ok (Tensor [] (λ _, 1)) else
  res_bind (ancestral_subgraph (dd_dag D) o (list_to_set S)) (λ g,
  res_bind (topological_sort g o) (λ t,
    match t with
    | [] => Raise IndexError
    | v0 :: _ =>
      match dd_cond D !! v0 with
      | None => Raise KeyError
      | Some c0 =>
        res_bind (loopR (new_step o D g S) t ([v0], c0)) (λ st, repeat_dimensions st.2 st.1 S None false)
      end
    end)).

(** [get_conditional], lines 664-713.  [full / cond] is [nan] where [cond] is 0 and is then overwritten.
    [NotImplementedError] is a [RuntimeError]. *)
Definition get_conditional (o : oracle) (D : ddag) (new : bool) (marg cond : list node) : res tensor :=
  let only := filter (λ v, v ∉ cond) marg in
  let all := only ++ cond in
  let k := length only in
  res_bind ((if new then get_marginals_new else get_marginals) o D all) (λ full,
    let c := marginalize full (seq 0 k) in
    let size := foldr (λ v acc, qz (Z.of_nat (default 0%nat (dd_dims D !! v))) * acc) 1 only in
    let base := Tensor (t_shape full) (λ ix,
      let z := t_at c (drop k ix) in if decide (z = 0) then 1 / size else t_at full ix / z) in
    if decide (length marg = k) then Ok base else
    let dup := filter (λ v, v ∈ cond) marg in
    let right := ((λ v, if decide (v ∈ only) then ax_d v else ax_r v) <$> marg) ++ (ax_d <$> cond) in
    let sizes (a : axis) := if decide (a.1 = 1%nat ∧ a.2 ∈ dup) then dd_dims D !! a.2 else None in
    res_bind (einops_repeat base (ax_d <$> all) right sizes) (λ t,
      match dup with
      | [v] =>
        let n := default 0%nat (dd_dims D !! v) in
        let eye := Tensor [n; n] (λ ix, if decide (ix !! 0%nat = ix !! 1%nat) then 1 else 0) in
        res_bind (einops_repeat eye [ax_d v; ax_r v] right
            (λ a, if decide (a.1 = 0%nat ∧ a.2 ∈ all ∧ a.2 ≠ v) then dd_dims D !! a.2 else None)) (λ ones,
          if decide (t_shape t = t_shape ones) then Ok (Tensor (t_shape t) (λ ix, t_at t ix * t_at ones ix)) else Raise ValueError)
      | _ => Raise RuntimeError
      end)).

(** [get_mean_and_variance], lines 715-722. *)
Definition qfold (l : list Qc) : Qc := foldr Qcplus 0 l.
Definition get_mean_and_variance (o : oracle) (D : ddag) (v : node) : res (Qc * Qc) :=
  match dd_alph D !! v with
  | None => Raise KeyError
  | Some al =>
    res_bind (get_marginal o D v) (λ t,
      let marg := (λ k, t_at t [k]) <$> seq 0 (default 0%nat (t_shape t !! 0%nat)) in
      let mean := qfold (zip_with Qcmult al marg) in
      Ok (mean, qfold (zip_with (λ x p, (x - mean) * (x - mean) * p) al marg)))
  end.

(** [get_hard_interventional_dag], lines 331-349. *)
Definition get_hard_interventional_dag (o : oracle) (D : ddag) (x : node) (value : Qc) : res ddag :=
  match dd_alph D !! x with
  | None => Raise KeyError
  | Some al =>
    let point := Tensor [length al] (λ ix, if decide (ix !! 0%nat ≫= (al !!.) = Some value) then 1 else 0) in
    let N := d_nodes (dd_dag D) in
    if decide (set_Forall (λ v, v ≠ x → is_Some (dd_cond D !! v)) N) then
      ddag_make o (on o [139%nat] N) (filter (λ a : arc, a.2 ≠ x) (d_arcs (dd_dag D)))
        (<[x := point]> (filter (λ p : node * tensor, p.1 ∈ N) (dd_cond D)))
        (<[x := []]> (dd_par D)) (dd_alph D)
    else Raise KeyError
  end.

(** [einops.einsum(t1, t2, "l1, l2 -> out")] with distinct names in each list: the names that are not in [out] are summed. *)
Definition lookup_all (env : gmap node nat) (l : list node) : list nat := (λ v, env !!! v) <$> l.
Fixpoint sum_names (size : node → nat) (l : list node) (f : gmap node nat → Qc) (env : gmap node nat) : Qc :=
  match l with
  | [] => f env
  | v :: l => qsum (size v) (λ k, sum_names size l f (<[v := k]> env))
  end.
Definition einsum2 (t1 : tensor) (l1 : list node) (t2 : tensor) (l2 : list node) (out : list node) : res tensor :=
  let size (v : node) := if decide (v ∈ l1) then default 0%nat (t_shape t1 !! pos l1 v) else default 0%nat (t_shape t2 !! pos l2 v) in
  if decide (length (t_shape t1) = length l1 ∧ length (t_shape t2) = length l2 ∧
             t_shape t1 = size <$> l1 ∧ t_shape t2 = size <$> l2 ∧ out ⊆ l1 ++ l2) then
    Ok (Tensor (size <$> out) (λ ix,
      sum_names size (filter (λ v, v ∉ out) (l1 ++ filter (λ v, v ∉ l1) l2))
        (λ env, t_at t1 (lookup_all env l1) * t_at t2 (lookup_all env l2)) (list_to_map (zip out ix))))
  else Raise RuntimeError.
(** [new / new.sum(axis=-1, keepdims=True)]. *)
Definition normalize (t : tensor) : tensor :=
  let r := length (t_shape t) in
  Tensor (t_shape t) (λ ix,
    t_at t ix / qsum (default 0%nat (last (t_shape t))) (λ k, t_at t (take (pred r) ix ++ [k]))).
(** [_get_marginal_dag_node] with [relabel=False], lines 351-408. *)
Definition marginal_dag_node (o : oracle) (D : ddag) (m : node) : res ddag :=
  let N := d_nodes (dd_dag D) in
  let ch := children (dd_dag D) m in
  match dd_par D !! m, dd_cond D !! m with
  | Some mps, Some mc =>
    let new_parents (ps : list node) := filter (λ p, p ≠ m) ps ++ filter (λ p, p ∉ ps) mps in
    res_bind (loopR (λ c (st : gmap node (list node) * gmap node tensor * arcset),
        match dd_par D !! c, dd_cond D !! c with
        | Some ps, Some cc =>
          res_bind (einsum2 cc (ps ++ [c]) mc (mps ++ [m]) (new_parents ps ++ [c])) (λ t,
            Ok (<[c := new_parents ps]> st.1.1, <[c := normalize t]> st.1.2, st.2 ∪ list_to_set ((λ p, (p, c)) <$> new_parents ps)))
        | _, _ => Raise KeyError
        end) (on o [140%nat; m] ch)
      (delete m (dd_par D), filter (λ p : node * tensor, p.1 ∈ N ∖ {[m]} ∖ ch) (dd_cond D),
        filter (λ a : arc, a.1 ≠ m ∧ a.2 ≠ m) (d_arcs (dd_dag D)))) (λ st,
      if decide (set_Forall (λ v, is_Some (dd_cond D !! v)) (N ∖ {[m]} ∖ ch)) then
        ddag_make o (on o [141%nat] (N ∖ {[m]})) st.2 st.1.2 st.1.1 (delete m (dd_alph D))
      else Raise KeyError)
  | _, _ => Raise KeyError
  end.
(** [get_marginal_dag] with [relabel=False], lines 410-423: the nodes are taken from the end of the list; one that is
    not a node (any more) is a [KeyError]. *)
Definition get_marginal_dag (o : oracle) (D : ddag) (ms : list node) : res ddag :=
  loopR (λ m D', if decide (m ∈ d_nodes (dd_dag D')) then marginal_dag_node o D' m else Raise KeyError) (reverse ms) D.

(** The value drawn in [sample], lines 248-251, for one row, with the uniform number [u]: the first index whose cumulated
    probability exceeds [u], or 0. *)
Definition draw (dist : list Qc) (u : Qc) : nat :=
  default 0%nat (fst <$> list_find (λ k, u < qfold (take (S k) dist)) (seq 0 (length dist))).
