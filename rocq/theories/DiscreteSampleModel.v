(** Model of sampling from discrete Bayesian networks.  Line numbers refer to
    graphical_models/classes/dags/discrete_dag.py.  The rows of a sample do not influence each other: the model computes
    one row, from one number of [0, 1) per node, the number numpy's generator gives for that node and row. *)
From Coq Require Import QArith.Qcanon.
From Verif Require Import Py Spec DagModel QMatModel DiscreteModel.
#[local] Open Scope Qc_scope.

(** [_node2ix], lines 215-216. *)
Definition node_ix (D : ddag) (v : node) : option nat :=
  (list_to_map (reverse (zip (dd_list D) (seq 0 (length (dd_list D))))) : gmap node nat) !! v.
(** A row of [samples], an array of integers. *)
Notation row := (list Z).
(** Storing a number in an array of integers: the fraction is cut off. *)
Definition np_int (q : Qc) : Z := Z.quot (QArith_base.Qnum (this q)) (Zpos (QArith_base.Qden (this q))).
Definition put (D : ddag) (v : node) (z : Z) (r : row) : res row :=
  match node_ix D v with
  | None => Raise KeyError
  | Some i => if decide (i < length r)%nat then Ok (<[i := z]> r) else Raise IndexError
  end.
(** An integer as an index of an axis of length [n]. *)
Definition np_index (n : nat) (z : Z) : option nat :=
  if decide (0 <= z < Z.of_nat n)%Z then Some (Z.to_nat z)
  else if decide (- Z.of_nat n <= z < 0)%Z then Some (Z.to_nat (z + Z.of_nat n)) else None.
(** [conditionals[node][ix]] when one axis is left. *)
Definition dist_at (c : tensor) (ix : list nat) : list Qc :=
  (λ k, t_at c (ix ++ [k])) <$> seq 0 (default 0%nat (t_shape c !! length ix)).
(** [np.random.choice(alphabet, p=dist)].  The sum of [p] is compared with 1 exactly. *)
Definition choice (al dist : list Qc) (u : Qc) : res Qc :=
  if decide (length al = length dist ∧ Forall (λ p, 0 <= p) dist ∧ qfold dist = 1) then Ok (default 0 (al !! draw dist u))
  else Raise ValueError.
(** The indices of the rows of the parents, lines 245-247. *)
Fixpoint parent_ixs (D : ddag) (ps : list node) (shape : list nat) (r : row) : res (list nat) :=
  match ps, shape with
  | p :: ps, n :: shape =>
    match node_ix D p with
    | None => Raise KeyError
    | Some i =>
      match r !! i ≫= np_index n with
      | None => Raise IndexError
      | Some k => res_bind (parent_ixs D ps shape r) (λ l, Ok (k :: l))
      end
    end
  | [], _ => Ok []
  | _ :: _, [] => Raise IndexError
  end.

(** The loop body of [sample], lines 236-252: a node without parents gets the value drawn, a node with parents the index
    of the value. *)
Definition sample_node (D : ddag) (u : node → Qc) (v : node) (r : row) : res row :=
  match dd_par D !! v, dd_cond D !! v with
  | Some ps, Some c =>
    if decide (ps = []) then
      match dd_alph D !! v with
      | None => Raise KeyError
      | Some al => res_bind (choice al (dist_at c []) (u v)) (λ x, put D v (np_int x) r)
      end
    else
      res_bind (parent_ixs D ps (t_shape c) r) (λ ix, put D v (Z.of_nat (draw (dist_at c ix) (u v))) r)
  | _, _ => Raise KeyError
  end.
Definition zero_row (D : ddag) : row := replicate (size (d_nodes (dd_dag D))) 0%Z.
(** [sample], lines 231-254. *)
Definition sample (o : oracle) (D : ddag) (u : node → Qc) : res row :=
  res_bind (topological_sort (dd_dag D) o) (λ t, loopR (sample_node D u) t (zero_row D)).

(** [weighted_samples], lines 256-298.  [samples[:, nodes] = values] takes the nodes themselves as columns. *)
Definition weighted_node (D : ddag) (u : node → Qc) (fixed : list (node * Z)) (v : node) (st : row * gmap node Qc) : res (row * gmap node Qc) :=
  match (list_to_map fixed : gmap node Z) !! v with
  | None => res_bind (sample_node D u v st.1) (λ r, Ok (r, st.2))
  | Some z =>
    match dd_par D !! v, dd_cond D !! v with
    | Some ps, Some c =>
      res_bind (parent_ixs D ps (t_shape c) st.1) (λ ix,
        match t_shape c !! length ix ≫= (λ n, np_index n z) with
        | None => Raise IndexError
        | Some k => Ok (st.1, <[v := t_at c (ix ++ [k])]> st.2)
        end)
    | _, _ => Raise KeyError
    end
  end.
Definition weighted_samples (o : oracle) (D : ddag) (u : node → Qc) (fixed : list (node * Z)) : res (row * gmap node Qc) :=
  let n := size (d_nodes (dd_dag D)) in
  if decide (Forall (λ p : node * Z, (p.1 < n)%nat) fixed) then
    res_bind (topological_sort (dd_dag D) o) (λ t,
      loopR (weighted_node D u fixed) t (foldl (λ r (p : node * Z), <[p.1 := p.2]> r) (zero_row D) fixed, ∅))
  else Raise IndexError.

(** [sample_interventional], lines 300-323: the value of an intervened node is looked up under its column, and every other
    node gets the value drawn. *)
Definition interventional_node (D : ddag) (u : node → Qc) (fixed : gmap nat Z) (v : node) (r : row) : res row :=
  match dd_par D !! v, node_ix D v with
  | Some ps, Some i =>
    match fixed !! v with
    | Some _ => match fixed !! i with Some z => put D v z r | None => Raise KeyError end
    | None =>
      match dd_cond D !! v, dd_alph D !! v with
      | Some c, Some al =>
        res_bind (parent_ixs D ps (t_shape c) r) (λ ix, res_bind (choice al (dist_at c ix) (u v)) (λ x, put D v (np_int x) r))
      | _, _ => Raise KeyError
      end
    end
  | _, _ => Raise KeyError
  end.
Definition sample_interventional (o : oracle) (D : ddag) (u : node → Qc) (fixed : gmap nat Z) : res row :=
  if decide (fixed = ∅) then Raise IndexError else
  res_bind (topological_sort (dd_dag D) o) (λ t, loopR (interventional_node D u fixed) t (zero_row D)).
