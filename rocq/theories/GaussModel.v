(** Model of linear Gaussian models.  Line numbers refer to
    graphical_models/classes/dags/gaussdag.py.  Floats are exact rationals; a
    vector or matrix is a function of its indices, of which those below the number of
    nodes matter.  [np.linalg.inv] is a parameter.  Not modelled: [add_node]
    (HeapModel.v has its effect on the node list) and everything that uses
    eigenvalues or random samples.  Correlations and regression are in GaussLinModel.v,
    [remove_node] in GaussNodeModel.v. *)
From Coq Require Import QArith.Qcanon.
From Verif Require Import Py Spec DagModel QMatModel.
#[local] Open Scope Qc_scope.

Definition vec := nat → Qc.
Definition vupd (x : vec) (k : nat) (w : Qc) : vec := λ i, if decide (i = k) then w else x i.

(** The attributes set in [__init__], lines 44-53, without [_correlation].
    [_weight_mat] has as many rows and columns as [_node_list] has entries. *)
Record gauss := Gauss {
  g_dag : dag;
  g_list : list node;
  g_ix : gmap node nat;
  g_w : mat;
  g_var : list Qc;
  g_bias : list Qc;
  g_prec : option mat;
  g_cov : option mat
}.
Definition g_dim (g : gauss) : nat := length (g_list g).
Definition with_dag (d : dag) (g : gauss) : gauss :=
  Gauss d (g_list g) (g_ix g) (g_w g) (g_var g) (g_bias g) (g_prec g) (g_cov g).
Definition with_w (w : mat) (g : gauss) : gauss :=
  Gauss (g_dag g) (g_list g) (g_ix g) w (g_var g) (g_bias g) (g_prec g) (g_cov g).
Definition with_var (v : list Qc) (g : gauss) : gauss :=
  Gauss (g_dag g) (g_list g) (g_ix g) (g_w g) v (g_bias g) (g_prec g) (g_cov g).
Definition with_bias (b : list Qc) (g : gauss) : gauss :=
  Gauss (g_dag g) (g_list g) (g_ix g) (g_w g) (g_var g) b (g_prec g) (g_cov g).
Definition with_prec (p : option mat) (g : gauss) : gauss :=
  Gauss (g_dag g) (g_list g) (g_ix g) (g_w g) (g_var g) (g_bias g) p (g_cov g).
Definition with_cov (c : option mat) (g : gauss) : gauss :=
  Gauss (g_dag g) (g_list g) (g_ix g) (g_w g) (g_var g) (g_bias g) (g_prec g) c.

(** A method of the base class, called on the graph part. *)
Definition on_dag (m : M dag unit) : M gauss unit := λ g, let '(d, r) := m (g_dag g) in (with_dag d g, r).

(** [ix_map_from_list], core_utils.py:51-52: the last index of a repeated element. *)
Definition ix_map (l : list node) : gmap node nat := list_to_map (reverse (zip l (seq 0 (length l)))).

(** [self._weight_mat[self._node2ix[i], self._node2ix[j]] = val]. *)
Definition put_weight (i j : node) (val : Qc) : M gauss unit := λ g,
  match g_ix g !! i, g_ix g !! j with
  | Some a, Some b => (with_w (mupd (g_w g) a b val) g, Ok tt)
  | _, _ => (g, Raise KeyError)
  end.
(** [set_arc_weight], lines 225-246. *)
Definition set_arc_weight (o : oracle) (i j : node) (val : Qc) : M gauss unit :=
  put_weight i j val ;;;
  (λ g, if decide (val = 0 ∧ (i, j) ∈ d_arcs (g_dag g)) then on_dag (remove_arc i j false) g else mret tt g) ;;;
  (λ g, if decide (val ≠ 0 ∧ (i, j) ∉ d_arcs (g_dag g)) then on_dag (add_arc o i j false) g else mret tt g).
(** [set_arc_weights], lines 248-260.  [arcs] is the dictionary in its insertion order.
    [DAG.remove_arcs_from] calls the overridden [remove_arc], which is
    [set_arc_weight(i, j, 0)] (lines 431-445). *)
Definition set_arc_weights (o : oracle) (arcs : list (arc * Qc)) : M gauss unit := λ g,
  if decide (arcs = []) then (g, Ok tt)
  else if decide (Forall (λ a : arc * Qc, is_Some (g_ix g !! a.1.1) ∧ is_Some (g_ix g !! a.1.2)) arcs) then
    (mfor arcs (λ a, put_weight a.1.1 a.1.2 a.2) ;;;
     mfor (filter (λ a : arc * Qc, a.2 = 0) arcs) (λ a, set_arc_weight o a.1.1 a.1.2 0) ;;;
     on_dag (add_arcs_from o (list_to_set (fst <$> filter (λ a : arc * Qc, a.2 ≠ 0) arcs)) false)) g
  else (g, Raise KeyError).
(** [__init__], lines 37-59.  [DAG.__init__] calls the overridden [add_arcs_from], lines 480-495,
    which ignores [check_acyclic].  For a set of arcs the weights are 1. *)
Definition gauss_new (o : oracle) (nodes : list node) (arcs : list (arc * Qc)) (biases variances : option (list Qc)) : gauss * res unit :=
  let n := length nodes in
  (set_arc_weights o arcs ;;; mfor arcs (λ a, put_weight a.1.1 a.1.2 a.2))
    (Gauss (dag_init (list_to_set nodes)) nodes (ix_map nodes) mzero
       (default (replicate n 1) variances) (default (replicate n 0) biases) None None).
Definition gauss_make (o : oracle) (nodes : list node) (arcs : list (arc * Qc)) (biases variances : option (list Qc)) : res gauss :=
  match gauss_new o nodes arcs biases variances with (g, Ok _) => Ok g | (_, Raise e) => Raise e end.

(** [set_node_bias], [set_node_variance], lines 262-284. *)
Definition set_node_bias (i : node) (b : Qc) : M gauss unit := λ g,
  if decide (i < length (g_bias g))%nat then (with_bias (<[i := b]> (g_bias g)) g, Ok tt) else (g, Raise IndexError).
Definition set_node_variance (i : node) (v : Qc) : M gauss unit := λ g,
  if decide (i < length (g_var g))%nat then (with_var (<[i := v]> (g_var g)) g, Ok tt) else (g, Raise IndexError).
(** [add_arc], [remove_arc], lines 415-445: the options are ignored. *)
Definition g_add_arc (o : oracle) (i j : node) : M gauss unit := set_arc_weight o i j 1.
Definition g_remove_arc (o : oracle) (i j : node) : M gauss unit := set_arc_weight o i j 0.

(** [arc_weights], lines 332-333: the labels are used as indices. *)
Definition arc_weights (o : oracle) (g : gauss) : res (list (arc * Qc)) :=
  loopR (λ (a : arc) acc,
    if decide (a.1 < g_dim g ∧ a.2 < g_dim g)%nat then Ok (acc ++ [(a, g_w g a.1 a.2)]) else Raise IndexError)
    (oa o [130] (d_arcs (g_dag g))) [].
(** [copy], lines 71-72: the set [_nodes] is passed, so the new node list is its
    iteration order. *)
Definition gauss_copy (o : oracle) (g : gauss) : res gauss :=
  res_bind (arc_weights o g) (λ ws, gauss_make o (on o [131] (d_nodes (g_dag g))) ws (Some (g_bias g)) (Some (g_var g))).
(** [from_amat], lines 74-95: [np.ndenumerate] runs row by row. *)
Definition gauss_from_amat (o : oracle) (n : nat) (W : mat) (nodes : option (list node)) (biases variances : option (list Qc)) : res gauss :=
  gauss_make o (default (seq 0 n) nodes)
    (i ← seq 0 n; j ← seq 0 n; if decide (W i j ≠ 0) then [((i, j), W i j)] else []) biases variances.
(** [to_dag], lines 61-69. *)
Definition gauss_to_dag (o : oracle) (g : gauss) : res dag := dag_make o (list_to_set (g_list g)) (d_arcs (g_dag g)).

(** A list of numbers as a vector. *)
Definition vec_of (l : list Qc) : vec := λ i, default 0 (l !! i).
Definition all_one (l : list Qc) : Prop := Forall (λ v, v = 1) l.
#[global] Instance all_one_dec l : Decision (all_one l).
Proof. unfold all_one. apply _. Defined.

(** [_ensure_precision], lines 566-573.  Shapes must fit: as many nodes as rows and, unless all
    are 1, as many variances.  (numpy would also accept some shapes with a single
    row or column; this does not arise when they fit.) *)
Definition precision_of (g : gauss) : res mat :=
  let n := g_dim g in
  let b := msub mid (g_w g) in
  if decide (size (d_nodes (g_dag g)) = n) then
    if decide (all_one (g_var g)) then Ok (mmul n b (mT b))
    else if decide (length (g_var g) = n) then Ok (mmul n (mmul n b (mdiag (λ i, / vec_of (g_var g) i))) (mT b))
    else Raise ValueError
  else Raise ValueError.
(** [_ensure_covariance], lines 575-584. *)
Definition covariance_of (inv : nat → mat → mat) (g : gauss) : res mat :=
  let n := g_dim g in
  if decide (size (d_nodes (g_dag g)) = n) then
    let v := inv n (msub mid (g_w g)) in
    if decide (all_one (g_var g)) then Ok (mmul n (mT v) v)
    else if decide (length (g_var g) = n) then Ok (mmul n (mmul n (mT v) (mdiag (vec_of (g_var g)))) v)
    else Raise ValueError
  else Raise ValueError.
(** The properties [precision] and [covariance], lines 343-351, with their caches. *)
Definition read_precision : M gauss mat := λ g,
  match g_prec g with
  | Some p => (g, Ok p)
  | None => match precision_of g with Ok p => (with_prec (Some p) g, Ok p) | Raise e => (g, Raise e) end
  end.
Definition read_covariance (inv : nat → mat → mat) : M gauss mat := λ g,
  match g_cov g with
  | Some c => (g, Ok c)
  | None => match covariance_of inv g with Ok c => (with_cov (Some c) g, Ok c) | Raise e => (g, Raise e) end
  end.

(** One call on a [GaussDAG]. *)
Inductive gcall :=
  | GSetArc (o : oracle) (i j : node) (val : Qc)
  | GSetArcs (o : oracle) (arcs : list (arc * Qc))
  | GSetBias (i : node) (b : Qc)
  | GSetVariance (i : node) (v : Qc)
  | GPrecision
  | GCovariance.
Definition grun (inv : nat → mat → mat) (c : gcall) (g : gauss) : gauss :=
  match c with
  | GSetArc o i j val => (set_arc_weight o i j val g).1
  | GSetArcs o arcs => (set_arc_weights o arcs g).1
  | GSetBias i b => (set_node_bias i b g).1
  | GSetVariance i v => (set_node_variance i v g).1
  | GPrecision => (read_precision g).1
  | GCovariance => (read_covariance inv g).1
  end.

(** [direct_effects], lines 140-147. *)
Definition direct_effects (g : gauss) : mat :=
  let n := g_dim g in
  (foldl (λ (st : mat * mat) _, (madd st.1 st.2, mmul n st.2 (g_w g))) (mzero, g_w g) (seq 0 (size (d_nodes (g_dag g))))).1.

(** [weight_mat[ixs, c] @ x[ixs]]. *)
Definition dot_at (W : mat) (ixs : list nat) (c : nat) (x : vec) : Qc := foldr (λ a acc, W a c * x a + acc) 0 ixs.
(** [[self._node2ix[p] for p in l]]. *)
Definition ixs_of (g : gauss) (l : list node) : res (list nat) :=
  loopR (λ p acc, match g_ix g !! p with Some a => Ok (acc ++ [a]) | None => Raise KeyError end) l [].
(** [means] and [deterministic_intervention_means], lines 286-308.  The index [i] is also used as
    the label of a node. *)
Definition intervention_means (o : oracle) (g : gauss) (iv : gmap node Qc) : res vec :=
  loopR (λ i x,
    match iv !! i with
    | Some c => if decide (i < g_dim g)%nat then Ok (vupd x i c) else Raise IndexError
    | None =>
      res_bind (ixs_of g (on o [132; i] (parents (g_dag g) i))) (λ ps,
        match g_bias g !! i with
        | Some b => if decide (i < g_dim g)%nat then Ok (vupd x i (dot_at (g_w g) ps i x + b)) else Raise IndexError
        | None => Raise IndexError
        end)
    end) (seq 0 (size (d_nodes (g_dag g)))) (λ _, 0).
Definition means (o : oracle) (g : gauss) : res vec := intervention_means o g ∅.

(** The loop of [sample], [sample_interventional_perfect] (lines 586-653) for one row, given
    the drawn noise.  An intervened node keeps its noise, which is then the value drawn from
    the intervention.  The column is selected by the label [node]. *)
Definition sample_row (o : oracle) (g : gauss) (iv : nset) (eps : vec) : res vec :=
  res_bind (topological_sort (g_dag g) o) (λ t,
    loopR (λ v x,
      match g_ix g !! v with
      | None => Raise KeyError
      | Some a =>
        if decide (v ∉ iv ∧ parents (g_dag g) v ≠ ∅) then
          res_bind (ixs_of g (on o [133; v] (parents (g_dag g) v))) (λ ps,
            if decide (v < g_dim g)%nat then Ok (vupd x a (dot_at (g_w g) ps v x + eps a)) else Raise IndexError)
        else Ok (vupd x a (eps a))
      end) t (λ _, 0)).

(** [deterministic_intervention_counterfactuals] for one row, lines 310-325. *)
Definition counterfactual_row (o : oracle) (g : gauss) (iv : gmap node Qc) (x : vec) : res vec :=
  let eps : vec := λ a, qsum (g_dim g) (λ k, x k * msub mid (g_w g) k a) in
  res_bind (topological_sort (g_dag g) o) (λ t,
    loopR (λ v y,
      match g_ix g !! v with
      | None => Raise KeyError
      | Some a =>
        match iv !! v with
        | Some c => Ok (vupd y a c)
        | None =>
          res_bind (ixs_of g (on o [134; v] (parents (g_dag g) v))) (λ ps,
            if decide (v < g_dim g)%nat then Ok (vupd y a (dot_at (g_w g) ps v y + eps a)) else Raise IndexError)
        end
      end) t (λ _, 0)).

(** [logpdf] without interventions for one row, lines 780-798: the pairs (argument, variance) passed to
    [norm.logpdf], whose results are added. *)
Definition logpdf_terms (o : oracle) (g : gauss) (x : vec) : res (list (Qc * Qc)) :=
  res_bind (topological_sort (g_dag g) o) (λ t,
    loopR (λ v acc,
      match g_ix g !! v with
      | None => Raise KeyError
      | Some a =>
        res_bind (ixs_of g (on o [135; v] (parents (g_dag g) v))) (λ ps,
          if decide (ps ≠ [] ∧ g_dim g ≤ v)%nat then Raise IndexError else
          match g_var g !! a with
          | Some s => Ok (acc ++ [(x a - dot_at (g_w g) ps v x, s)])
          | None => Raise IndexError
          end)
      end) t []).

(** [interventional_dag], lines 727-731: biases and variances are read by label, in the iteration
    order of the set of nodes. *)
Definition pick (l : list Qc) (new : gmap node Qc) (order : list node) : res (list Qc) :=
  loopR (λ v acc, match new !! v with
    | Some c => Ok (acc ++ [c])
    | None => match l !! v with Some c => Ok (acc ++ [c]) | None => Raise IndexError end
    end) order [].
Definition interventional_dag (o : oracle) (g : gauss) (iv : gmap node (Qc * Qc)) : res gauss :=
  res_bind (arc_weights o g) (λ ws,
    let order := on o [136] (d_nodes (g_dag g)) in
    res_bind (pick (g_bias g) (fst <$> iv) order) (λ bs, res_bind (pick (g_var g) (snd <$> iv) order) (λ vs,
      gauss_make o order (filter (λ a : arc * Qc, iv !! a.1.2 = None) ws) (Some bs) (Some vs)))).
(** [soft_interventional_dag], lines 733-740: an intervention is a triple (bias, variance, weights); the
    entry at position [i] of the triple is used as the weight of [i -> j].  The array of weights
    is not a number: [np.array(ws)] or the assignment raises (that numpy accepts an array with
    one element in some cases is not modelled). *)
Definition soft_weight (iv : Qc * Qc * list Qc) (i : node) : res Qc :=
  match i with
  | 0%nat => Ok iv.1.1
  | 1%nat => Ok iv.1.2
  | 2%nat => Raise ValueError
  | _ => Raise IndexError
  end.
Definition soft_interventional_dag (o : oracle) (g : gauss) (iv : gmap node (Qc * Qc * list Qc)) : res gauss :=
  res_bind (arc_weights o g) (λ ws,
    res_bind (loopR (λ (a : arc * Qc) acc,
        match iv !! a.1.2 with
        | None => Ok (acc ++ [a])
        | Some t => res_bind (soft_weight t a.1.1) (λ w, Ok (acc ++ [(a.1, w)]))
        end) ws []) (λ arcs,
    let order := on o [136] (d_nodes (g_dag g)) in
    res_bind (pick (g_bias g) ((λ t, t.1.1) <$> iv) order) (λ bs, res_bind (pick (g_var g) ((λ t, t.1.2) <$> iv) order) (λ vs,
      gauss_make o order arcs (Some bs) (Some vs))))).

(** [interventional_covariance], lines 715-725.  [np.eye(n) - a] needs [a] to be [n] by [n]; an [a] with one row
    is broadcast, an empty one only fits [n = 1]. *)
Definition interventional_covariance (o : oracle) (inv : nat → mat → mat) (g : gauss) (iv : nset) : res mat :=
  let n := size (d_nodes (g_dag g)) in
  let rem := filter (λ v, v ∉ iv) (on o [137%nat] (d_nodes (g_dag g))) in
  if decide (Forall (λ v, v < g_dim g)%nat rem) then
    let a : mat := λ i j, g_w g (default O (rem !! i)) (default O (rem !! j)) in
    let finish (b : mat) : res mat :=
      let v := inv n b in
      if decide (all_one (g_var g)) then Ok (mmul n (mT v) v)
      else if decide (length (g_var g) = n) then Ok (mmul n (mmul n (mT v) (mdiag (vec_of (g_var g)))) v)
      else Raise ValueError in
    if decide (length rem = n) then finish (msub mid a)
    else if decide (length rem = 1%nat) then finish (msub mid (λ _ _, a O O))
    else if decide (length rem = O ∧ n = 1%nat) then
      if decide (all_one (g_var g)) then Ok mzero (* the empty matrix *) else Raise ValueError
    else Raise ValueError
  else Raise IndexError.
