(** Model of the methods of [GaussDAG] and [GGM] that invert or factorise matrices.  Line numbers
    refer to graphical_models/classes/dags/gaussdag.py unless another file is named.
    Arithmetic is exact and [np.linalg.inv] is a parameter, as in GaussModel.v; that
    [inv] raises for a singular matrix is not modelled. *)
From Coq Require Import QArith.Qcanon.
From Verif Require Import Py Spec DagModel UGraphModel QMatModel GaussModel.
#[local] Open Scope Qc_scope.

(** [M[np.ix_(l, l')]]; an index out of range raises. *)
Definition mix_ (l l' : list nat) (A : mat) : mat := λ i j, A (default O (l !! i)) (default O (l' !! j)).
Definition in_range (n : nat) (l : list nat) : Prop := Forall (λ v, (v < n)%nat) l.
#[global] Instance in_range_dec n l : Decision (in_range n l).
Proof. unfold in_range. apply _. Defined.
Definition vix (l : list nat) (x : vec) : vec := λ i, x (default O (l !! i)).

(** [partial_correlation], lines 379-398 and ggm.py:69-88, from the covariance matrix [S]: the
    pair [(a, b)] stands for [a / sqrt(b)].  The code inverts the submatrix of the
    correlation matrix [S / sqrt(diag(S)) / sqrt(diag(S)).reshape([-1, 1])] (lines 361-364):
    this multiplies the entry [i, j] of the inverse by the product of the standard deviations, which cancels
    in the quotient.  The cache [_correlation] is not modelled.  The set is enumerated by [o]. *)
Definition partial_correlation (o : oracle) (inv : nat → mat → mat) (n : nat) (S : mat) (i j : node) (cond : nset) : res (Qc * Qc) :=
  if decide (cond = ∅) then
    if decide (in_range n [i; j]) then Ok (S i j, S i i * S j j) else Raise IndexError
  else
    let l := i :: j :: on o [149%nat] cond in
    if decide (in_range n l) then
      let theta := inv (length l) (mix_ l l S) in Ok (- theta 0%nat 1%nat, theta 0%nat 0%nat * theta 1%nat 1%nat)
    else Raise IndexError.
Definition g_partial_correlation (o : oracle) (inv : nat → mat → mat) (i j : node) (cond : nset) : M gauss (Qc * Qc) :=
  mbind' (read_covariance inv) (λ S g, (g, partial_correlation o inv (g_dim g) S i j cond)).

(** [marginal_precision], lines 371-377. *)
Definition marginal_precision (o : oracle) (inv : nat → mat → mat) (nodes : list node) : M gauss mat :=
  mbind' read_precision (λ p g, (g,
    let comp := filter (λ v, v ∉ nodes) (on o [150%nat] (d_nodes (g_dag g))) in
    if decide (in_range (g_dim g) (nodes ++ comp)) then
      let A := mix_ nodes nodes p in
      let B := mix_ nodes comp p in
      let C := mix_ comp comp p in
      let k := length comp in
      Ok (msub A (mmul k (mmul k B (inv k C)) (mT B)))
    else Raise IndexError)).

(** [regression_coefficients], lines 400-413, for lists of targets and predictors: the coefficient of predictor number
    [a] for target number [b], and the biases (the option [bias=False] leaves them out). *)
Definition regression_coefficients (o : oracle) (inv : nat → mat → mat) (ts ps : list node) : M gauss (mat * vec) :=
  mbind' (read_covariance inv) (λ S g, (g,
    if decide (in_range (g_dim g) (ps ++ ts)) then
      let k := length ps in
      let coefs := mmul k (inv k (mix_ ps ps S)) (mix_ ps ts S) in
      res_bind (means o g) (λ m,
        Ok (coefs, λ b, vix ts m b - qsum k (λ a, vix ps m a * coefs a b)))
    else Raise IndexError)).

(** The tolerance 1e-8 of [np.isclose(., 0)] and of [is_symmetric], and its square. *)
Definition tol : Qc := / qz 100000000.
Definition tol2 : Qc := tol * tol.
(** [is_symmetric], core_utils.py:102-103. *)
Definition is_symmetric (n : nat) (A : mat) : bool :=
  forallb (λ i, forallb (λ j, bool_decide (A i j - A j i <= tol)) (seq 0 n)) (seq 0 n).

(** The factors of [A = L diag(d) L.T] with [L] unit lower triangular, from the lower half of [A], up
    to column [k].  In terms of the Cholesky factor [u_chol] of lines 181-185, [L] is [u_chol / diag(u_chol)] and [d]
    is [diag(u_chol)**2]. *)
Fixpoint ldl (A : mat) (k : nat) : mat * vec :=
  match k with
  | O => (mzero, λ _, 0)
  | S k =>
    let '(L, d) := ldl A k in
    let dk := A k k - qsum k (λ m, L k m * L k m * d m) in
    (λ i j, if decide (j = k) then
              if decide (i < k)%nat then 0 else if decide (i = k) then 1
              else (A i k - qsum k (λ m, L i m * L k m * d m)) / dk
            else L i j,
     vupd d k dk)
  end.
(** [u_chol[np.isclose(u_chol, 0)] = 0], line 182: an entry of [u_chol] is [L i j] times the square root of [d j]. *)
Definition chop (L : mat) (d : vec) : mat := λ i j, if decide (L i j * L i j * d j <= tol2) then 0 else L i j.

(** The index of [v] in the permutation [l]: [inv_node_order], line 188. *)
Fixpoint pos_in (l : list nat) (v : nat) : nat :=
  match l with [] => O | x :: l => if decide (x = v) then O else S (pos_in l v) end.

(** [from_precision] with [check=False], lines 149-201.  An order that is not a permutation of the indices of the rows
    (which need not raise in the code) is represented by [IndexError].  [cholesky]
    raises [LinAlgError], here [ValueError], if some [d] is not positive; a [d] so small that its root is rounded to zero, which gives
    a division by zero, is also represented by [ValueError]. *)
Definition from_precision (o : oracle) (n : nat) (P : mat) (order : option (list nat)) : res gauss :=
  if negb (is_symmetric n P) then Raise ValueError else
  let rev := reverse (default (seq 0 n) order) in
  if decide (length rev = n ∧ in_range n rev ∧ NoDup rev) then
    let '(L, d) := ldl (mix_ rev rev P) n in
    if decide (Forall (λ k, tol2 < d k) (seq 0 n)) then
      let u := chop L d in
      let amat : mat := λ i j, mid i j - u (pos_in rev i) (pos_in rev j) in
      gauss_from_amat o n amat None None (Some ((λ i, / d (pos_in rev i)) <$> seq 0 n))
    else Raise ValueError
  else Raise IndexError.
(** [from_covariance], lines 97-116. *)
Definition from_covariance (o : oracle) (inv : nat → mat → mat) (n : nat) (S : mat) (order : option (list nat)) : res gauss :=
  if negb (is_symmetric n S) then Raise ValueError else from_precision o n (inv n S) order.

(** A [GGM] (classes/undirected/ggm.py:18-27): the graph and the two matrices; the means and the cache
    [_correlation] are not modelled. *)
Record ggm := Ggm { gg_graph : ug; gg_dim : nat; gg_prec : mat; gg_cov : option mat }.
(** [__init__], ggm.py:18-27. *)
Definition ggm_make (o : oracle) (flip : arc → bool) (n : nat) (P : mat) : ggm :=
  let nodes : nset := list_to_set (seq 0 n) in
  let edges : arcset := filter (λ e : arc, (e.1 < e.2)%nat ∧ P e.1 e.2 ≠ 0) (list_to_set (i ← seq 0 n; j ← seq 0 n; [(i, j)])) in
  Ggm (ug_make o flip nodes edges) n P None.
(** [from_covariance], ggm.py:29-33. *)
Definition ggm_from_covariance (o : oracle) (flip : arc → bool) (inv : nat → mat → mat) (n : nat) (S : mat) : ggm :=
  let g := ggm_make o flip n (inv n S) in Ggm (gg_graph g) n (gg_prec g) (Some S).
(** [from_adjacency], ggm.py:35-48. *)
Definition ggm_from_adjacency (o : oracle) (flip : arc → bool) (n : nat) (a : mat) (variances : option (list Qc)) : res ggm :=
  let vs := default (replicate n 1) variances in
  let b := msub mid a in
  if decide (all_one vs) then Ok (ggm_make o flip n (mmul n b (mT b)))
  else if decide (length vs = n) then Ok (ggm_make o flip n (mmul n (mmul n b (mdiag (λ i, / vec_of vs i))) (mT b)))
  else Raise ValueError.
(** [covariance], ggm.py:50-62, and [partial_correlation], 69-88. *)
Definition ggm_covariance (inv : nat → mat → mat) (g : ggm) : mat := default (inv (gg_dim g) (gg_prec g)) (gg_cov g).
Definition ggm_partial_correlation (o : oracle) (inv : nat → mat → mat) (g : ggm) (i j : node) (cond : nset) : res (Qc * Qc) :=
  partial_correlation o inv (gg_dim g) (ggm_covariance inv g) i j cond.
