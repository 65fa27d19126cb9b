(** Model of [GGM.to_gauss_dag], graphical_models/classes/undirected/ggm.py:93-139.  Arithmetic is
    exact and [inv] is a parameter, as in GaussLinModel.v.  The printing at line 135 is left out, and so are the
    empty entries that reading [parents_of] and [markov_blanket_of] can add to the dictionaries of the graph. *)
From Coq Require Import QArith.Qcanon.
From Verif Require Import Py Spec DagModel UGraphModel InterveneModel QMatModel GaussModel GaussLinModel.
#[local] Open Scope Qc_scope.

(** [ixs], line 113: the pairs of positions, ordered by the second one. *)
Definition position_pairs (k : nat) : list (nat * nat) := s ← seq 0 k; f ← seq 0 s; [(f, s)].

(** [np.isclose(., 0)], line 116, for the number [a / sqrt(b)] with [b] positive. *)
Definition is_close (ab : Qc * Qc) : bool := bool_decide (ab.1 * ab.1 <= tol2 * ab.2).

(** Lines 114-117, for one pair of positions. *)
Definition imap_step (o : oracle) (inv : nat → mat → mat) (g : ggm) (perm : list node) (fs : nat * nat) (d : dag) : res dag :=
  match perm !! fs.1, perm !! fs.2 with
  | Some x, Some y =>
    res_bind (ggm_partial_correlation (at_call o [206; fs.1; fs.2]) inv g x y (markov_blanket_of d x)) (λ ab,
      if is_close ab then Ok d
      else match add_arc (at_call o [207; fs.1; fs.2]) x y true d with
           | (d', Ok _) => Ok d'
           | (_, Raise e) => Raise e
           end)
  | _, _ => Raise IndexError
  end.
(** Lines 112-117.  A permutation with a repeated entry, for which a singular matrix is
    inverted or a loop is added, is represented by [ValueError]. *)
Definition ggm_imap (o : oracle) (inv : nat → mat → mat) (g : ggm) (perm : list node) : res dag :=
  if decide (NoDup perm) then
    loopR (imap_step o inv g perm) (position_pairs (length perm)) (dag_init (u_nodes (gg_graph g)))
  else Raise ValueError.

(** Lines 124-137, for one node: the dictionary of arcs in its insertion order, the means and the variances. *)
Definition regress_step (o : oracle) (inv : nat → mat → mat) (g : ggm) (m : vec) (d : dag) (i : node)
    (acc : list (arc * Qc) * list Qc * list Qc) : res (list (arc * Qc) * list Qc * list Qc) :=
  let '(arcs, ms, vs) := acc in
  let S := ggm_covariance inv g in
  let ps := on o [208%nat; i] (parents d i) in
  let k := length ps in
  if decide (in_range (gg_dim g) (i :: ps)) then
    let coeffs : vec := λ a, mmul k (inv k (mix_ ps ps S)) (λ a _, S (default O (ps !! a)) i) a O in
    let mean := m i - qsum k (λ a, m (default O (ps !! a)) * coeffs a) in
    let variance := S i i - qsum k (λ a, S i (default O (ps !! a)) * coeffs a) in
    Ok (arcs ++ zip_with (λ p c, ((p, i), c)) ps (coeffs <$> seq 0 k), ms ++ [mean], vs ++ [variance])
  else Raise IndexError.
(** What is handed to the constructor of [GaussDAG]; [m] is [self.means]. *)
Definition ggm_regress (o : oracle) (inv : nat → mat → mat) (g : ggm) (m : vec) (perm : list node) : res (list (arc * Qc) * list Qc * list Qc) :=
  res_bind (ggm_imap o inv g perm) (λ d, loopR (regress_step o inv g m d) perm ([], [], [])).

(** Line 139.  The constructor is called with the keyword [means].  The constructor of this
    repository (gaussdag.py:38-44) has no such parameter, which raises [TypeError].  The class is imported from another package
    (line 110), so [accepts_means] also allows for a constructor where it is another name of [biases]. *)
Definition ggm_to_gauss_dag (accepts_means : bool) (o : oracle) (inv : nat → mat → mat) (g : ggm) (m : vec) (perm : list node) : res gauss :=
  res_bind (ggm_regress o inv g m perm) (λ '(arcs, ms, vs),
    if accepts_means then gauss_make o (seq 0 (size (u_nodes (gg_graph g)))) arcs (Some ms) (Some vs)
    else Raise TypeError).
