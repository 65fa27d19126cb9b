(** Model of the random functions of graphical_models/rand/graphs.py: [rand_nn_functions], [rand_additive_basis].  Line numbers
    refer to that file.  The outcomes of the draws are arguments. *)
From Coq Require Import QArith.Qcanon.
From Verif Require Import Py Spec DagModel QMatModel GaussModel ScmModel CamModel.
#[local] Open Scope Qc_scope.

(** [a @ vals] for a [k] by [k] matrix [a]. *)
Definition matvec (k : nat) (a : mat) (l : list Qc) : list Qc := (λ i, qsum k (λ j, a i j * default 0 (l !! j))) <$> seq 0 k.
Definition matmul (k : nat) (a : mat) (x : nd) : res nd :=
  match x with
  | Scal _ => Raise ValueError
  | Vec l => if decide (length l = k) then Ok (Vec (matvec k a l)) else Raise ValueError
  | Mat r cs => if decide (r = k) then Ok (Mat k (matvec k a <$> cs)) else Raise ValueError
  end.
(** A function applied to every entry. *)
Definition nd_map (f : Qc → Qc) (x : nd) : nd :=
  match x with Scal q => Scal (f q) | Vec l => Vec (f <$> l) | Mat r cs => Mat r ((λ c : list Qc, f <$> c) <$> cs) end.
(** [conditional], lines 265-270, where the variable [layer_mats] holds the matrices [a] of size [k]. *)
Definition nn_conditional (k : nat) (layers : list mat) (nonlin : Qc → Qc) (noise : Qc) (x : nd) : res nd :=
  res_bind (loopR (λ a vals, res_bind (matmul k a vals) (λ y, Ok (nd_map nonlin y))) layers x) (λ y, Ok (nd_map (λ q, q + noise) y)).
(** [rand_nn_functions], lines 252-274.  The functions refer to the variable [layer_mats] of the surrounding call, which all
    iterations share: when one of them is called it holds the matrices of the last node of the loop. *)
Definition rand_nn_functions (o : oracle) (d : dag) (layers : node → list mat) (nonlin : Qc → Qc) (noise : node → Qc) : res sdag :=
  let ns := on o [188%nat] (d_nodes d) in
  res_bind (sdag_make o ns (d_arcs d)) (λ S,
    let l := default 0%nat (last ns) in
    Ok (foldl (λ S v, set_conditional v (nn_conditional (size (parents d l)) (layers l) nonlin (noise v)) S) S ns)).

(** [_cam_mean_function], lines 283-299, for the coefficient [c], the weights of the parents by position and the functions of the
    parents by name.  A failed assertion is a [ValueError]. *)
Definition cam_mean_function (c : Qc) (ws : list Qc) (p2b : gmap node (Qc → Qc)) (cs : columns) (n : nat) (ps : list node) : res (list Qc) :=
  if decide (length cs = length ps ∧ length ws = length ps ∧ Forall (λ p, p ∈ dom p2b) ps) then
    if decide (ps = []) then Ok (replicate n 0)
    else Ok ((λ i, c * foldr Qcplus 0 (zip_with (λ w (pc : node * list Qc), default id (p2b !! pc.1) (default 0 (pc.2 !! i)) * w) ws (zip ps cs))) <$> seq 0 n)
  else Raise ValueError.
(** [np.var]. *)
Definition qlen (l : list Qc) : Qc := Q2Qc (QArith_base.inject_Z (Z.of_nat (length l))).
Definition np_mean (l : list Qc) : Qc := foldr Qcplus 0 l / qlen l.
Definition np_var (l : list Qc) : Qc := np_mean ((λ x, (x - np_mean l) * (x - np_mean l)) <$> l).
(** [rand_additive_basis], lines 302-398.  [bases v] and [weights v] are the functions and the weights drawn for the node [v],
    [mc v] the [num_monte_carlo] values of its noise, [noise v] the noise function; [r2] is the dictionary of the desired values, looked up
    under the number of parents or under the node; [sq] is [np.sqrt].  Numbers that are not finite are not modelled: where a variance
    is 0 or the desired value exceeds 1 the model raises [RuntimeError].  The second result is [sample_dict]. *)
Definition additive_node (o : oracle) (d : dag) (bases : node → list (Qc → Qc)) (weights mc : node → list Qc) (noise : node → nat → res (list Qc))
    (r2 : gmap nat Qc) (by_node : bool) (sq : Qc → Qc) (nmc : nat) (v : node) (st : cam * gmap node (list Qc)) : res (cam * gmap node (list Qc)) :=
  let '(C, dict) := st in
  let ps := on o [189%nat; v] (parents d v) in
  let p2b : gmap node (Qc → Qc) := list_to_map (zip ps (bases v)) in
  res_bind (loopR (λ p acc, match dict !! p with Some c => Ok (acc ++ [c]) | None => Raise KeyError end) ps []) (λ cs,
  let vn := np_var (mc v) in
  if decide (vn = 0) then Raise RuntimeError else
  res_bind
    (if decide (ps = []) then Ok (0, sq (1 / vn), [])
     else
       res_bind (cam_mean_function 1 (weights v) p2b cs nmc ps) (λ vals,
       match r2 !! (if by_node then v else length ps) with
       | None => Raise KeyError
       | Some q =>
         if decide (q < 0) then Raise ValueError
         else if decide (np_var vals = 0 ∨ 1 < q) then Raise RuntimeError
         else Ok (sq (q / np_var vals), sq ((1 - q) / vn), weights v)
       end)) (λ '(c, b, ws),
  res_bind (cam_mean_function c ws p2b cs nmc ps) (λ vals,
  res_bind (vadd vals (Qcmult b <$> mc v)) (λ x,
    Ok (set_noise v (λ n, res_bind (noise v n) (λ e, Ok (Qcmult b <$> e))) (set_mean_function v (cam_mean_function c ws p2b) C), <[v := x]> dict))))).
Definition rand_additive_basis (o : oracle) (d : dag) (bases : node → list (Qc → Qc)) (weights mc : node → list Qc) (noise : node → nat → res (list Qc))
    (r2 : gmap nat Qc) (by_node : bool) (sq : Qc → Qc) (nmc : nat) : res (cam * gmap node (list Qc)) :=
  res_bind (cam_make o (on o [188%nat] (d_nodes d)) (d_arcs d)) (λ C,
  res_bind (topological_sort d o) (λ t,
    loopR (additive_node o d bases weights mc noise r2 by_node sq nmc) t (C, ∅))).
