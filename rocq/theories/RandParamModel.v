(** Model of the functions that put random parameters on a graph.  Line numbers refer to graphical_models/rand/graphs.py.
    The outcomes of the random draws are arguments; arithmetic is exact. *)
From Coq Require Import QArith.Qcanon.
From Verif Require Import Py Spec DagModel QMatModel GaussModel DiscreteModel.
#[local] Open Scope Qc_scope.

(** [unif_away_zero], lines 28-32; [us] are the draws of [np.random.uniform], [coins] those of [_coin]. *)
Definition unif_away_zero (all_positive : bool) (coins : list bool) (us : list Qc) : list Qc :=
  if all_positive then us
  else zip_with (λ (c : bool) u, ((if c then 1 else 0) - 1 / qz 2) * qz 2 * u) coins us.
(** [unif_away_original], lines 35-53.  [k] is the number of the region drawn by [random.choices], which raises if all weights
    are 0, and [t] is the draw of [random_sample], for which [np.random.uniform(a, b)] is [a + (b - a) * t]. *)
Definition away_regions (original dist low high : Qc) : list (Qc * Qc) :=
  if decide (original < 0) then
    (low, high) ::
    (if decide (- high <= original - dist) then [(- high, original - dist)] else []) ++
    (if decide (original + dist <= - low) then [(original + dist, - low)] else [])
  else
    (- high, - low) ::
    (if decide (original + dist <= high) then [(original + dist, high)] else []) ++
    (if decide (low <= original - dist) then [(low, original - dist)] else []).
Definition unif_away_original (k : nat) (t original dist low high : Qc) : res Qc :=
  if decide (dist < low) then Raise ValueError else
  let regions := away_regions original dist low high in
  if decide (foldr (λ r acc, (r.2 - r.1) + acc) 0 regions <= 0) then Raise ValueError else
  match regions !! k with Some (a, b) => Ok (a + (b - a) * t) | None => Raise IndexError end.

(** [rand_weights], lines 159-160; [ws] is the result of [rand_weight_fn]. *)
Definition rand_weights (o : oracle) (d : dag) (ws : list Qc) : res gauss :=
  gauss_make o (seq 0 (size (d_nodes d))) (zip (oa o [171]%nat (d_arcs d)) ws) None None.

(** [rand_discrete_dag], lines 163-189.  [row v ix] is the draw of [np.random.dirichlet] for the node [v] and the
    values [ix] of its parents. *)
Definition discrete_node (o : oracle) (d : dag) (alph : gmap node (list Qc)) (row : node → list nat → list Qc) (v : node)
    (s : gmap node tensor * gmap node (list node)) : res (gmap node tensor * gmap node (list node)) :=
  let '(conds, n2p) := s in
  let ps := on o [173; v]%nat (parents d v) in
  if decide (Forall (λ p, is_Some (alph !! p)) (ps ++ [v])) then
    let shape := shape_of alph ps in
    Ok (<[v := Tensor (shape ++ shape_of alph [v]) (λ ix, default 0 (ix !! length ps ≫= (row v (take (length ps) ix) !!.)))]> conds,
        <[v := ps]> n2p)
  else Raise KeyError.
Definition rand_discrete_dag (o : oracle) (d : dag) (alph : option (gmap node (list Qc))) (row : node → list nat → list Qc) : res ddag :=
  let alph := default (gset_to_gmap (qz <$> [0; 1; 2]%Z) (d_nodes d)) alph in
  res_bind (loopR (discrete_node o d alph row) (on o [172]%nat (d_nodes d)) (∅, ∅)) (λ '(conds, n2p),
    ddag_make o (seq 0 (size (d_nodes d))) (d_arcs d) conds n2p alph).

(** [tensor_product], lines 192-197. *)
Definition vec_tensor (v : list Qc) : tensor := Tensor [length v] (λ ix, default 0 (ix !! 0%nat ≫= (v !!.))).
Definition outer (a b : tensor) : tensor :=
  Tensor (t_shape a ++ t_shape b) (λ ix, t_at a (take (length (t_shape a)) ix) * t_at b (drop (length (t_shape a)) ix)).
Definition tensor_product (vecs : list (list Qc)) : res tensor :=
  match vecs with [] => Raise IndexError | v :: vs => Ok (foldl (λ cur v, outer cur (vec_tensor v)) (vec_tensor v) vs) end.
(** [np.stack((prob0, 1 - prob0), axis=-1)], line 214, and [np.array([prob0, 1 - prob0])], line 217. *)
Definition two_values (p : tensor) : tensor :=
  Tensor (t_shape p ++ [2%nat]) (λ ix,
    let x := t_at p (take (length (t_shape p)) ix) in
    if decide (ix !! length (t_shape p) = Some 0%nat) then x else 1 - x).
(** [rand_noisy_or_dag], lines 200-229.  [q v] is the draw of line 207, [param v k] the [k]-th draw of line 210 and [u v] the draw
    of line 216. *)
Definition noisy_node (o : oracle) (d : dag) (q : node → Qc) (param : node → nat → Qc) (u : node → Qc) (v : node)
    (s : gmap node tensor * gmap node (list node)) : res (gmap node tensor * gmap node (list node)) :=
  let '(conds, n2p) := s in
  let ps := on o [175; v]%nat (parents d v) in
  res_bind (if decide (0 < length ps)%nat then tensor_product ((λ k, [1; param v k]) <$> seq 0 (length ps))
            else Ok (Tensor [] (λ _, u v))) (λ t,
    Ok (<[v := two_values (Tensor (t_shape t) (λ ix, t_at t ix * q v))]> conds, <[v := ps]> n2p)).
Definition rand_noisy_or_dag (o : oracle) (d : dag) (q : node → Qc) (param : node → nat → Qc) (u : node → Qc) : res ddag :=
  let n := size (d_nodes d) in
  res_bind (loopR (noisy_node o d q param u) (on o [174]%nat (d_nodes d)) (∅, ∅)) (λ '(conds, n2p),
    ddag_make o (seq 0 n) (d_arcs d) conds n2p (gset_to_gmap (qz <$> [0; 1]%Z) (list_to_set (seq 0 n)))).

(** [rand_normal_wishart], lines 232-245.  [chi v] is the draw of line 240, which raises unless the degrees of freedom are
    positive; [ws v] are the draws of line 241, one more than [v] has parents. *)
Definition wishart_node (o : oracle) (d : dag) (dof : Qc) (chi : node → Qc) (ws : node → list Qc) (v : node)
    (s : list (arc * Qc) * list Qc * list Qc) : res (list (arc * Qc) * list Qc * list Qc) :=
  let '(arcs, means, variances) := s in
  let ps := on o [177; v]%nat (parents d v) in
  if decide (0 < (dof - qz (Z.of_nat (size (d_nodes d))) + qz (Z.of_nat (length ps)) + 1) / qz 2) then
    Ok (arcs ++ zip ((λ p, (p, v)) <$> ps) (take (length ps) (ws v)),
        means ++ [default 0 (last (ws v))], variances ++ [chi v])
  else Raise ValueError.
Definition rand_normal_wishart (o : oracle) (d : dag) (dof : option Qc) (chi : node → Qc) (ws : node → list Qc) : res gauss :=
  let dof := default (qz (Z.of_nat (size (d_nodes d))) + 1) dof in
  let nodes := on o [176]%nat (d_nodes d) in
  res_bind (loopR (wishart_node o d dof chi ws) nodes ([], [], [])) (λ '(arcs, means, variances),
    gauss_make o nodes arcs (Some means) (Some variances)).

(** [alter_weights], lines 450-522.  An argument [num_*] is a natural number or [None]; the second component says whether the
    argument [prob_*] is given.  [samp k l n] is the result of the [k]-th call [random.sample(l, n)], [change] is [rand_change_fn] and [ws] the result of
    [rand_weight_fn].  Comparing or adding [None] is a [TypeError], so the draws of lines 500-503 are never reached. *)
Definition alter_weights (o : oracle) (samp : nat → list arc → nat → list arc) (change : arc → Qc → res Qc) (ws : list Qc)
    (altered removed added : option nat * bool) (g : gauss) : res gauss :=
  if decide (altered = (None, false) ∨ added = (None, false) ∨ removed = (None, false)) then Raise ValueError else
  match altered.1, removed.1 with
  | Some na, Some nr =>
    let E := d_arcs (g_dag g) in
    if decide (size E < na + nr)%nat then Raise ValueError else
    let n := Z.of_nat (size (d_nodes (g_dag g))) in
    match added.1 with
    | Some nn =>
      if decide (n * (n - 1) / 2 - Z.of_nat (size E) < Z.of_nat nn)%Z then Raise ValueError else
      let alt := samp 0%nat (oa o [178]%nat E) na in
      let rem := samp 1%nat (oa o [179]%nat (E ∖ list_to_set alt)) (nr `min` (size E - na)) in
      res_bind (topological_sort (g_dag g) o) (λ t,
      let new := samp 2%nat (oa o [180]%nat (list_to_set (combinations2 t) ∖ E)) nn in
      res_bind (gauss_copy o g) (λ c,
      res_bind (arc_weights o g) (λ old,
        match
          (mfor alt (λ e, λ c, match (list_to_map old : gmap arc Qc) !! e with
              | None => (c, Raise KeyError)
              | Some w => match change e w with Ok x => set_arc_weight o e.1 e.2 x c | Raise err => (c, Raise err) end
              end) ;;;
           mfor rem (λ e, g_remove_arc o e.1 e.2) ;;;
           mfor (zip new ws) (λ a, set_arc_weight o a.1.1 a.1.2 a.2)) c with
        | (c, Ok _) => Ok c
        | (_, Raise e) => Raise e
        end)))
    | None => Raise TypeError
    end
  | _, _ => Raise TypeError
  end.
