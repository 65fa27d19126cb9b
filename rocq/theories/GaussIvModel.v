(** Model of [GaussDAG] under soft and mixed interventions: [sample_interventional_soft], [sample_interventional],
    [predict_from_parents], [logpdf] with interventions (graphical_models/classes/dags/gaussdag.py), and the soft interventional
    distributions on a [GaussDAG] (graphical_models/classes/interventions/interventions.py).  One row is modelled.  The
    draws are arguments: deviations from the mean of the normal distribution, scaled by its standard deviation. *)
From Coq Require Import QArith.Qcanon.
From Verif Require Import Py Spec DagModel QMatModel GaussModel.
#[local] Open Scope Qc_scope.

(** The interventional distribution of a node, with the outcome of its draw: [ShiftIntervention], [ScalingIntervention], a perfect
    one.  (An object of another class leaves the column 0; this is not modelled.) *)
Inductive gdist :=
  | GShift (shift dev : Qc)
  | GScale (factor : Qc) (mean : option Qc) (dev : Qc)
  | GPerfect (val : Qc).
(** [np.sum(parent_values * dag._weight_mat[parent_ixs, node], axis=1)]: the column is selected by the label.  Not reached without
    parents. *)
Definition from_parents (g : gauss) (ps : list nat) (v : node) (x : vec) : res Qc :=
  if decide (ps = []) then Ok 0
  else if decide (v < g_dim g)%nat then Ok (dot_at (g_w g) ps v x) else Raise IndexError.
(** [ShiftIntervention.sample], interventions.py:60-70; [ScalingIntervention.sample], interventions.py:40-50: without a
    mean the attribute [_means] is read, which does not exist ([AttributeError], here [TypeError]). *)
Definition shift_gauss (shift dev : Qc) (g : gauss) (v : node) (a : nat) (ps : list nat) (x : vec) : res Qc :=
  match g_bias g !! a with
  | None => Raise IndexError
  | Some b => res_bind (from_parents g ps v x) (λ s, Ok (s + (b + shift + dev)))
  end.
Definition scale_gauss (factor : Qc) (mean : option Qc) (dev : Qc) (g : gauss) (v : node) (ps : list nat) (x : vec) : res Qc :=
  match mean with
  | None => Raise TypeError
  | Some m => res_bind (from_parents g ps v x) (λ s, Ok (s * factor + (m + dev)))
  end.
(** [sample_interventional_soft], lines 655-678 ([soft]), and [sample_interventional], lines 680-713.  A soft intervention has three
    arguments, so a perfect one raises in the first method.  [dev] holds the deviations drawn at the start; only the second method adds
    the biases.  The lists of variances and biases must have one entry for every node (in the second method; a single
    entry, which numpy would repeat, is not modelled for more nodes). *)
Definition giv_node (soft : bool) (o : oracle) (g : gauss) (iv : gmap node gdist) (dev : vec) (v : node) (x : vec) : res vec :=
  match g_ix g !! v with
  | None => Raise KeyError
  | Some a =>
    res_bind (ixs_of g (on o [190%nat; v] (parents (g_dag g) v))) (λ ps,
      match iv !! v with
      | Some (GShift s e) => res_bind (shift_gauss s e g v a ps x) (λ y, Ok (vupd x a y))
      | Some (GScale f m e) => res_bind (scale_gauss f m e g v ps x) (λ y, Ok (vupd x a y))
      | Some (GPerfect c) => if soft then Raise TypeError else Ok (vupd x a c)
      | None =>
        let noise := if soft then dev a else dev a + vec_of (g_bias g) a in
        res_bind (from_parents g ps v x) (λ s, Ok (vupd x a (s + noise)))
      end)
  end.
Definition giv_row (soft : bool) (o : oracle) (g : gauss) (iv : gmap node gdist) (dev : vec) : res vec :=
  if decide (soft = false ∧ (length (g_var g) ≠ size (d_nodes (g_dag g)) ∨ length (g_bias g) ≠ size (d_nodes (g_dag g)))) then Raise ValueError
  else res_bind (topological_sort (g_dag g) o) (λ t, loopR (giv_node soft o g iv dev) t (λ _, 0)).

(** [predict_from_parents], lines 773-778, for one row of values of the parents. *)
Definition predict_from_parents (o : oracle) (g : gauss) (v : node) (vals : list Qc) : res Qc :=
  match g_ix g !! v with
  | None => Raise KeyError
  | Some a =>
    res_bind (ixs_of g (on o [191%nat; v] (parents (g_dag g) v))) (λ ps,
      match g_bias g !! a with
      | None => Raise IndexError
      | Some b =>
        if decide (length vals = length ps) then Ok (foldr Qcplus 0 (zip_with (λ y p, y * g_w g p a) vals ps) + b) else Raise ValueError
      end)
  end.

(** The terms added in [logpdf] with interventions, lines 800-814, for one row: the logarithm of the normal density with
    this variance at this point, [iv.logpdf], [np.log(iv.pdf)].  [iv] tells which interventions are [GaussIntervention]s. *)
Inductive lterm := TNormal (arg var : Qc) | TGauss (v : node) (arg : Qc) | TPdf (v : node) (arg : Qc).
Definition logpdf_node (o : oracle) (g : gauss) (iv : gmap node bool) (exclude : bool) (x : vec) (v : node) (acc : list lterm) : res (list lterm) :=
  match g_ix g !! v with
  | None => Raise KeyError
  | Some a =>
    match iv !! v with
    | Some true => if exclude then Ok acc else Ok (acc ++ [TGauss v (x a)])
    | Some false => if exclude then Ok acc else Ok (acc ++ [TPdf v (x a)])
    | None =>
      res_bind (ixs_of g (on o [192%nat; v] (parents (g_dag g) v))) (λ ps,
        if decide (g_dim g ≤ v)%nat then Raise IndexError else
        match g_var g !! a with
        | Some s => Ok (acc ++ [TNormal (x a - dot_at (g_w g) ps v x) s])
        | None => Raise IndexError
        end)
    end
  end.
Definition logpdf_iv (o : oracle) (g : gauss) (iv : gmap node bool) (exclude : bool) (x : vec) : res (list lterm) :=
  res_bind (topological_sort (g_dag g) o) (λ t, loopR (logpdf_node o g iv exclude x) t []).
