(** Model of [CamDAG] (graphical_models/classes/dags/camdag.py).  Line numbers refer to that file.  Mean and noise functions
    return arrays with one axis. *)
From Coq Require Import QArith.Qcanon.
From Verif Require Import Py Spec DagModel QMatModel GaussModel ScmModel.
#[local] Open Scope Qc_scope.

(** The attributes, lines 17-23. *)
Record cam := Cam {
  cm_dag : dag;
  cm_list : list node;
  cm_mean : gmap node (columns → nat → list node → res (list Qc));
  cm_noise : gmap node (nat → res (list Qc))
}.
(** [__init__], lines 18-23. *)
Definition cam_make (o : oracle) (nodes : list node) (arcs : arcset) : res cam :=
  res_bind (dag_make o (list_to_set nodes) arcs) (λ d, Ok (Cam d nodes ∅ ∅)).
(** [set_mean_function], [set_noise], lines 25-29.  A mean function gets the columns of the parents, the number of rows and the
    list of the parents. *)
Definition set_mean_function (v : node) f (C : cam) : cam := Cam (cm_dag C) (cm_list C) (<[v := f]> (cm_mean C)) (cm_noise C).
Definition set_noise (v : node) f (C : cam) : cam := Cam (cm_dag C) (cm_list C) (cm_mean C) (<[v := f]> (cm_noise C)).
(** The sum of two arrays with one axis. *)
Definition vadd (x y : list Qc) : res (list Qc) :=
  if decide (length x = length y) then Ok (zip_with Qcplus x y)
  else match x, y with
  | [q], _ => Ok (Qcplus q <$> y)
  | _, [q] => Ok ((λ a, a + q) <$> x)
  | _, _ => Raise ValueError
  end.
(** [sample], lines 31-46.  The mean function of a node without parents is not used. *)
Definition cam_node (o : oracle) (C : cam) (n : nat) (v : node) (m : columns) : res columns :=
  let ps := on o [187%nat; v] (parents (cm_dag C) v) in
  res_bind
    (if decide (ps = []) then Ok (replicate n 0)
     else res_bind (ixs_in (ix_map (cm_list C)) ps) (λ is,
       match cm_mean C !! v with
       | None => Raise KeyError
       | Some f => res_bind (cols_at m is) (λ cs, f cs n ps)
       end)) (λ means,
  match cm_noise C !! v with
  | None => Raise KeyError
  | Some e =>
    res_bind (e n) (λ noise, res_bind (vadd means noise) (λ x,
      match ix_map (cm_list C) !! v with
      | None => Raise KeyError
      | Some a => put_col n a (Vec x) m
      end))
  end).
Definition cam_sample (o : oracle) (C : cam) (n : nat) : res columns :=
  res_bind (topological_sort (cm_dag C) o) (λ t, loopR (cam_node o C n) t (zero_cols n (cm_dag C))).

(** [conditional_mean], lines 48-66: an array of [n] rows and columns [cond_values].  A failed assertion is a [ValueError]. *)
Definition cond_valid (C : cam) (cond_nodes : list node) : res unit :=
  if decide (cond_nodes = []) then Raise TypeError
  else if decide (⋃ (parents (cm_dag C) <$> cond_nodes) ⊆ list_to_set cond_nodes) then Ok tt else Raise ValueError.
Definition mean_node (o : oracle) (C : cam) (n : nat) (v : node) (m : columns) : res columns :=
  let ps := on o [187%nat; v] (parents (cm_dag C) v) in
  res_bind (ixs_in (ix_map (cm_list C)) ps) (λ is,
    match cm_mean C !! v with
    | None => Raise KeyError
    | Some f =>
      res_bind (cols_at m is) (λ cs, res_bind (f cs n ps) (λ x,
        match ix_map (cm_list C) !! v with
        | None => Raise KeyError
        | Some a => put_col n a (Vec x) m
        end))
    end).
Definition conditional_mean (o : oracle) (C : cam) (n : nat) (cond_values : columns) (cond_nodes : list node) (check_valid : bool) : res columns :=
  if decide (length cond_nodes = length cond_values) then
    res_bind (if check_valid then cond_valid C cond_nodes else Ok tt) (λ _,
    res_bind (topological_sort (cm_dag C) o) (λ t,
    res_bind (ixs_in (ix_map (cm_list C)) cond_nodes) (λ is,
    res_bind (loopR (λ (p : nat * list Qc) m, put_col n p.1 (Vec p.2) m) (zip is cond_values) (zero_cols n (cm_dag C))) (λ m,
      loopR (mean_node o C n) (filter (λ v, v ∉ cond_nodes) t) m))))
  else Raise ValueError.
