(** Model of fitting discrete Bayesian networks with classifiers.  Line numbers refer to
    graphical_models/classes/dags/discrete_dag.py. *)
From Coq Require Import QArith.Qcanon.
From Verif Require Import Py Spec DagModel QMatModel DiscreteModel DiscreteSampleModel DiscreteFitModel PgmModel.
#[local] Open Scope Qc_scope.

(** What is used of a fitted classifier: [classes_], and the row of [predict_proba] for a list of features, which has
    one entry for each class. *)
Record clf := Clf { cl_classes : list Z; cl_proba : list Qc → list Qc }.
(** [itr.product( *alphabets)], line 127: the last component changes fastest. *)
Fixpoint py_product (ls : list (list Qc)) : list (list Qc) :=
  match ls with
  | [] => [[]]
  | l :: ls => x ← l; (x ::.) <$> py_product ls
  end.
(** [conditional2[..., classes] = conditional], line 136: the entry that is written last into place [j]. *)
Fixpoint last_pos (js : list nat) (j : nat) : option nat :=
  match js with
  | [] => None
  | i :: js => match last_pos js j with Some k => Some (S k) | None => if decide (i = j) then Some 0%nat else None end
  end.
(** [extract_conditional], lines 126-139.  [predict_proba] raises for an empty array. *)
Definition extract_conditional (c : clf) (alphs : list (list Qc)) (al : list Qc) : res tensor :=
  let xs := py_product alphs in
  if decide (xs = []) then Raise ValueError else
  let nvals := length (cl_classes c) in
  let dims := length <$> alphs in
  let conditional (ix : list nat) (k : nat) := default 0 (cl_proba c (default [] (xs !! ravel dims ix)) !! k) in
  if decide (nvals = length al) then
    Ok (Tensor (dims ++ [nvals]) (λ ix, conditional (take (length dims) ix) (default 0%nat (last ix))))
  else
    match mapM (np_index (length al)) (cl_classes c) with
    | None => Raise IndexError
    | Some js =>
      Ok (Tensor (dims ++ [length al]) (λ ix,
        match last_pos js (default 0%nat (last ix)) with
        | Some k => conditional (take (length dims) ix) k
        | None => 0
        end))
    end.
(** [indicator_conditional], lines 142-148. *)
Definition indicator_conditional (alphs : list (list Qc)) (al : list Qc) (x : Qc) : res tensor :=
  if decide (x ∈ al) then
    Ok (Tensor ((length <$> alphs) ++ [length al]) (λ ix, if decide (default 0%nat (last ix) = pos al x) then 1 else 0))
  else Raise ValueError.
(** The loop body of [fit], lines 844-864.  [train] stands for the construction of the classifier and [model.fit]: it gets the features
    and the labels of the rows. *)
Definition clf_table (train : list (list Z) → list Z → res clf) (w : nat) (data : list row) (n2p : gmap node (list node))
    (alph : gmap node (list Qc)) (v : node) : res tensor :=
  match n2p !! v, alph !! v with
  | Some ps, Some al =>
    if decide (ps = []) then gc_base w data v al false 1
    else if decide (Forall (λ p, is_Some (alph !! p)) ps) then
      if decide (v < w)%nat then
        let alphs := (λ p, default [] (alph !! p)) <$> ps in
        let labels := (λ r, cell r v) <$> data in
        if decide (length (remove_dups labels) = 1%nat) then indicator_conditional alphs al (qz (default 0%Z (head labels)))
        else if decide (Forall (λ p, (p < w)%nat) ps) then
          res_bind (train ((λ r, cell r <$> ps) <$> data) labels) (λ c, extract_conditional c alphs al)
        else Raise IndexError
      else Raise IndexError
    else Raise KeyError
  | _, _ => Raise KeyError
  end.
(** [fit], lines 810-864 and 878-884, for the methods ["random_forest"], ["xgboost"] and ["logistic"]. *)
Definition fit_clf (o : oracle) (train : list (list Z) → list Z → res clf) (d : dag) (w : nat) (data : list row)
    (n2p : option (gmap node (list node))) (alph : option (gmap node (list Qc))) : res ddag :=
  let n2p := default (found_parents o d) n2p in
  res_bind (match alph with Some m => Ok m | None => found_alphabets o d w data end) (λ alph,
  res_bind (topological_sort d o) (λ t,
  res_bind (loopR (λ v conds, res_bind (clf_table train w data n2p alph v) (λ c, Ok (<[v := c]> conds))) t ∅) (λ conds,
    ddag_make o (on o [211]%nat (d_nodes d)) (d_arcs d) conds n2p alph))).
