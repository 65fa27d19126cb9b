(** Model of [SampleDAG] (graphical_models/classes/dags/sample_dag.py) and of the interventional distributions
    (graphical_models/classes/interventions/interventions.py).  Arrays of floats hold rational numbers.  The outcomes of
    random draws are part of the functions that make them: every such function is called once. *)
From Coq Require Import QArith.Qcanon.
From Verif Require Import Py Spec DagModel QMatModel GaussModel.
#[local] Open Scope Qc_scope.

(** A numpy array: a number, an array with one axis, an array with two axes given by its number of rows and its columns. *)
Inductive nd := Scal (q : Qc) | Vec (l : list Qc) | Mat (r : nat) (cs : list (list Qc)).
(** Broadcasting an array with one axis to the length [n]. *)
Definition bcast (n : nat) (l : list Qc) : res (list Qc) :=
  if decide (length l = n) then Ok l
  else match l with [q] => Ok (replicate n q) | _ => Raise ValueError end.
(** The value of [a[:, k] = x] for an array [a] of [n] rows: leading axes of length 1 are dropped. *)
Definition fill (n : nat) (x : nd) : res (list Qc) :=
  match x with
  | Scal q => Ok (replicate n q)
  | Vec l => bcast n l
  | Mat r cs => if decide (r = 1)%nat then bcast n (default 0 <$> (head <$> cs)) else Raise ValueError
  end.
(** [samples]: the list of its columns. *)
Notation columns := (list (list Qc)).
(** [samples[:, ixs]]. *)
Definition cols_at (m : columns) (ixs : list nat) : res columns :=
  loopR (λ a acc, match m !! a with Some c => Ok (acc ++ [c]) | None => Raise IndexError end) ixs [].
(** [samples[:, a] = x]. *)
Definition put_col (n a : nat) (x : nd) (m : columns) : res columns :=
  if decide (a < length m)%nat then res_bind (fill n x) (λ c, Ok (<[a := c]> m)) else Raise IndexError.
(** [[node2ix[p] for p in l]]. *)
Definition ixs_in (ix : gmap node nat) (l : list node) : res (list nat) :=
  loopR (λ p acc, match ix !! p with Some a => Ok (acc ++ [a]) | None => Raise KeyError end) l [].

(** The attributes, sample_dag.py:16-21. *)
Record sdag := SDag { s_dag : dag; s_list : list node; s_cond : gmap node (nd → res nd) }.
(** [__init__], sample_dag.py:17-21. *)
Definition sdag_make (o : oracle) (nodes : list node) (arcs : arcset) : res sdag :=
  res_bind (dag_make o (list_to_set nodes) arcs) (λ d, Ok (SDag d nodes ∅)).
(** [set_conditional], sample_dag.py:23-24. *)
Definition set_conditional (v : node) (f : nd → res nd) (S : sdag) : sdag := SDag (s_dag S) (s_list S) (<[v := f]> (s_cond S)).
(** [np.zeros((nsamples, len(self._nodes)))]. *)
Definition zero_cols (n : nat) (d : dag) : columns := replicate (size (d_nodes d)) (replicate n 0).
(** [sample], sample_dag.py:26-33. *)
Definition scm_node (o : oracle) (S : sdag) (n : nat) (v : node) (m : columns) : res columns :=
  match ix_map (s_list S) !! v with
  | None => Raise KeyError
  | Some a =>
    res_bind (ixs_in (ix_map (s_list S)) (on o [186%nat; v] (parents (s_dag S) v))) (λ is,
      match s_cond S !! v with
      | None => Raise KeyError
      | Some f => res_bind (cols_at m is) (λ cs, res_bind (f (Mat n cs)) (λ x, put_col n a x m))
      end)
  end.
Definition scm_sample (o : oracle) (S : sdag) (n : nat) : res columns :=
  res_bind (topological_sort (s_dag S) o) (λ t, loopR (scm_node o S n) t (zero_cols n (s_dag S))).

(** An object given as the interventional distribution of a node, interventions.py:10-25: the methods [sample]. *)
Inductive idist :=
  | Soft (f : sdag → node → nd → res nd)
  | Perfect (f : nat → res nd)
  | Neither.
(** [sample_interventional], sample_dag.py:35-53.  An object of another class leaves the column as it is. *)
Definition scm_iv_node (o : oracle) (S : sdag) (iv : gmap node idist) (n : nat) (v : node) (m : columns) : res columns :=
  match ix_map (s_list S) !! v with
  | None => Raise KeyError
  | Some a =>
    res_bind (ixs_in (ix_map (s_list S)) (on o [186%nat; v] (parents (s_dag S) v))) (λ is,
    res_bind (cols_at m is) (λ cs,
      match iv !! v with
      | Some (Soft f) => res_bind (f S v (Mat n cs)) (λ x, put_col n a x m)
      | Some (Perfect f) => res_bind (f n) (λ x, put_col n a x m)
      | Some Neither => Ok m
      | None =>
        match s_cond S !! v with
        | None => Raise KeyError
        | Some f => res_bind (f (Mat n cs)) (λ x, put_col n a x m)
        end
      end))
  end.
Definition scm_sample_interventional (o : oracle) (S : sdag) (iv : gmap node idist) (n : nat) : res columns :=
  res_bind (topological_sort (s_dag S) o) (λ t, loopR (scm_iv_node o S iv n) t (zero_cols n (s_dag S))).

(** The row [i] of an array with two axes. *)
Definition row_of (cs : columns) (i : nat) : list Qc := (λ c : list Qc, default 0 (c !! i)) <$> cs.
(** [samples[sample_num] = x + shift]: only arrays with a single entry can be stored in a cell. *)
Definition cell (x : nd) : res Qc :=
  match x with Scal q => Ok q | Vec [q] => Ok q | Mat _ [[q]] => Ok q | _ => Raise ValueError end.
(** [ShiftIntervention.sample] for a [SampleDAG], interventions.py:71-76: the conditional is called on each row, an array
    with one axis. *)
Definition shift_sample (shift : Qc) (S : sdag) (v : node) (x : nd) : res nd :=
  match x with
  | Mat r cs =>
    res_bind (loopR (λ i acc,
      match s_cond S !! v with
      | None => Raise KeyError
      | Some f => res_bind (f (Vec (row_of cs i))) (λ y, res_bind (cell y) (λ q, Ok (acc ++ [q + shift])))
      end) (seq 0 r) []) (λ l, Ok (Vec l))
  | _ => Raise ValueError
  end.

(** The perfect interventional distributions, interventions.py:82-142, with the outcomes of their draws. *)
Inductive perfect :=
  | PConst (val : Qc)
  | PGauss (draws : nat → list Qc)
  | PBinary (p1 p2 : perfect) (choices : nat → list nat)
  | PMulti (pvals : list Qc) (ps : list perfect) (choices : nat → list nat).
(** [np.where(choices == k)[0]]. *)
Definition where_eq (cs : list nat) (k : nat) : list nat := (list_filter (λ i : nat, cs !! i = Some k) _ (seq 0 (length cs))).
(** [samples[ixs] = vals]. *)
Definition scatter (ixs : list nat) (vals : list Qc) (m : list Qc) : res (list Qc) :=
  res_bind (bcast (length ixs) vals) (λ l, Ok (foldl (λ (acc : list Qc) (p : nat * Qc), <[p.1 := p.2]> acc) m (zip ixs l))).
(** [np.random.choice(range(k), size=size, p=pvals)]: the probabilities must be those of a distribution on [k] values; their
    sum is compared with 1 exactly. *)
Definition choice_ok (pvals : list Qc) (k : nat) : Prop :=
  length pvals = k ∧ Forall (λ p, 0 <= p) pvals ∧ foldr Qcplus 0 pvals = 1.
#[global] Instance choice_ok_dec pvals k : Decision (choice_ok pvals k).
Proof. unfold choice_ok. apply _. Defined.
(** The methods [sample], interventions.py:87-89, 104-111, 122-128, 138-139. *)
Fixpoint perfect_sample (p : perfect) (n : nat) : res (list Qc) :=
  match p with
  | PConst q => Ok (replicate n q)
  | PGauss draws => Ok (draws n)
  | PBinary p1 p2 choices =>
    let cs := choices n in
    let i1 := where_eq cs 1 in
    let i2 := where_eq cs 0 in
    res_bind (perfect_sample p1 (length i1)) (λ v1, res_bind (scatter i1 v1 (replicate n 0)) (λ m,
    res_bind (perfect_sample p2 (length i2)) (λ v2, scatter i2 v2 m)))
  | PMulti pvals ps choices =>
    if decide (choice_ok pvals (length ps)) then
      let cs := choices n in
      (fix go (k : nat) (ps : list perfect) (m : list Qc) : res (list Qc) :=
        match ps with
        | [] => Ok m
        | p :: ps' =>
          let ixs := where_eq cs k in
          res_bind (perfect_sample p (length ixs)) (λ v, res_bind (scatter ixs v m) (go (S k) ps'))
        end) 0%nat ps (replicate n 0)
    else Raise ValueError
  end.
(** A perfect distribution as the interventional distribution of a node. *)
Definition perfect_dist (p : perfect) : idist := Perfect (λ n, res_bind (perfect_sample p n) (λ l, Ok (Vec l))).
(** [ConstantIntervention.pdf], interventions.py:141-142: one number for the whole array. *)
Definition const_pdf (val : Qc) (xs : list Qc) : Qc := if decide (Forall (λ x, x = val) xs) then 1 else 0.
