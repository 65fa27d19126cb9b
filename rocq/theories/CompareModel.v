(** Model of the comparison methods of [DAG] and [PDAG] and of the conversions to
    and from adjacency matrices.  Line numbers refer to
    graphical_models/classes/dags/dag.py unless stated otherwise. *)
From Coq Require Import QArith.
From Verif Require Import Py DagModel UGraphModel PdagModel.
#[local] Open Scope nat_scope.

(** [{(j, i) for i, j in arcs}]. *)
Definition rev_arcs (E : arcset) : arcset := set_map (λ a : arc, (a.2, a.1)) E.
(** [{frozenset({i, j}) for i, j in arcs}]. *)
Definition as_edges (E : arcset) : arcset := set_map (λ a : arc, upair a.1 a.2) E.

(** [DAG.skeleton], lines 168-169. *)
Definition skeleton (d : dag) : arcset := as_edges (d_arcs d).
(** [DAG.shd], lines 1178-1186. *)
Definition shd (d1 d2 : dag) : nat :=
  let additions := d_arcs d2 ∖ d_arcs d1 ∖ rev_arcs (d_arcs d1) in
  let deletions := d_arcs d1 ∖ d_arcs d2 ∖ rev_arcs (d_arcs d2) in
  let reversals := d_arcs d1 ∩ rev_arcs (d_arcs d2) in
  size additions + size deletions + size reversals.
(** [a.symmetric_difference(b)]. *)
Definition sym_diff (X Y : arcset) : arcset := (X ∖ Y) ∪ (Y ∖ X).
(** [DAG.shd_skeleton], line 1216. *)
Definition shd_skeleton (d1 d2 : dag) : nat := size (sym_diff (skeleton d1) (skeleton d2)).
(** [DAG.chickering_distance], lines 1368-1369. *)
Definition chickering_distance (d1 d2 : dag) : nat :=
  size (d_arcs d1 ∩ rev_arcs (d_arcs d2)) + 2 * shd_skeleton d1 d2.

(** [PDAG.skeleton], pdag.py:262-263: a frozenset is unpacked like a tuple. *)
Definition p_skeleton (g : pdag) : arcset := as_edges (p_arcs g ∪ p_edges g).
(** [PDAG.shd], pdag.py:838-853.  The comprehension over frozensets builds one
    tuple per frozenset; its condition is symmetric in [i] and [j]. *)
Definition p_shd (g h : pdag) : nat :=
  let U := as_edges (p_arcs g) ∪ p_edges g in
  let V := as_edges (p_arcs h) ∪ p_edges h in
  let diff_type := filter (λ e : arc,
    ((e.1, e.2) ∈ p_arcs g ∧ (e.1, e.2) ∉ p_arcs h) ∨ ((e.2, e.1) ∈ p_arcs g ∧ (e.2, e.1) ∉ p_arcs h) ∨
    (upair e.1 e.2 ∈ p_edges g ∧ upair e.1 e.2 ∉ p_edges h)) (U ∩ V) in
  size (U ∖ V) + size (V ∖ U) + size diff_type.
(** [PDAG.shd_skeleton], pdag.py:855-856. *)
Definition p_shd_skeleton (g h : pdag) : nat := size (sym_diff (p_skeleton g) (p_skeleton h)).

(** [scipy.special.comb(n, 2)], exact instead of a float. *)
Definition comb2 (n : nat) : Z := Z.of_nat (n * (n - 1) / 2).
(** [a / b if b != 0 else c], exact instead of a float. *)
Definition ratio (a b : Z) (c : Q) : Q := if decide (b = 0%Z) then c else (inject_Z a / inject_Z b)%Q.

(** Result of [DAG.confusion_matrix_skeleton], lines 1567-1597. *)
Record skel_confusion := SkelConfusion {
  sc_true_positives : arcset; sc_false_positives : arcset; sc_false_negatives : arcset;
  sc_num_tp : nat; sc_num_fp : nat; sc_num_tn : Z; sc_num_fn : nat; sc_tpr : Q; sc_fpr : Q }.
Definition confusion_skeleton (d1 d2 : dag) : skel_confusion :=
  let X := skeleton d1 in
  let Y := skeleton d2 in
  let tp := X ∩ Y in
  let fp := Y ∖ X in
  let fn := X ∖ Y in
  let tn := (comb2 (size (d_nodes d1)) - Z.of_nat (size tp) - Z.of_nat (size fp) - Z.of_nat (size fn))%Z in
  let positives := Z.of_nat (size X) in
  let negatives := (comb2 (size (d_nodes d1)) - positives)%Z in
  SkelConfusion tp fp fn (size tp) (size fp) tn (size fn)
    (ratio (Z.of_nat (size tp)) positives 1%Q) (ratio (Z.of_nat (size fp)) negatives 0%Q).

(** Result of [DAG.confusion_matrix], lines 1434-1510, with [rates_only=False]. *)
Record confusion := Confusion {
  cm_false_positive_arcs : arcset; cm_false_positive_edges : arcset; cm_false_negative_arcs : arcset;
  cm_true_positive_arcs : arcset; cm_reversed_arcs : arcset; cm_mistaken_arcs_for_edges : arcset;
  cm_false_negative_edges : arcset; cm_true_positive_edges : arcset; cm_mistaken_edges_for_arcs : arcset;
  cm_num_fp : nat; cm_num_fn : nat; cm_num_tp : nat; cm_num_tn : Z; cm_fpr : Q; cm_tpr : Q; cm_precision : Q }.
(** [g] is the CPDAG of this graph and [h] that of the other, [n] the number of
    nodes and [m] of arcs of this graph.  [edges_as_arcs1] unpacks each frozenset in some order;
    it is only used together with [edges_as_arcs2], which has the other order. *)
Definition confusion_of (g h : pdag) (n m : nat) : confusion :=
  let self_arcs_as_edges := as_edges (p_arcs g) in
  let self_edges_as_arcs1 := p_edges g in
  let self_edges_as_arcs2 := rev_arcs self_edges_as_arcs1 in
  let other_arcs_reversed := rev_arcs (p_arcs h) in
  let other_arcs_as_edges := as_edges (p_arcs h) in
  let other_edges_as_arcs1 := p_edges h in
  let other_edges_as_arcs2 := rev_arcs other_edges_as_arcs1 in
  let fpa := p_arcs h ∖ p_arcs g ∖ self_edges_as_arcs1 ∖ self_edges_as_arcs2 in
  let fpe := p_edges h ∖ p_edges g ∖ self_arcs_as_edges in
  let fna := p_arcs g ∖ p_arcs h ∖ other_edges_as_arcs1 ∖ other_edges_as_arcs2 in
  let tpa := p_arcs g ∩ p_arcs h in
  let rva := p_arcs g ∩ other_arcs_reversed in
  let mae := p_arcs g ∩ (other_edges_as_arcs1 ∪ other_edges_as_arcs2) in
  let fne := p_edges g ∖ p_edges h ∖ other_arcs_as_edges in
  let tpe := p_edges g ∩ p_edges h in
  let mea := p_edges g ∩ other_arcs_as_edges in
  let nfp := size fpe + size fna in
  let nfn := size fna + size fne + size mae + size rva in
  let ntp := size tpe + size tpa + size mea in
  let ntn := (comb2 n - Z.of_nat nfp - Z.of_nat nfn - Z.of_nat ntp)%Z in
  let negatives := (comb2 n - Z.of_nat m)%Z in
  Confusion fpa fpe fna tpa rva mae fne tpe mea nfp nfn ntp ntn
    (ratio (Z.of_nat nfp) negatives 0%Q) (ratio (Z.of_nat ntp) (Z.of_nat m) 1%Q)
    (ratio (Z.of_nat ntp) (Z.of_nat (ntp + nfp)) 1%Q).
Definition confusion_matrix (d1 d2 : dag) (o1 o2 : oracle) : res confusion :=
  res_bind (cpdag d1 o1) (λ g, res_bind (cpdag d2 o2) (λ h,
    Ok (confusion_of g h (size (d_nodes d1)) (size (d_arcs d1))))).

(** An integer matrix: its shape and its non-zero entries. *)
Record amat := Amat { a_rows : nat; a_cols : nat; a_at : gmap (nat * nat) Z }.
Definition a_zeros (n : nat) : amat := Amat n n ∅.
(** [m[i, j]] and [m[i, j] = v] for non-negative indices. *)
Definition a_get (m : amat) (i j : nat) : res Z :=
  if decide (i < a_rows m ∧ j < a_cols m) then Ok (default 0%Z (a_at m !! (i, j))) else Raise IndexError.
Definition a_set (i j : nat) (v : Z) (m : amat) : res amat :=
  if decide (i < a_rows m ∧ j < a_cols m) then Ok (Amat (a_rows m) (a_cols m) (<[(i, j) := v]> (a_at m))) else Raise IndexError.

(** [sorted(nodes)]. *)
Definition sorted_nodes (X : nset) : list node := merge_sort le (elements X).
(** [{node: i for i, node in enumerate(node_list)}]: the last position counts. *)
Definition node2ix (l : list node) : gmap node nat :=
  foldl (λ m p, <[p.2 := p.1]> m) ∅ (imap (λ i n, (i, n)) l).
Definition ix (m : gmap node nat) (n : node) : res nat := match m !! n with Some i => Ok i | None => Raise KeyError end.
(** [amat[node2ix[i], node2ix[j]] = 1]. *)
Definition put (m : gmap node nat) (i j : node) (A : res amat) : res amat :=
  res_bind A (λ A, res_bind (ix m i) (λ a, res_bind (ix m j) (λ b, a_set a b 1 A))).

(** [DAG.to_amat], lines 1714-1724.  [if not node_list] replaces [None] and the
    empty list by the sorted nodes. *)
Definition to_amat (d : dag) (o : oracle) (node_list : option (list node)) : res (amat * list node) :=
  let l := match node_list with Some (x :: l) => x :: l | _ => sorted_nodes (d_nodes d) end in
  let m := node2ix l in
  res_bind (foldl (λ A a, put m a.1 a.2 A) (Ok (a_zeros (size (d_nodes d)))) (oa o [60] (d_arcs d))) (λ A, Ok (A, l)).

(** [[(i, j) for i, j in pairs if f(i, j)]], where [f] may raise. *)
Fixpoint res_filter (f : arc → res bool) (l : list arc) : res (list arc) :=
  match l with
  | [] => Ok []
  | a :: l' => res_bind (f a) (λ b, res_bind (res_filter f l') (λ r, Ok (if b then a :: r else r)))
  end.
(** [DAG.from_amat], lines 1682-1684. *)
Definition pairs (n : nat) : list arc := i ← seq 0 n; j ← seq 0 n; if decide (i = j) then [] else [(i, j)].
Definition from_amat (A : amat) (o : oracle) : res dag :=
  res_bind (res_filter (λ a, res_bind (a_get A a.1 a.2) (λ v, Ok (bool_decide (v ≠ 0%Z)))) (pairs (a_rows A))) (λ arcs,
    dag_make o (list_to_set (seq 0 (a_rows A))) (list_to_set arcs)).

(** [PDAG.to_amat], pdag.py:157-177; [axis] is [source_axis].  Only [None] stands
    for the sorted nodes. *)
Definition p_to_amat (g : pdag) (o : oracle) (node_list : option (list node)) (axis : nat) : res (amat * list node) :=
  let l := default (sorted_nodes (p_nodes g)) node_list in
  let m := node2ix l in
  let A := foldl (λ A a, if decide (axis = 0) then put m a.1 a.2 A else put m a.2 a.1 A)
             (Ok (a_zeros (size (p_nodes g)))) (oa o [61] (p_arcs g)) in
  let A := foldl (λ A a, put m a.2 a.1 (put m a.1 a.2 A)) A (oa o [62] (p_edges g)) in
  res_bind A (λ A, Ok (A, l)).

(** [np.triu_indices_from(amat, k=1)]. *)
Definition upper (A : amat) : list arc :=
  i ← seq 0 (a_rows A); j ← seq 0 (a_cols A); if decide (i < j) then [(i, j)] else [].
(** The loop of [PDAG.from_amat], pdag.py:90-97 ([flip_last] false), and of
    [PDAG.from_df], pdag.py:60-66 ([flip_last] true): lists of arcs and edges. *)
Fixpoint read_upper (A : amat) (axis : nat) (flip_last : bool) (l : list arc) : res (list arc * list arc) :=
  match l with
  | [] => Ok ([], [])
  | (i, j) :: l' =>
      res_bind (a_get A i j) (λ u, res_bind (a_get A j i) (λ v,
      res_bind (read_upper A axis flip_last l') (λ r,
        let '(arcs, edges) := r in
        if decide (u ≠ 0%Z ∧ v ≠ 0%Z) then Ok (arcs, (i, j) :: edges)
        else if decide (u ≠ 0%Z) then Ok ((if decide (axis = 0) then (i, j) else (j, i)) :: arcs, edges)
        else if decide (v ≠ 0%Z) then
          Ok ((if decide (axis = 0) then (j, i) else if flip_last then (i, j) else (j, i)) :: arcs, edges)
        else Ok (arcs, edges))))
  end.
(** [PDAG.from_amat], pdag.py:83-99. *)
Definition p_from_amat (A : amat) (o : oracle) (axis : nat) : res pdag :=
  res_bind (read_upper A axis false (upper A)) (λ r,
    Ok (pdag_make o (list_to_set (seq 0 (a_rows A))) (list_to_set r.1) (list_to_set r.2) ∅)).
(** [PDAG.from_df], pdag.py:51-71: a matrix together with its row labels. *)
Definition p_from_df (A : amat) (index : list node) (o : oracle) (axis : nat) : res pdag :=
  res_bind (read_upper A axis true (upper A)) (λ r,
    let name (a : arc) : arc := (nth a.1 index 0, nth a.2 index 0) in
    Ok (pdag_make o (list_to_set index) (list_to_set (name <$> r.1)) (list_to_set (name <$> r.2)) ∅)).
