(** Model of the adjacency matrices of [AncestralGraph] and of the class [PAG].
    Line numbers refer to graphical_models/classes/mags/ancestral_graph.py unless
    stated otherwise.  The Python matrices hold floats; only the integers 0, 1, 2,
    3 are written and compared, so integers are used. *)
From Coq Require Import ZArith.
From Verif Require Import Py DagModel UGraphModel PdagModel CompareModel AncestralModel.
#[local] Open Scope nat_scope.

(** [m[i, j] = v], in sequence. *)
Definition writes (l : list (nat * nat * Z)) (A : amat) : res amat := loopR (λ w A, a_set w.1.1 w.1.2 w.2 A) l A.

(** [to_amat], lines 1830-1841.  A frozenset is unpacked in some order; both
    orders write the same entries. *)
Definition both (v w : Z) (e : arc) : list (nat * nat * Z) := [(e.1, e.2, v); (e.2, e.1, w)].
Definition ag_to_amat (g : ag) (o : oracle) : res amat :=
  writes ((oa o [101] (g_dir g) ≫= both 2 3) ++ (oa o [102] (g_bi g) ≫= both 2 2) ++ (oa o [103] (g_un g) ≫= both 3 3))
    (a_zeros (size (g_nodes g))).

(** [from_amat], lines 1857-1873: the lists of directed, bidirected and undirected edges. *)
Fixpoint read_pairs (A : amat) (l : list arc) : res (list arc * list arc * list arc) :=
  match l with
  | [] => Ok ([], [], [])
  | (i, j) :: l' =>
      res_bind (a_get A i j) (λ u, res_bind (a_get A j i) (λ v, res_bind (read_pairs A l') (λ r,
        let '(D, B, U) := r in
        Ok (if decide (u = 2 ∧ v = 3)%Z then ((i, j) :: D, B, U)
            else if decide (u = 3 ∧ v = 2)%Z then ((j, i) :: D, B, U)
            else if decide (u = 2 ∧ v = 2)%Z then (D, (i, j) :: B, U)
            else if decide (u = 3 ∧ v = 3)%Z then (D, B, (i, j) :: U)
            else (D, B, U)))))
  end.
Definition upto (p : nat) : nset := list_to_set (seq 0 p).
Definition ag_from_amat (A : amat) (o : oracle) : res ag :=
  res_bind (read_pairs A (combinations2 (on o [104] (upto (a_rows A))))) (λ r,
    let '(D, B, U) := r in
    ag_make (upto (a_rows A)) (oa o [105] (list_to_set D)) (oa o [106] (list_to_set B)) (oa o [107] (list_to_set U))).

(** [PAG.__init__], pag.py:5-9.  An adjacency is a frozenset; [frozenset({i})] is [(i, i)]. *)
Record pag := Pag { pg_nodes : nset; pg_adj : arcset; pg_heads : arcset; pg_tails : arcset }.
(** [np.ndenumerate(amat)]: rows first. *)
Definition cells (A : amat) : list arc := i ← seq 0 (a_rows A); j ← seq 0 (a_cols A); [(i, j)].
(** [PAG.from_amat], pag.py:25-40. *)
Definition pag_from_amat (A : amat) : pag :=
  let has (P : Z → bool) := filter (λ a : arc, P (default 0%Z (a_at A !! a)) = true) (cells A) in
  Pag (upto (a_rows A))
    (list_to_set ((λ a, upair a.1 a.2) <$> has (λ v, bool_decide (v = 1 ∨ v = 2 ∨ v = 3)%Z)))
    (list_to_set (has (λ v, bool_decide (v = 2%Z)))) (list_to_set (has (λ v, bool_decide (v = 3%Z)))).
(** [PAG.to_amat], pag.py:42-52.  Unpacking [frozenset({i})] is a [ValueError]. *)
Definition pag_to_amat (g : pag) (o : oracle) : res amat :=
  res_bind (loopR (λ e A, if decide (e.1 = e.2) then Raise ValueError else writes (both 1 1 e) A)
              (oa o [108] (pg_adj g)) (a_zeros (size (pg_nodes g)))) (λ A,
  res_bind (writes ((λ e : arc, (e.1, e.2, 3%Z)) <$> oa o [109] (pg_tails g)) A) (λ A,
  writes ((λ e : arc, (e.1, e.2, 2%Z)) <$> oa o [110] (pg_heads g)) A)).
