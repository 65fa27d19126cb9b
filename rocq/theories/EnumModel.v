(** Model of [PDAG.to_dag], [PDAG.all_dags], [PDAG.mec_size] and of the
    comparison methods of [DAG] that go with them.  Line numbers refer to
    graphical_models/classes/dags/pdag.py unless stated otherwise. *)
From Verif Require Import Py DagModel UGraphModel PdagModel.

(** Reading [m[k]] of a [defaultdict] creates the entry. *)
Definition dtouch (m : dmap) (k : node) : dmap := <[k := dget m k]> m.
Definition read_par (n : node) : M pdag unit :=
  λ g, (Pdag (p_nodes g) (p_arcs g) (p_edges g) (dtouch (p_par g) n) (p_chi g) (p_nbr g) (p_unb g) (p_known g), Ok tt).
Definition read_chi (n : node) : M pdag unit :=
  λ g, (Pdag (p_nodes g) (p_arcs g) (p_edges g) (p_par g) (dtouch (p_chi g) n) (p_nbr g) (p_unb g) (p_known g), Ok tt).
Definition read_nbr (n : node) : M pdag unit :=
  λ g, (Pdag (p_nodes g) (p_arcs g) (p_edges g) (p_par g) (p_chi g) (dtouch (p_nbr g) n) (p_unb g) (p_known g), Ok tt).
Definition read_unb (n : node) : M pdag unit :=
  λ g, (Pdag (p_nodes g) (p_arcs g) (p_edges g) (p_par g) (p_chi g) (p_nbr g) (dtouch (p_unb g) n) (p_known g), Ok tt).

(** [del m[k]] raises [KeyError] if there is no entry. *)
Definition del_par (n : node) : M pdag unit :=
  λ g, match p_par g !! n with
       | Some _ => (Pdag (p_nodes g) (p_arcs g) (p_edges g) (delete n (p_par g)) (p_chi g) (p_nbr g) (p_unb g) (p_known g), Ok tt)
       | None => (g, Raise KeyError)
       end.
Definition del_chi (n : node) : M pdag unit :=
  λ g, match p_chi g !! n with
       | Some _ => (Pdag (p_nodes g) (p_arcs g) (p_edges g) (p_par g) (delete n (p_chi g)) (p_nbr g) (p_unb g) (p_known g), Ok tt)
       | None => (g, Raise KeyError)
       end.
Definition del_nbr (n : node) : M pdag unit :=
  λ g, match p_nbr g !! n with
       | Some _ => (Pdag (p_nodes g) (p_arcs g) (p_edges g) (p_par g) (p_chi g) (delete n (p_nbr g)) (p_unb g) (p_known g), Ok tt)
       | None => (g, Raise KeyError)
       end.
Definition del_unb (n : node) : M pdag unit :=
  λ g, match p_unb g !! n with
       | Some _ => (Pdag (p_nodes g) (p_arcs g) (p_edges g) (p_par g) (p_chi g) (p_nbr g) (delete n (p_unb g)) (p_known g), Ok tt)
       | None => (g, Raise KeyError)
       end.

(** [remove_node], lines 471-489. *)
Definition p_remove_node (o : oracle) (n : node) : M pdag unit :=
  λ g, if decide (n ∈ p_nodes g) then
    (read_chi n ;;;
     (λ g, mfor (on o [48] (p_children g n)) (λ c, pp_remove c n ;;; pn_remove c n) g) ;;;
     read_par n ;;;
     (λ g, mfor (on o [49] (p_parents g n)) (λ p, pc_remove p n ;;; pn_remove p n) g) ;;;
     read_unb n ;;;
     (λ g, mfor (on o [50] (p_unbrs g n)) (λ u, pu_remove u n ;;; pn_remove u n) g) ;;;
     del_par n ;;; del_chi n ;;; del_nbr n ;;; del_unb n)
    (Pdag (p_nodes g ∖ {[n]}) (filter (λ a : arc, a.1 ≠ n ∧ a.2 ≠ n) (p_arcs g))
       (filter (λ e : arc, e.1 ≠ n ∧ e.2 ≠ n) (p_edges g)) (p_par g) (p_chi g) (p_nbr g) (p_unb g) (p_known g))
  else (g, Raise KeyError).

(** [copy], lines 204-207. *)
Definition pdag_copy (g : pdag) (o : oracle) : pdag :=
  pdag_make o (p_nodes g) (p_arcs g) (p_edges g) (p_known g).

(** [is_sink(n) and no_vstructs(n)], lines 732-736. *)
Definition eliminable (g : pdag) (n : node) : bool :=
  bool_decide (p_children g n = ∅) &&
  forallb (λ u, bool_decide (p_neighbors g n ∖ {[u]} ⊆ p_neighbors g u)) (elements (p_unbrs g n)).
(** The [while] loop of [to_dag], lines 731-741.  [next] takes the first suitable
    node in iteration order; line 740 reads [pdag2._neighbors[sink]].  One fuel
    unit per round. *)
Fixpoint to_dag_loop (o : oracle) (fuel : nat) (arcs : arcset) (g : pdag) : res arcset :=
  if decide (p_edges g = ∅ ∧ p_arcs g = ∅) then Ok arcs else
  match fuel with
  | 0 => Raise OutOfFuel
  | S fuel' =>
      match find (eliminable g) (on o [51; fuel'] (p_nodes g)) with
      | None => Ok arcs
      | Some s =>
          match (read_nbr s ;;; p_remove_node o s) g with
          | (g', Ok _) => to_dag_loop o fuel' (set_map (λ x, (x, s)) (p_neighbors g s) ∪ arcs) g'
          | (_, Raise e) => Raise e
          end
      end
  end.
(** [to_dag], lines 716-743. *)
Definition to_dag (g : pdag) (o : oracle) : res dag :=
  let g' := pdag_copy g o in
  res_bind (to_dag_loop o (S (size (p_nodes g'))) ∅ g') (λ arcs, dag_make o ∅ arcs).

(** [SmallDag], line 18, without the unused [level]. *)
Record small := Small { s_arcs : arcset; s_rev : arcset; s_par : dmap; s_chi : dmap }.

(** [add] or [discard] an arc, lines 797-816. *)
Definition mark (b : bool) (a : arc) (R : arcset) : arcset := if b then {[a]} ∪ R else R ∖ {[a]}.
(** The arc set after reversing [i -> j], line 778. *)
Definition turn (A : arcset) (a : arc) : arcset := filter (λ b, b ≠ a) A ∪ {[(a.2, a.1)]}.
(** Lines 780-819: the entry pushed for the reversal of [i -> j].  The dictionaries
    have an entry for every node, and all nodes looked up are nodes of the graph. *)
Definition turn_small (g : pdag) (o : oracle) (s : small) (a : arc) : small :=
  let '(i, j) := a in
  let P := s_par s in
  let C := s_chi s in
  let P' := <[i := dget P i ∪ {[j]}]> (<[j := dget P j ∖ {[i]}]> P) in
  let C' := <[i := dget C i ∖ {[j]}]> (<[j := dget C j ∪ {[i]}]> C) in
  let R := foldl (λ R k, mark (bool_decide (dget P' j ∖ {[k]} = dget P' k ∧ (k, j) ∉ p_arcs g)) (k, j) R)
             (s_rev s) (on o [53] (dget P j)) in
  let R := foldl (λ R k, mark (bool_decide (dget P' j = dget P' k ∖ {[j]} ∧ (j, k) ∉ p_arcs g)) (j, k) R)
             R (on o [54] (dget C j)) in
  let R := foldl (λ R k, mark (bool_decide (dget P' i ∖ {[k]} = dget P' k ∧ (k, i) ∉ p_arcs g)) (k, i) R)
             R (on o [55] (dget P i)) in
  let R := foldl (λ R k, mark (bool_decide (dget P' i = dget P' k ∖ {[i]} ∧ (i, k) ∉ p_arcs g)) (i, k) R)
             R (on o [56] (dget C i)) in
  Small (turn (s_arcs s) a) R P' C'.
(** The [while q] loop, lines 774-819; [t] counts the rounds, so that every round
    may enumerate the reversible arcs differently.  [q] is a stack with its top first. *)
Fixpoint all_dags_loop (g : pdag) (o : oracle) (fuel t : nat) (q : list small) (seen : gset arcset) : res (gset arcset) :=
  match q with
  | [] => Ok seen
  | s :: q' =>
      match fuel with
      | 0 => Raise OutOfFuel
      | S fuel' =>
          let seen := {[s_arcs s]} ∪ seen in
          all_dags_loop g o fuel' (S t)
            (foldl (λ q a, if decide (turn (s_arcs s) a ∈ seen) then q else turn_small g o s a :: q)
               q' (oa o [52; t] (s_rev s)))
            seen
      end
  end.
(** [all_dags], lines 767-821, with a bound [fuel] on the number of rounds. *)
Definition all_dags (g : pdag) (o : oracle) (fuel : nat) : res (gset arcset) :=
  res_bind (to_dag g o) (λ d,
    all_dags_loop g o fuel 0 [Small (d_arcs d) (reversible_arcs d ∖ p_arcs g) (d_par d) (d_chi d)] ∅).

(** [mec_size], lines 746-760. *)
Definition mec_size (g : pdag) (o : oracle) (fuel : nat) : res nat :=
  let n := size (p_nodes g) in
  let m := size (p_edges g) in
  let all := res_bind (all_dags g o fuel) (λ L, Ok (size L)) in
  if decide (0 < size (p_arcs g)) then all
  else if decide (m = n) then Ok (2 * n)
  else if decide (m + 1 = n) then Ok n
  else if decide (2 * m = n * (n - 1)) then Ok (fact n)
  else all.

(** [DAG._is_resolved_sink] and [DAG.resolved_sinks], dag.py:2324-2359.  One fuel
    unit per round of [while True]. *)
Definition is_resolved_sink (d1 d2 : dag) (n : node) (R : nset) : bool :=
  bool_decide (children d1 n ∖ R = ∅) && bool_decide (children d2 n ∖ R = ∅) && bool_decide (parents d1 n = parents d2 n).
Fixpoint resolved_loop (d1 d2 : dag) (fuel : nat) (R : nset) : res nset :=
  match fuel with
  | 0 => Raise OutOfFuel
  | S fuel' =>
      let new := filter (λ n, is_resolved_sink d1 d2 n R = true) (d_nodes d1 ∖ R) in
      if decide (new = ∅) then Ok R else resolved_loop d1 d2 fuel' (R ∪ new)
  end.
Definition resolved_sinks (d1 d2 : dag) : res nset := resolved_loop d1 d2 (S (size (d_nodes d1))) ∅.

(** [DAG.get_standard_imset], dag.py:1218-1230: a dictionary from tuples to
    integers.  The tuple enumerates a frozenset, so its order is unspecified; it
    is the list [on o [57] S].  [counts] is [conds2counts] before the conversion. *)
Definition bump (S : nset) (k : Z) (m : gmap nset Z) : gmap nset Z := <[S := (default 0 (m !! S) + k)%Z]> m.
Definition imset_counts (d : dag) (o : oracle) (ignored : nset) : gmap nset Z :=
  foldl (λ m n, bump (parents d n) (-1) (bump (parents d n ∪ {[n]}) 1 m)) ∅ (on o [58] (d_nodes d ∖ ignored)).
Definition standard_imset (d : dag) (o : oracle) (ignored : nset) : gmap (list node) Z :=
  list_to_map ((λ p : nset * Z, (on o [57] p.1, p.2)) <$>
    filter (λ p : nset * Z, p.2 ≠ 0%Z) (map_to_list (imset_counts d o ignored))).
