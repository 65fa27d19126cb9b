(** Model of the class [PDAG] (graphical_models/classes/dags/pdag.py) and of the
    methods of [DAG] that return a [PDAG].  Line numbers refer to pdag.py unless
    stated otherwise. *)
From Verif Require Import Py DagModel UGraphModel.

(** Attributes, lines 34-49.  An undirected edge [frozenset({i, j})] is [upair i j]. *)
Record pdag := Pdag {
  p_nodes : nset;
  p_arcs : arcset;
  p_edges : arcset;
  p_par : dmap;
  p_chi : dmap;
  p_nbr : dmap;
  p_unb : dmap;
  p_known : arcset
}.
Definition p_parents (g : pdag) (n : node) : nset := dget (p_par g) n.
Definition p_children (g : pdag) (n : node) : nset := dget (p_chi g) n.
Definition p_neighbors (g : pdag) (n : node) : nset := dget (p_nbr g) n.
Definition p_unbrs (g : pdag) (n : node) : nset := dget (p_unb g) n.

(** [_add_arc], lines 388-397. *)
Definition p_add_arc (i j : node) (g : pdag) : pdag :=
  Pdag ({[j]} ∪ ({[i]} ∪ p_nodes g)) ({[(i, j)]} ∪ p_arcs g) (p_edges g)
    (dadd (p_par g) j i) (dadd (p_chi g) i j) (dadd (dadd (p_nbr g) i j) j i) (p_unb g) (p_known g).

(** [_add_edge], lines 426-435. *)
Definition p_add_edge (i j : node) (g : pdag) : pdag :=
  Pdag ({[j]} ∪ ({[i]} ∪ p_nodes g)) (p_arcs g) ({[upair i j]} ∪ p_edges g)
    (p_par g) (p_chi g) (dadd (dadd (p_nbr g) i j) j i) (dadd (dadd (p_unb g) i j) j i) (p_known g).

(** [__init__] with [new=False], lines 25-49.  [edges] may contain tuples or
    frozensets; [_add_edge] is symmetric in its arguments, so the order in which a
    frozenset is unpacked does not matter and the pair stored is used. *)
Definition pdag_make (o : oracle) (nodes : nset) (arcs edges known : arcset) : pdag :=
  foldl (λ g e, p_add_edge e.1 e.2 g)
    (foldl (λ g a, p_add_arc a.1 a.2 g) (Pdag nodes ∅ ∅ ∅ ∅ ∅ ∅ known) (oa o [40] arcs))
    (oa o [41] edges).

(** [__eq__], lines 179-184. *)
Definition pdag_eqb (g h : pdag) : bool :=
  bool_decide (p_nodes g = p_nodes h) && bool_decide (p_arcs g = p_arcs h) && bool_decide (p_edges g = p_edges h).

(** [has_edge], [has_arc], [has_edge_or_arc], lines 318-330. *)
Definition has_edge (g : pdag) (i j : node) : bool := bool_decide (upair i j ∈ p_edges g).
Definition has_arc (g : pdag) (i j : node) : bool := bool_decide ((i, j) ∈ p_arcs g).
Definition has_edge_or_arc (g : pdag) (i j : node) : bool := has_arc g i j || has_arc g j i || has_edge g i j.

(** [set.remove] on the attributes. *)
Definition pp_remove (k x : node) : M pdag unit :=
  λ g, if decide (x ∈ p_parents g k)
       then (Pdag (p_nodes g) (p_arcs g) (p_edges g) (ddel (p_par g) k x) (p_chi g) (p_nbr g) (p_unb g) (p_known g), Ok tt)
       else (g, Raise KeyError).
Definition pc_remove (k x : node) : M pdag unit :=
  λ g, if decide (x ∈ p_children g k)
       then (Pdag (p_nodes g) (p_arcs g) (p_edges g) (p_par g) (ddel (p_chi g) k x) (p_nbr g) (p_unb g) (p_known g), Ok tt)
       else (g, Raise KeyError).
Definition pn_remove (k x : node) : M pdag unit :=
  λ g, if decide (x ∈ p_neighbors g k)
       then (Pdag (p_nodes g) (p_arcs g) (p_edges g) (p_par g) (p_chi g) (ddel (p_nbr g) k x) (p_unb g) (p_known g), Ok tt)
       else (g, Raise KeyError).
Definition pu_remove (k x : node) : M pdag unit :=
  λ g, if decide (x ∈ p_unbrs g k)
       then (Pdag (p_nodes g) (p_arcs g) (p_edges g) (p_par g) (p_chi g) (p_nbr g) (ddel (p_unb g) k x) (p_known g), Ok tt)
       else (g, Raise KeyError).

(** [_replace_arc_with_edge], lines 507-514. *)
Definition replace_arc_with_edge (a : arc) : M pdag unit :=
  λ g, let '(i, j) := a in
    if decide (a ∈ p_arcs g) then
      (pp_remove j i ;;; pc_remove i j ;;;
       (λ g, (Pdag (p_nodes g) (p_arcs g) (p_edges g) (p_par g) (p_chi g) (p_nbr g)
                (dadd (dadd (p_unb g) i j) j i) (p_known g), Ok tt)))
      (Pdag (p_nodes g) (p_arcs g ∖ {[a]}) ({[upair i j]} ∪ p_edges g) (p_par g) (p_chi g) (p_nbr g) (p_unb g) (p_known g))
    else (g, Raise KeyError).

(** [_replace_edge_with_arc], lines 516-523. *)
Definition replace_edge_with_arc (a : arc) : M pdag unit :=
  λ g, let '(i, j) := a in
    if decide (upair i j ∈ p_edges g) then
      (pu_remove i j ;;; pu_remove j i)
      (Pdag (p_nodes g) ({[a]} ∪ p_arcs g) (p_edges g ∖ {[upair i j]})
         (dadd (p_par g) j i) (dadd (p_chi g) i j) (p_nbr g) (p_unb g) (p_known g))
    else (g, Raise KeyError).

(** Flags of an arc, lines 592-594: 'P', 'U', 'N'. *)
Inductive flag := FP | FU | FN.
Global Instance flag_eq_dec : EqDecision flag.
Proof. solve_decision. Defined.
Notation flags := (gmap arc flag).

(** Configuration (a), lines 608-615 and 668-675. *)
Fixpoint conf_a (g : pdag) (m : flags) (i j : node) (ks : list node) (f : flag) : res flag :=
  match ks with
  | [] => Ok f
  | k :: ks' =>
      if has_edge_or_arc g k j then conf_a g m i j ks' f
      else match m !! (k, i) with
           | None => Raise KeyError
           | Some FP => Ok FP
           | Some _ => conf_a g m i j ks' FU
           end
  end.
(** Configuration (b), lines 621-628 and 680-686; [and] is lazy. *)
Fixpoint conf_b (g : pdag) (m : flags) (i j : node) (ks : list node) (f : flag) : res flag :=
  match ks with
  | [] => Ok f
  | k :: ks' =>
      if decide (i ∈ p_parents g k) then
        match m !! (i, k) with
        | None => Raise KeyError
        | Some FP =>
            match m !! (k, j) with
            | None => Raise KeyError
            | Some FP => Ok FP
            | Some _ => conf_b g m i j ks' FU
            end
        | Some _ => conf_b g m i j ks' FU
        end
      else conf_b g m i j ks' f
  end.
(** Configuration (d), lines 634-641 ([brk = true]) and 690-696 ([brk = false]:
    no [break], a later pair overrides the flag). *)
Fixpoint conf_d (brk : bool) (g : pdag) (m : flags) (i j : node) (ks : list (node * node)) (f : flag) : res flag :=
  match ks with
  | [] => Ok f
  | (k1, k2) :: ks' =>
      if has_edge g i k1 && has_edge g i k2 && negb (has_edge_or_arc g k1 k2) then
        match m !! (k1, j) with
        | None => Raise KeyError
        | Some FP =>
            match m !! (k2, j) with
            | None => Raise KeyError
            | Some FP => if brk then Ok FP else conf_d brk g m i j ks' FP
            | Some _ => conf_d brk g m i j ks' FU
            end
        | Some _ => conf_d brk g m i j ks' FU
        end
      else conf_d brk g m i j ks' f
  end.
(** Body of the inner [for], lines 601-645 and 662-700.  [key] identifies the
    round, so that every visit may enumerate the parents differently. *)
Definition arc_flag (brk : bool) (g : pdag) (o : oracle) (key : nat) (m : flags) (a : arc) : res flag :=
  let '(i, j) := a in
  res_bind (conf_a g m i j (on o [42; key; i; j] (p_parents g i)) FN) (λ f,
  res_bind (if decide (f = FP) then Ok f else conf_b g m i j (on o [43; key; i; j] (p_parents g j)) f) (λ f,
  if decide (f = FP) then Ok f else conf_d brk g m i j (combinations2 (on o [44; key; i; j] (p_parents g j))) f)).
Definition flag_round (brk : bool) (g : pdag) (o : oracle) (key : nat) (und : arcset) (m : flags) : res flags :=
  loopR (λ a m, res_bind (arc_flag brk g o key m a) (λ f, Ok (<[a := f]> m))) (oa o [45; key] und) m.

Definition set_flags (f : flag) (S : arcset) (m : flags) : flags := set_fold (λ a m, <[a := f]> m) m S.

(** [remove_unprotected_orientations], lines 648-706; one fuel unit per round of
    [while undecided_arcs]. *)
Fixpoint rup_loop (o : oracle) (fuel : nat) (m : flags) (und : arcset) : M pdag unit :=
  λ g, if decide (und = ∅) then (g, Ok tt) else
  match fuel with
  | 0 => (g, Raise OutOfFuel)
  | S fuel' =>
      match flag_round false g o fuel' und m with
      | Raise e => (g, Raise e)
      | Ok m' =>
          (mfor (oa o [46; fuel'] und)
             (λ a, if decide (m' !! a = Some FN) then replace_arc_with_edge a else mret tt) ;;;
           rup_loop o fuel' m' (filter (λ a, m' !! a = Some FU) und)) g
      end
  end.
Definition remove_unprotected_orientations (o : oracle) : M pdag unit :=
  λ g, let und := p_arcs g ∖ p_known g in
       rup_loop o (S (size und)) (set_flags FU und (set_flags FP (p_known g) ∅)) und g.

(** [to_complete_pdag], lines 574-646.  [und] is [undecided_arcs].  The second
    loop, lines 638-646, iterates over a copy and removes both orientations. *)
Fixpoint orient_loop (m : flags) (l : list arc) (und : arcset) : M pdag arcset :=
  match l with
  | [] => mret und
  | a :: l' => λ g,
      if decide (m !! a = Some FP) then
        if has_arc g a.2 a.1 then orient_loop m l' und g
        else if decide (a ∈ und) then
          if decide ((a.2, a.1) ∈ und ∖ {[a]}) then
            (replace_edge_with_arc a ;;; orient_loop m l' (und ∖ {[a]} ∖ {[(a.2, a.1)]})) g
          else (g, Raise KeyError)
        else (g, Raise KeyError)
      else orient_loop m l' und g
  end.
Fixpoint complete_loop (o : oracle) (fuel : nat) (m : flags) (und : arcset) : M pdag unit :=
  λ g, if decide (und = ∅) then (g, Ok tt) else
  match fuel with
  | 0 => (g, Raise OutOfFuel)
  | S fuel' =>
      match flag_round true g o fuel' und m with
      | Raise e => (g, Raise e)
      | Ok m' =>
          if decide (set_Forall (λ a, m' !! a = Some FN) und) then (g, Ok tt)
          else mbind' (orient_loop m' (oa o [46; fuel'] und) und) (λ und', complete_loop o fuel' m' und') g
      end
  end.
Definition swap (a : arc) : arc := (a.2, a.1).
Definition to_complete_pdag (o : oracle) : M pdag unit :=
  λ g, let und := p_edges g ∪ set_map swap (p_edges g) in
       complete_loop o (S (size und)) (set_flags FU und (set_flags FP (p_arcs g) ∅)) und g.

(** [to_complete_pdag_new], lines 533-572.  [und] enumerates [undecided_edges]
    as pairs; the maps are [protected_parents], [protected_children] and the
    shallow copy [neighbors], whose sets are the ones of [_undirected_neighbors].
    [set(map(reversed, ...))] contains iterator objects, so subtracting it removes
    nothing (lines 544, 549). *)
Definition new_round (g : pdag) (o : oracle) (pp pc : dmap) (und : arcset) : arcset * arcset :=
  let chain1 := filter (λ a : arc, dget pp a.1 ∖ p_neighbors g a.2 ≠ ∅) und in
  let und := und ∖ chain1 in
  let chain2 : arcset := set_map swap (filter (λ a : arc, dget pp a.2 ∖ p_neighbors g a.1 ≠ ∅) und) in
  let cycle1 := filter (λ a : arc, dget pc a.1 ∩ dget pp a.2 ≠ ∅) und in
  let und := und ∖ cycle1 in
  let cycle2 : arcset := set_map swap (filter (λ a : arc, dget pc a.2 ∩ dget pp a.1 ≠ ∅) und) in
  let dec := λ i j, existsb (λ k, negb (has_edge_or_arc g k.1 k.2)) (combinations2 (elements (p_unbrs g i ∩ dget pp j))) in
  let a1 := filter (λ a : arc, dec a.1 a.2 = true) und in
  let und := und ∖ a1 in
  let a2 : arcset := set_map swap (filter (λ a : arc, dec a.2 a.1 = true) und) in
  (chain1 ∪ chain2 ∪ cycle1 ∪ cycle2 ∪ a1 ∪ a2, und).
Fixpoint new_loop (o : oracle) (fuel : nat) (pp pc : dmap) (und : arcset) : M pdag unit :=
  λ g, match fuel with
  | 0 => (g, Raise OutOfFuel)
  | S fuel' =>
      let '(new, und') := new_round g o pp pc und in
      if decide (new = ∅) then (g, Ok tt)
      else
        let l := oa o [47; fuel'] new in
        (mfor l (λ a, pu_remove a.1 a.2 ;;; pu_remove a.2 a.1) ;;;
         new_loop o fuel' (foldl (λ m a, dadd m a.2 a.1) pp l) (foldl (λ m a, dadd m a.1 a.2) pc l) und') g
  end.
Definition to_complete_pdag_new (o : oracle) : M pdag unit :=
  λ g, new_loop o (S (size (p_edges g))) ∅ ∅ (p_edges g) g.

(** Turn a mutation into a value: the object is only returned if nothing was raised. *)
Definition returned {S} (r : S * res unit) : res S :=
  match r with (s, Ok _) => Ok s | (_, Raise e) => Raise e end.

(** [DAG.cpdag], dag.py:2259-2262. *)
Definition cpdag (d : dag) (o : oracle) : res pdag :=
  returned (remove_unprotected_orientations o (pdag_make o (d_nodes d) (d_arcs d) ∅ (arcs_in_vstructures d))).

(** [DAG.cpdag_new], dag.py:2264-2272.  The arcs that become edges are the pairs
    of [self._arcs - vstruct]. *)
Definition cpdag_new (d : dag) (o : oracle) (new : bool) : res pdag :=
  let vs := arcs_in_vstructures d in
  let g := pdag_make o (d_nodes d) vs (d_arcs d ∖ vs) ∅ in
  returned (if new then to_complete_pdag_new o g else to_complete_pdag o g).

(** [DAG.interventional_cpdag], dag.py:2303-2321, with [cpdag] given. *)
Definition cut_arcs (d : dag) (Is : list nset) : arcset :=
  foldr (λ (I : nset) acc, filter (λ a : arc, size (({[a.1]} ∪ {[a.2]}) ∩ I) = 1) (d_arcs d) ∪ acc) ∅ Is.
Definition interventional_cpdag (d : dag) (o : oracle) (Is : list nset) (c : pdag) : res pdag :=
  returned (remove_unprotected_orientations o
    (pdag_make o (d_nodes d) (d_arcs d) ∅ (cut_arcs d Is ∪ p_known c))).

(** [DAG.markov_equivalent], dag.py:1261-1265. *)
Definition markov_equivalent (d1 d2 : dag) (o o' : oracle) (Is : option (list nset)) : res bool :=
  match Is with
  | None => res_bind (cpdag d1 o) (λ c1, res_bind (cpdag d2 o') (λ c2, Ok (pdag_eqb c1 c2)))
  | Some Is =>
      res_bind (cpdag d1 o) (λ c1, res_bind (interventional_cpdag d1 o Is c1) (λ g1,
      res_bind (cpdag d2 o') (λ c2, res_bind (interventional_cpdag d2 o' Is c2) (λ g2,
        Ok (pdag_eqb g1 g2)))))
  end.
