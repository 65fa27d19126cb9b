(** Model of [is_minimal_imap3], [is_minimal_imap4] and [resolved_quasisinks] of [AncestralGraph].  Line numbers refer to
    graphical_models/classes/mags/ancestral_graph.py. *)
From Verif Require Import Py DagModel DsepModel UGraphModel PdagModel InterveneModel AncestralModel MsepModel MagModel MagImapModel.

(** [self.markov_blanket(...)], lines 1239, 1240, 1274, 1287, 1291, 1294 and 1351: the class has no method of this name, and Python raises an
    [AttributeError]. *)
Definition ag_markov_blanket (g : ag) (n : node) : res nset := Raise TypeError.

(** [is_minimal_imap3], lines 1228-1260.  [rest] stands for what follows the first call of [markov_blanket], lines 1239-1251. *)
Definition is_minimal_imap3 (rest : arc → nset → res bool) (g other : ag) (o : oracle) (p : popper (node * bool)) (flip : arc → bool)
    (sh : list arc → list arc) (certify check_imap : bool) : res answer :=
  res_bind (if check_imap then mag_is_imap g other o p flip else Ok true) (λ ok,
  if ok then
    res_bind (first_edge (λ e,
      res_bind (drop_edge2 g o flip e) (λ _, res_bind (ag_markov_blanket g e.2) (λ mb, rest e mb))) (edge_sample g o flip sh))
      (λ r, Ok (verdict certify r))
  else Ok (Tuple false None)).

(** The copy without the edge, lines 1271-1272 and 1283-1284. *)
Definition drop_edge4 (g : ag) (o : oracle) (flip : arc → bool) (e : arc) : res ag :=
  res_bind (ag_copy g o flip) (λ h, run_on (remove_edge e.1 e.2 false) h).
(** One round of the loop of [extra_validate], lines 1271-1277: [markov_blanket] of an induced subgraph. *)
Definition extra_round (rest : arc → nset → res unit) (g : ag) (o : oracle) (flip : arc → bool) (e : arc) : res unit :=
  res_bind (drop_edge4 g o flip e) (λ h,
  res_bind (g_ancestors_of_set h o {[e.1; e.2]}) (λ a,
  res_bind (g_induced_subgraph h o flip (a ∪ {[e.1; e.2]})) (λ s,
  res_bind (ag_markov_blanket s e.2) (λ mb, rest e mb)))).
(** [for i, j in self._directed | self._bidirected], line 1270: the edges in any order, given by [sh]. *)
Fixpoint each_edge (f : arc → res unit) (l : list arc) : res unit :=
  match l with [] => Ok tt | e :: l' => res_bind (f e) (λ _, each_edge f l') end.
(** [is_minimal_imap4], lines 1262-1320.  The [Exception] of line 1265 is modelled as [RuntimeError]. *)
Definition is_minimal_imap4 (rest1 : arc → nset → res unit) (rest2 : arc → nset → res bool) (g other : ag) (o : oracle) (p : popper (node * bool))
    (flip : arc → bool) (sh1 sh : list arc → list arc) (certify check_imap extra_validate : bool) : res answer :=
  res_bind (if check_imap then mag_is_imap g other o p flip else Ok true) (λ ok,
  if ok then
    res_bind (if extra_validate then each_edge (extra_round rest1 g o flip) (edge_sample g o flip sh1) else Ok tt) (λ _,
    res_bind (first_edge (λ e,
      res_bind (drop_edge4 g o flip e) (λ h, res_bind (ag_markov_blanket h e.2) (λ mb, rest2 e mb))) (edge_sample g o flip sh))
      (λ r, Ok (verdict certify r)))
  else Raise RuntimeError).

(** [resolved_quasisinks], lines 1344-1357.  [equal] stands for the comparison with [other.markov_blanket_of(node)], line 1351. *)
Fixpoint new_resolved (equal : node → nset → bool) (g other : ag) (qs : nset) (l : list node) : res nset :=
  match l with
  | [] => Ok ∅
  | n :: l' =>
      res_bind (if decide (g_children g n ∖ qs = ∅ ∧ g_children other n ∖ qs = ∅) then res_bind (ag_markov_blanket g n) (λ mb, Ok (equal n mb)) else Ok false) (λ b,
      res_bind (new_resolved equal g other qs l') (λ r, Ok (if b then {[n]} ∪ r else r)))
  end.
Fixpoint quasisinks_loop (equal : node → nset → bool) (g other : ag) (o : oracle) (fuel : nat) (qs : nset) : res nset :=
  match fuel with
  | O => Raise OutOfFuel
  | S f =>
      res_bind (new_resolved equal g other qs (on o [214] (g_nodes g ∖ qs))) (λ r,
      if decide (r = ∅) then Ok (qs ∪ r) else quasisinks_loop equal g other o f (qs ∪ r))
  end.
Definition resolved_quasisinks (equal : node → nset → bool) (g other : ag) (o : oracle) : res nset :=
  quasisinks_loop equal g other o (S (size (g_nodes g))) ∅.
