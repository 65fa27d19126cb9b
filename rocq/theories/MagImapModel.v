(** Model of the minimality tests [is_minimal_imap] and [is_minimal_imap2] of
    [AncestralGraph].  Line numbers refer to
    graphical_models/classes/mags/ancestral_graph.py. *)
From Verif Require Import Py DagModel DsepModel UGraphModel PdagModel InterveneModel AncestralModel MsepModel MagModel.

(** The two kinds of values that are returned: a Boolean, or a pair of a Boolean
    and an edge or [None]. *)
Inductive answer := Bare (b : bool) | Tuple (b : bool) (e : option arc).
(** The truth value of such a value in a condition: a pair is not empty. *)
Definition truthy (a : answer) : bool := match a with Bare b => b | Tuple _ _ => true end.

(** [random.sample(list(self._directed) + list(self._bidirected), n)], lines
    1186-1187 and 1207-1208.  [n] is the length of the list, so the sample is a
    permutation, given by [sh].  The frozensets are unpacked by [flip]. *)
Definition edge_sample (g : ag) (o : oracle) (flip : arc → bool) (sh : list arc → list arc) : list arc :=
  sh (oa o [184] (g_dir g) ++ (unpack flip <$> oa o [185] (g_bi g))).

Definition run_on {S A} (f : M S A) (s : S) : res S := match f s with (s', Ok _) => Ok s' | (_, Raise e) => Raise e end.

(** The copy without the edge, lines 1188-1192. *)
Definition drop_edge (g : ag) (o : oracle) (flip : arc → bool) (e : arc) : res ag :=
  res_bind (ag_copy g o flip) (λ h,
  res_bind (if has_bidirected g e.1 e.2 then run_on (remove_bidirected e.1 e.2 false) h else Ok h) (λ h,
  if has_directed g e.1 e.2 then run_on (remove_directed e.1 e.2 false) h else Ok h)).
(** The copy without the edge, lines 1210-1214. *)
Definition drop_edge2 (g : ag) (o : oracle) (flip : arc → bool) (e : arc) : res ag :=
  res_bind (ag_copy g o flip) (λ h,
  if has_bidirected g e.1 e.2 then run_on (remove_bidirected e.1 e.2 false) h else run_on (remove_directed e.1 e.2 false) h).

(** The first edge that passes the test. *)
Fixpoint first_edge (test : arc → res bool) (l : list arc) : res (option arc) :=
  match l with
  | [] => Ok None
  | e :: l' => res_bind (test e) (λ b, if b then Ok (Some e) else first_edge test l')
  end.
(** The return statements, lines 1194-1201 and 1219-1226. *)
Definition verdict (certify : bool) (r : option arc) : answer :=
  match r with
  | Some e => if certify then Tuple false (Some e) else Bare false
  | None => if certify then Tuple true None else Bare true
  end.

(** [is_minimal_imap], lines 1183-1201.  Lines 1183-1184 return the pair also
    with [certify=False]. *)
Definition is_minimal_imap (g other : ag) (o : oracle) (p : popper (node * bool)) (flip : arc → bool) (sh : list arc → list arc)
    (certify check_imap : bool) : res answer :=
  res_bind (if check_imap then mag_is_imap g other o p flip else Ok true) (λ ok,
  if ok then
    res_bind (first_edge (λ e,
      res_bind (drop_edge g o flip e) (λ h,
      res_bind (is_maximal h o flip) (λ m, if m then mag_is_imap h other o p flip else Ok false))) (edge_sample g o flip sh))
      (λ r, Ok (verdict certify r))
  else Ok (Tuple false None)).

(** [is_minimal_imap2], lines 1204-1226.  The bare [Exception] of line 1218 is
    modelled as [RuntimeError]. *)
Definition is_minimal_imap2 (g other : ag) (o : oracle) (p : popper (node * bool)) (flip : arc → bool) (sh : list arc → list arc)
    (certify check_imap validate : bool) : res answer :=
  res_bind (if check_imap then mag_is_imap g other o p flip else Ok true) (λ ok,
  if ok then
    res_bind (first_edge (λ e,
      res_bind (g_ancestors_of g o e.1) (λ a, res_bind (g_ancestors_of g o e.2) (λ b,
      res_bind (msep other o p {[e.1]} {[e.2]} (a ∪ (b ∖ {[e.1; e.2]}))) (λ s,
      if s then
        res_bind (drop_edge2 g o flip e) (λ h,
        res_bind (is_maximal h o flip) (λ m,
        if m then
          if validate then res_bind (mag_is_imap h other o p flip) (λ b, if b then Ok true else Raise RuntimeError) else Ok true
        else Ok false))
      else Ok false)))) (edge_sample g o flip sh))
      (λ r, Ok (verdict certify r))
  else Ok (Tuple false None)).
