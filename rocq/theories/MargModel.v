(** Model of [DAG.marginal_mag].  Line numbers refer to
    graphical_models/classes/dags/dag.py.  [latent_nodes] is the set that
    [core_utils.to_set] returns for a set, a list of nodes or a single node. *)
From Verif Require Import Py DagModel DsepModel UGraphModel PdagModel CompareModel InterveneModel AncestralModel MsepModel.

(** Body of the loop over pairs, lines 2217-2225.  [ancestor_dict] is computed
    once, before any edge is added. *)
Definition marg_step (anc : dmap) (L : nset) (o : oracle) (p : popper (node * bool)) (e : node * node) : M ag unit :=
  λ g, let '(i, j) := e in
    let S := (dget anc i ∪ dget anc j) ∖ {[i; j]} ∖ L in
    if has_any_edge g i j then (g, Ok tt)
    else match msep g (at_call o [112; i; j]) p {[i]} {[j]} S with
         | Raise x => (g, Raise x)
         | Ok true => (g, Ok tt)
         | Ok false =>
             if decide (i ∈ dget anc j) then add_directed_raw i j g
             else if decide (j ∈ dget anc i) then add_directed_raw j i g
             else add_bidirected_raw i j g
         end.
(** [marginal_mag] with [new=True] and [relabel=None], lines 2215-2227 and 2237. *)
Definition marginal_mag (d : dag) (o : oracle) (p : popper (node * bool)) (L : nset) : res ag :=
  res_bind (ag_make (d_nodes d) (oa o [111] (d_arcs d)) [] []) (λ g,
  res_bind (g_ancestor_dict g o) (λ anc,
    match (mfor (combinations2 (on o [113] (d_nodes d ∖ L))) (marg_step anc L o p) ;;;
           mfor (on o [114] L) (λ n, g_remove_node (at_call o [115; n]) n true)) g with
    | (h, Ok _) => Ok h
    | (_, Raise x) => Raise x
    end)).

(** [all(not self.dsep(i, j, S) for S in ...)], line 2170. *)
Fixpoint none_dsep (d : dag) (o : oracle) (p : popper (node * bool)) (i j : node) (l : list (list node)) : res bool :=
  match l with
  | [] => Ok true
  | s :: l' => res_bind (dsep d o p {[i]} {[j]} (list_to_set s)) (λ b, if b then Ok false else none_dsep d o p i j l')
  end.
(** The sets [directed] and [bidirected] of the variant [new=False], lines 2166-2177. *)
Definition marg_sets (d : dag) (o : oracle) (p : popper (node * bool)) (L : nset) : res (arcset * arcset) :=
  loopR (λ e acc,
      let '(i, j) := e in
      res_bind (none_dsep d (at_call o [116; i; j]) p i j (powerset (on o [117; i; j] (d_nodes d ∖ {[i; j]} ∖ L)) 0)) (λ adj,
        if negb adj then Ok acc
        else res_bind (is_ancestor_of d o i j) (λ a,
          if a then Ok ({[(i, j)]} ∪ acc.1, acc.2)
          else res_bind (is_ancestor_of d o j i) (λ a',
            if a' then Ok ({[(j, i)]} ∪ acc.1, acc.2) else Ok (acc.1, {[(i, j)]} ∪ acc.2)))))
    (combinations2 (on o [113] (d_nodes d ∖ L))) (∅, ∅).
(** [marginal_mag] with [new=False] and [relabel=None], lines 2166-2177 and 2187. *)
Definition marginal_mag_old (d : dag) (o : oracle) (p : popper (node * bool)) (L : nset) : res ag :=
  res_bind (marg_sets d o p L) (λ s, ag_make (d_nodes d ∖ L) (oa o [118] s.1) (oa o [119] s.2) []).

(** ** Relabelling *)

(** [{relabel[node] for node in ...}] and [{(relabel[i], relabel[j]) for i, j in ...}]. *)
Definition relabel_nodes (m : gmap node node) (l : list node) : res nset :=
  loopR (λ n acc, match m !! n with Some k => Ok ({[k]} ∪ acc) | None => Raise KeyError end) l ∅.
Definition relabel_arcs (m : gmap node node) (l : list arc) : res arcset :=
  loopR (λ e acc, match m !! e.1, m !! e.2 with
                  | Some i, Some j => Ok ({[(i, j)]} ∪ acc)
                  | _, _ => Raise KeyError
                  end) l ∅.
Definition relabelled (o : oracle) (m : gmap node node) (N : nset) (dir bi : list arc) : res ag :=
  res_bind (relabel_nodes m (on o [120] N)) (λ N',
  res_bind (relabel_arcs m dir) (λ dir',
  res_bind (relabel_arcs m bi) (λ bi', ag_make N' (oa o [121] dir') (oa o [122] bi') []))).
(** [{node: ix for ix, node in enumerate(l)}]. *)
Definition index_map (l : list node) : gmap node node := list_to_map (zip l (seq 0 (length l))).

(** [new=True] with a dictionary, and with [relabel='default'], lines 2229-2235.
    [flip] chooses the order in which each frozenset of [ag.bidirected] is
    unpacked. *)
Definition marginal_mag_dict (d : dag) (o : oracle) (p : popper (node * bool)) (flip : arc → bool) (L : nset) (m : gmap node node) : res ag :=
  res_bind (marginal_mag d o p L) (λ h,
    relabelled o m (d_nodes d ∖ L) (oa o [123] (g_dir h)) (unpack flip <$> oa o [124] (g_bi h))).
Definition marginal_mag_default (d : dag) (o : oracle) (p : popper (node * bool)) (flip : arc → bool) (L : nset) : res ag :=
  marginal_mag_dict d o p flip L (index_map (sorted_nodes (d_nodes d ∖ L))).
(** [new=False] with any [relabel] but [None], lines 2179-2187: the labels follow a
    topological order. *)
Definition marginal_mag_old_default (d : dag) (o : oracle) (p : popper (node * bool)) (L : nset) : res ag :=
  res_bind (marg_sets d o p L) (λ s,
  res_bind (topological_sort d o) (λ t,
    relabelled o (index_map (filter (λ n, n ∉ L) t)) (d_nodes d ∖ L) (oa o [123] s.1) (oa o [124] s.2))).
