(** Model of [optimal_fully_orienting_single_node_interventions] with [new=True] and of [_verification_optimal_helper]
    (classes/dags/dag.py, lines 2753-2765 and 2876-2921).

    The result is the union of one set per component, so the topological order in which the components are looked at has no effect; the
    model takes them in the order of [contracted].  [os] are the iteration orders in the subgraph of a component.  [max_intersection] is
    computed in line 2891 but not used. *)
From Verif Require Import Py DagModel DctModel DctRegModel.

(** [l[1::2]]; then [l[-2::-2]] is the same of the reversed list. *)
Fixpoint every_second (l : list node) : list node :=
  match l with _ :: y :: l => y :: every_second l | _ => [] end.
(** One round of the loop in lines 2903-2907. *)
Definition tail_nodes (hd tl : list node) : nset :=
  list_to_set (every_second (reverse tl)) ∪
  (if Nat.odd (length tl) then match last hd with Some u => {[u]} | None => ∅ end else ∅).
(** Lines 2910-2919. *)
Definition count_step (st : nset * nat) (n : node) : nset * nat :=
  if decide (n ∈ st.1) then (st.1, 0) else
  if decide (S st.2 = 2) then ({[n]} ∪ st.1, 0) else (st.1, S st.2).
(** [_verification_optimal_helper], lines 2878-2921. *)
Definition verification_helper (d : dag) (o : oracle) (c : list nset) (P : nset) : res nset :=
  match c with
  | [C] => res_bind (induced_subgraph d o (C ∖ P)) (λ i, res_bind (topological_sort i o) (λ l, Ok (list_to_set (every_second l))))
  | _ =>
    res_bind (induced_subgraph d o (⋃ c)) (λ i, res_bind (topological_sort i o) (λ l,
      let H : nset := ⋃ ((λ e : cedge, e.1 ∩ e.2) <$> pairs c) ∖ P in
      let iv := foldl (λ acc (C : nset), acc ∪ tail_nodes (filter (λ n, n ∈ C ∩ H) l) (filter (λ n, n ∈ C ∖ H ∖ P) l)) ∅ c in
      Ok (foldl count_step (iv, 0) (filter (λ n, n ∈ H) l)).1))
  end.
(** Lines 2753-2765. *)
Definition optimal_new (tie : nset → nset → bool) (ord : list (list nset) → list (list nset)) (os : list nset → oracle) (cl : list nset) (d : dag) : res nset :=
  res_bind (directed_clique_tree tie cl d) (λ ct,
    let g := contracted ct cl in
    loopR (λ c acc, res_bind (verification_helper d (os c) c (parent_nodes ord g c)) (λ X, Ok (acc ∪ X))) g.1 ∅).
