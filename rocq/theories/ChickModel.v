(** Model of [DAG.chickering_sequence] and [DAG.apply_edge_operation].  Line
    numbers refer to graphical_models/classes/dags/dag.py. *)
From Verif Require Import Py DagModel UGraphModel PdagModel EnumModel CompareModel.

(** [random.choice(list(S))], lines 2443, 2448, 2457, 2469, 2477, and
    [list(S)[0]], line 2454: some element, [IndexError] when there is none. *)
Definition pick (o : oracle) (k : nat) (S : nset) : res node :=
  match on o [k] S with [] => Raise IndexError | v :: _ => Ok v end.

(** The dictionary describing the operation: [sink], [move] and [d] (absent in
    step 4), lines 2451, 2464, 2473, 2481. *)
Record move := Move { mv_sink : node; mv_step : nat; mv_d : option node }.

(** A mutation of [new_graph] followed by [return new_graph, move]. *)
Definition finish (r : dag * res unit) (m : move) : res (dag * move) :=
  match r with (g, Ok _) => Ok (g, m) | (_, Raise e) => Raise e end.

(** [apply_edge_operation], lines 2408-2481, without printing.  Every call site
    has its own iteration orders: [os] gives an oracle for each.  The random
    choices are those of the oracles. *)
Definition apply_edge_operation (d imap : dag) (os : nat → oracle) (seed : option node) : res (dag * move) :=
  let new := dag_copy d in
  res_bind (resolved_sinks d imap) (λ R,
  res_bind (induced_subgraph d (os 0) (d_nodes d ∖ R)) (λ s,
  res_bind (induced_subgraph imap (os 1) (d_nodes imap ∖ R)) (λ t,
  res_bind (match seed with
            | Some y => if decide (y ∈ sinks t) then Ok y else pick (os 2) 142 (sinks t)
            | None => pick (os 2) 142 (sinks t)
            end) (λ y,
  if decide (y ∈ sinks s) then
    res_bind (pick (os 3) 143 (parents t y ∖ parents s y)) (λ x,
    finish (add_arc (os 4) x y true new) (Move y 4 None))
  else
    res_bind (descendants_of s (os 5) y) (λ de,
    res_bind (upstream_most t (os 6) de) (λ um,
    res_bind (pick (os 7) 144 um) (λ v,
    res_bind (upstream_most s (os 8) (children s y)) (λ uc,
    res_bind (ancestors_of s (os 9) v) (λ an,
    res_bind (pick (os 10) 145 (uc ∩ (an ∪ {[v]}))) (λ z,
    if is_reversible s y z then finish (reverse_arc (os 11) y z false false new) (Move y 6 (Some v))
    else
      let par_z := parents s z ∖ parents s y ∖ {[y]} in
      if decide (par_z = ∅) then
        res_bind (pick (os 12) 146 (parents s y ∖ parents s z)) (λ x,
        finish (add_arc (os 13) x z true new) (Move y 8 (Some v)))
      else
        res_bind (pick (os 14) 147 par_z) (λ x,
        finish (add_arc (os 15) x y true new) (Move y 7 (Some v))))))))))))).

(** [DAG.__eq__], lines 61-64. *)
Definition dag_eq (d1 d2 : dag) : bool := bool_decide (d_nodes d1 = d_nodes d2 ∧ d_arcs d1 = d_arcs d2).

(** [chickering_sequence], lines 2394-2406: [last_sink] stays [None].  One fuel
    unit per round of the [while] loop; [os i] are the oracles of round [i]. *)
Fixpoint chickering_loop (imap : dag) (os : nat → nat → oracle) (fuel i : nat) (cur : dag) (seq : list dag) (moves : list move) :
    res (list dag * list move) :=
  if dag_eq cur imap then Ok (seq ++ [imap], moves)
  else match fuel with
       | 0 => Raise OutOfFuel
       | S fuel' =>
           res_bind (apply_edge_operation cur imap (os i) None) (λ r,
           chickering_loop imap os fuel' (S i) r.1 (seq ++ [cur]) (moves ++ [r.2]))
       end.
Definition chickering_sequence (d imap : dag) (os : nat → nat → oracle) (fuel : nat) : res (list dag * list move) :=
  chickering_loop imap os fuel 0 d [] [].
