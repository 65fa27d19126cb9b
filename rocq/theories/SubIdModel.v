(** Model of [SemiMarkovian.sub_identification].  Line numbers refer to graphical_models/classes/semi_markovian.py. *)
From Verif Require Import Py Spec DagModel UGraphModel AncestralModel SemiModel IdFormulaModel.

(** [sub_identification], lines 281-323; [rest] stands for the lines after the first call of [ancestors_of], line 287, and is
    given its result.  [None] as a result is [Ok None].  The first component is the caller's set [y] after the call. *)
Definition sub_identification (rest : nset → res (option formula)) (g : sm) (y x : nset) (distribution : formula) : nset * res (option formula) :=
  if decide (size x = 0) then (y, res_bind (marginalize_out distribution (s_nodes g ∖ y)) (λ f, Ok (Some f)))
  else let r := s_ancestors_of g y true in (r.1, match r.2 with Ok a => rest a | Raise e => Raise e end).
