(** Model of [CamDAG.direct_effect] (graphical_models/classes/dags/camdag.py:68-75). *)
From Coq Require Import QArith.Qcanon.
From Verif Require Import Py Spec DagModel QMatModel GaussModel ScmModel CamModel.
#[local] Open Scope nat_scope.

(** One round of the loop, lines 70-74.  [None] is [nan], to which numpy converts the assigned [None].  An index that is not
    a column raises. *)
Definition effect_node (o : oracle) (C : cam) (rows : nat) (K : list node) (p : nat * node) (m : list (list (option Qc))) : res (list (list (option Qc))) :=
  if decide (p.2 ∈ K) then Ok m
  else res_bind (ixs_in (ix_map (cm_list C)) (filter (λ q, q ∉ K) (on o [215; p.2] (parents (cm_dag C) p.2)))) (λ _,
    if decide (p.1 < length m) then Ok (<[p.1 := replicate rows None]> m) else Raise IndexError).
(** [direct_effect]: of the given values only the number [rows] of rows is used.  A negative dimension raises. *)
Definition direct_effect (o : oracle) (C : cam) (rows : nat) (K : list node) : res (list (list (option Qc))) :=
  if decide (length K ≤ size (d_nodes (cm_dag C))) then
    loopR (effect_node o C rows K) (zip (seq 0 (length (cm_list C))) (cm_list C))
      (replicate (size (d_nodes (cm_dag C)) - length K) (replicate rows (Some 0%Qc)))
  else Raise ValueError.
