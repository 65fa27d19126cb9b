(** Model of [GaussDAG.remove_node].  Line numbers refer to
    graphical_models/classes/dags/gaussdag.py. *)
From Coq Require Import QArith.Qcanon.
From Verif Require Import Py Spec DagModel QMatModel GaussModel.
#[local] Open Scope Qc_scope.

Definition with_list (l : list node) (g : gauss) : gauss :=
  Gauss (g_dag g) l (g_ix g) (g_w g) (g_var g) (g_bias g) (g_prec g) (g_cov g).

(** [remove_node], lines 465-478; [ignore_error] is not used.  The remaining labels are used as
    rows and columns of the old matrix, in the order of the list; [_node2ix], [_variances],
    [_biases] and the caches are not changed.  When a label is not a row, numpy raises
    [IndexError] and the matrix keeps its old size, which the state after that exception does
    not show (the size is taken to be the length of the list). *)
Definition gauss_remove_node (o : oracle) (v : node) : M gauss unit := λ g,
  match g_ix g !! v with
  | None => (g, Raise KeyError)
  | Some a =>
    if decide (a < length (g_list g))%nat then
      let l := delete a (g_list g) in
      if decide (Forall (λ x, x < g_dim g)%nat l) then
        on_dag (remove_node o v false)
          (with_w (λ i j, match l !! i, l !! j with Some x, Some y => g_w g x y | _, _ => 0 end) (with_list l g))
      else (with_list l g, Raise IndexError)
    else (g, Raise IndexError)
  end.
