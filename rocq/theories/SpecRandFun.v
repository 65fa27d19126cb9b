(** What the random functions should be. *)
From Coq Require Import QArith.Qcanon.
From Verif Require Import Py Spec DagModel QMatModel GaussModel ScmModel CamModel PropertiesDag SpecScm SpecCam.
#[local] Open Scope Qc_scope.

(** The variance of a list of numbers: the average square minus the square of the average. *)
Definition average (l : list Qc) : Qc := total l / qn (length l).
Definition variance (l : list Qc) : Qc := average ((λ x, x * x) <$> l) - average l * average l.
(** The additive model in row [i]: parent [ps !! j] has the function [base (ps !! j)] and the weight [ws !! j]. *)
Definition signal (base : node → Qc → Qc) (ws : list Qc) (ps : list node) (cs : columns) (i : nat) : Qc :=
  qsum (length ps) (λ j, default 0 (ws !! j) * base (default 0%nat (ps !! j)) (default 0 (default [] (cs !! j) !! i))).
(** The number [x] has the square root [sq x]. *)
Definition exact (sq : Qc → Qc) (x : Qc) : Prop := sq x * sq x = x.
(** A layer with the [k] by [k] matrix [a] turns [x] into [y]. *)
Definition layer (k : nat) (nonlin : Qc → Qc) (a : mat) (x y : list Qc) : Prop :=
  length y = k ∧ ∀ i, (i < k)%nat → y !! i = Some (nonlin (qsum k (λ j, a i j * default 0 (x !! j)))).
(** A network with these layers turns [x] into [y]. *)
Fixpoint network (k : nat) (nonlin : Qc → Qc) (layers : list mat) (x y : list Qc) : Prop :=
  match layers with
  | [] => x = y
  | a :: layers => ∃ z, layer k nonlin a x z ∧ network k nonlin layers z y
  end.
