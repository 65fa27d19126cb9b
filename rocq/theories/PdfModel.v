(** Model of the methods [pdf] of the perfect interventional distributions (graphical_models/classes/interventions/interventions.py). *)
From Coq Require Import QArith.Qcanon.
From Verif Require Import Py ScmModel.
#[local] Open Scope Qc_scope.

(** Constants and mixtures, lines 98-142.  [GaussIntervention], whose [pdf] returns one number per entry (lines 91-92), is not
    modelled; the probabilities of [MultinomialIntervention] are left out because its [pdf] does not read them. *)
Inductive pdist :=
  | DConst (q : Qc)
  | DBinary (d1 d2 : pdist) (p : Qc)
  | DMulti (ds : list pdist).
(** [pdf], lines 113-114, 130-131 ([NotImplementedError], a subclass of [RuntimeError]), 141-142. *)
Fixpoint pdf (d : pdist) (vals : list Qc) : res Qc :=
  match d with
  | DConst q => Ok (const_pdf q vals)
  | DBinary d1 d2 p => res_bind (pdf d1 vals) (λ a, res_bind (pdf d2 vals) (λ b, Ok (p * a + (1 - p) * b)))
  | DMulti _ => Raise RuntimeError
  end.
