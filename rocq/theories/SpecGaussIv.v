(** What rows sampled from a linear model under interventions should satisfy. *)
From Coq Require Import QArith.Qcanon.
From Verif Require Import Py Spec DagModel QMatModel GaussModel GaussProofs GaussIvModel.
#[local] Open Scope Qc_scope.

(** What the parents contribute to [v]. *)
Definition inflow (g : gauss) (n : nat) (x : vec) (v : node) : Qc := qsum n (λ u, weight g u v * x u).
(** The structural equation of [v] under the intervention [d], where a node without intervention gets the noise [noise v]. *)
Definition giv_equation (g : gauss) (n : nat) (noise : vec) (d : option gdist) (x : vec) (v : node) : Prop :=
  match d with
  | None => x v = inflow g n x v + noise v
  | Some (GShift s e) => x v = inflow g n x v + vec_of (g_bias g) v + s + e
  | Some (GScale f m e) => ∃ m', m = Some m' ∧ x v = f * inflow g n x v + m' + e
  | Some (GPerfect c) => x v = c
  end.
Definition giv_solves (g : gauss) (n : nat) (noise : vec) (iv : gmap node gdist) (x : vec) : Prop :=
  ∀ v, (v < n)%nat → giv_equation g n noise (iv !! v) x v.
(** [sample_interventional_soft] takes soft interventions only, and scaling needs a mean. *)
Definition usable (soft : bool) (d : gdist) : Prop :=
  match d with GShift _ _ => True | GScale _ m _ => m ≠ None | GPerfect _ => soft = false end.
