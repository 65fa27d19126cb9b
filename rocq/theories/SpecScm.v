(** What samples of structural causal models should be: solutions of the structural equations. *)
From Coq Require Import QArith.Qcanon.
From Verif Require Import Py Spec DagModel QMatModel GaussModel ScmModel PropertiesDag.
#[local] Open Scope Qc_scope.

(** The array [x] fills a column of length [n] as [c]. *)
Definition fills (n : nat) (x : nd) (c : list Qc) : Prop :=
  length c = n ∧
  match x with
  | Scal q => ∀ y, y ∈ c → y = q
  | Vec l => l = c ∨ ∃ q, l = [q] ∧ ∀ y, y ∈ c → y = q
  | Mat r cs => r = 1%nat ∧ ∃ l, l = (λ c, default 0 (head c)) <$> cs ∧ (l = c ∨ ∃ q, l = [q] ∧ ∀ y, y ∈ c → y = q)
  end.
(** [c] is the column of the node [v], where the columns are in the order of the list [L]. *)
Definition column (L : list node) (m : columns) (v : node) (c : list Qc) : Prop := ∃ k, L !! k = Some v ∧ m !! k = Some c.
(** [ord] lists the parents of every node. *)
Definition orders (d : dag) (ord : node → list node) : Prop :=
  ∀ v, v ∈ d_nodes d → NoDup (ord v) ∧ ∀ p, p ∈ ord v ↔ (p, v) ∈ d_arcs d.
(** The nodes given to the constructor are those of the graph, without repetition. *)
Definition scm_wf (S : sdag) : Prop :=
  views_agree (s_dag S) ∧ acyclic (d_arcs (s_dag S)) ∧ NoDup (s_list S) ∧ ∀ v, v ∈ s_list S ↔ v ∈ d_nodes (s_dag S).

(** The structural equation of the node [v] under an intervention: [c] comes from the columns [cs] of the parents. *)
Definition mechanism (S : sdag) (iv : gmap node idist) (n : nat) (v : node) (cs : columns) (c : list Qc) : Prop :=
  match iv !! v with
  | Some (Soft g) => ∃ x, g S v (Mat n cs) = Ok x ∧ fills n x c
  | Some (Perfect g) => ∃ x, g n = Ok x ∧ fills n x c
  | Some Neither => c = replicate n 0
  | None => ∃ f x, s_cond S !! v = Some f ∧ f (Mat n cs) = Ok x ∧ fills n x c
  end.
Definition solves_iv (S : sdag) (iv : gmap node idist) (ord : node → list node) (n : nat) (m : columns) : Prop :=
  length m = length (s_list S) ∧
  ∀ v, v ∈ d_nodes (s_dag S) →
    ∃ cs c, Forall2 (column (s_list S) m) (ord v) cs ∧ mechanism S iv n v cs c ∧ column (s_list S) m v c.
(** The structural equations without an intervention. *)
Definition solves (S : sdag) (ord : node → list node) (n : nat) (m : columns) : Prop :=
  length m = length (s_list S) ∧
  ∀ v, v ∈ d_nodes (s_dag S) →
    ∃ cs c f x, Forall2 (column (s_list S) m) (ord v) cs ∧ s_cond S !! v = Some f ∧ f (Mat n cs) = Ok x ∧ fills n x c ∧
      column (s_list S) m v c.

(** The array handed to a conditional: [n] rows, a column for every parent. *)
Definition shaped (n k : nat) (cs : columns) : Prop := length cs = k ∧ ∀ c, c ∈ cs → length c = n.

(** A mixture: position [i] of [r] holds a value of the component chosen for it, and the values of a component are used in
    their order. *)
Definition mixture (cs : list nat) (draws : nat → list Qc) (r : list Qc) : Prop :=
  length r = length cs ∧
  ∀ i k, cs !! i = Some k →
    r !! i = draws k !! (length (list_filter (λ j : nat, cs !! j = Some k) _ (seq 0 i))).
(** The draws have the length asked for and the choices are components; the probabilities of a choice are a distribution. *)
Fixpoint drawn (p : perfect) : Prop :=
  match p with
  | PConst _ => True
  | PGauss draws => ∀ n, length (draws n) = n
  | PBinary p1 p2 choices => drawn p1 ∧ drawn p2 ∧ ∀ n, length (choices n) = n ∧ ∀ k, k ∈ choices n → (k < 2)%nat
  | PMulti pvals ps choices =>
    (fix all (ps : list perfect) : Prop := match ps with [] => True | p :: ps' => drawn p ∧ all ps' end) ps ∧
    length pvals = length ps ∧ (∀ x, x ∈ pvals → 0 <= x) ∧ foldr Qcplus 0 pvals = 1 ∧
    ∀ n, length (choices n) = n ∧ ∀ k, k ∈ choices n → (k < length ps)%nat
  end.
(** A conditional that treats the rows separately, like numpy's elementwise functions: [g] gives the value for one row. *)
Definition rowwise (f : nd → res nd) (n k : nat) (g : list Qc → Qc) : Prop :=
  (∀ cs, shaped n k cs → f (Mat n cs) = Ok (Vec ((λ i, g (row_of cs i)) <$> seq 0 n))) ∧
  (∀ r, length r = k → f (Vec r) = Ok (Scal (g r))).
