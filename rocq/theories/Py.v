(** Python primitives shared by all models: exceptions, the state/exception
    monad, sets with unspecified iteration order, [defaultdict(set)]. *)
From stdpp Require Export base numbers list gmap sets fin_sets relations sorting.

Global Set Default Goal Selector "!".

(** Node labels: any hashable Python object.  The library only uses [==] and
    [hash] on labels, so a countable label set is represented by [nat]. *)
Notation node := nat.
Notation nset := (gset nat).
Notation arc := (nat * nat)%type.
Notation arcset := (gset (nat * nat)).

(** Exceptions raised by the modelled code.  [CycleError] carries the node list
    that Python passes to the exception (dag.py:23-27).  [OutOfFuel] is not a
    Python exception: it marks exhausted recursion fuel in the model. *)
Inductive exn :=
  | KeyError
  | TypeError
  | ValueError
  | IndexError
  | CycleError (cycle : list node)
  | SpouseError
  | AdjacentError
  | NeighborError
  | RuntimeError
  | OutOfFuel.

Inductive res (A : Type) :=
  | Ok (a : A)
  | Raise (e : exn).
Arguments Ok {A} a.
Arguments Raise {A} e.

Global Instance exn_eq_dec : EqDecision exn.
Proof. solve_decision. Defined.
Global Instance res_eq_dec {A} `{EqDecision A} : EqDecision (res A).
Proof. solve_decision. Defined.

Definition res_bind {A B} (r : res A) (f : A → res B) : res B :=
  match r with Ok a => f a | Raise e => Raise e end.

(** A method that mutates an object of state type [S]: the state after the call
    is kept also when the call raises. *)
Definition M (S A : Type) := S → S * res A.

Definition mret {S A} (a : A) : M S A := λ s, (s, Ok a).
Definition mraise {S A} (e : exn) : M S A := λ s, (s, Raise e).
Definition mbind' {S A B} (m : M S A) (f : A → M S B) : M S B :=
  λ s, match m s with
       | (s', Ok a) => f a s'
       | (s', Raise e) => (s', Raise e)
       end.
Definition mthen {S A B} (m : M S A) (k : M S B) : M S B := mbind' m (λ _, k).
Notation "m ;;; k" := (mthen m k) (at level 100, k at level 200, right associativity).

(** [try: m except e: h e] *)
Definition mcatch {S A} (m : M S A) (h : exn → M S A) : M S A :=
  λ s, match m s with
       | (s', Raise e) => h e s'
       | r => r
       end.

(** [for x in l: f x] *)
Fixpoint mfor {S A} (l : list A) (f : A → M S unit) : M S unit :=
  match l with
  | [] => mret tt
  | x :: l' => f x ;;; mfor l' f
  end.

(** [for x in l: s = f x s] for a computation over local variables. *)
Fixpoint loopR {S A} (f : A → S → res S) (l : list A) (s : S) : res S :=
  match l with
  | [] => Ok s
  | x :: l' => match f x s with Ok s' => loopR f l' s' | Raise e => Raise e end
  end.

(** Iteration order of Python sets.  The order in which a [set] is enumerated is
    unspecified; an [oracle] picks, for every program point (identified by a
    key) and every set, some enumeration without repetition. *)
Record oracle := Oracle {
  on : list nat → nset → list node;
  oa : list nat → arcset → list arc;
  on_perm : ∀ k X, on k X ≡ₚ elements X;
  oa_perm : ∀ k X, oa k X ≡ₚ elements X
}.

Definition oracle0 : oracle.
Proof. refine (Oracle (λ _ X, elements X) (λ _ X, elements X) _ _); done. Defined.

Definition oracle_rev : oracle.
Proof.
  refine (Oracle (λ _ X, reverse (elements X)) (λ _ X, reverse (elements X)) _ _);
    intros; apply reverse_Permutation.
Defined.

Lemma elem_of_on o k X x : x ∈ on o k X ↔ x ∈ X.
Proof. by rewrite on_perm, elem_of_elements. Qed.
Lemma elem_of_oa o k X x : x ∈ oa o k X ↔ x ∈ X.
Proof. by rewrite oa_perm, elem_of_elements. Qed.
Lemma NoDup_on o k X : NoDup (on o k X).
Proof. rewrite on_perm. apply NoDup_elements. Qed.
Lemma NoDup_oa o k X : NoDup (oa o k X).
Proof. rewrite oa_perm. apply NoDup_elements. Qed.

(** [defaultdict(set)]: a missing key reads as the empty set.  Simplification:
    reading a missing key does not create an (empty) entry. *)
Notation dmap := (gmap nat nset).
Definition dget (m : dmap) (k : node) : nset := default ∅ (m !! k).
(** [m[k].add(x)] *)
Definition dadd (m : dmap) (k x : node) : dmap := <[k := {[x]} ∪ dget m k]> m.
(** the set left by a successful [m[k].remove(x)] *)
Definition ddel (m : dmap) (k x : node) : dmap := <[k := dget m k ∖ {[x]}]> m.

Lemma dget_dadd m k x k' : dget (dadd m k x) k' = if decide (k = k') then {[x]} ∪ dget m k' else dget m k'.
Proof.
  unfold dget at 1, dadd. destruct (decide (k = k')) as [->|].
  - by rewrite lookup_insert.
  - by rewrite lookup_insert_ne by done.
Qed.
Lemma dget_ddel m k x k' : dget (ddel m k x) k' = if decide (k = k') then dget m k' ∖ {[x]} else dget m k'.
Proof.
  unfold dget at 1, ddel. destruct (decide (k = k')) as [->|].
  - by rewrite lookup_insert.
  - by rewrite lookup_insert_ne by done.
Qed.
Lemma dget_delete m k k' : dget (delete k m) k' = if decide (k = k') then ∅ else dget m k'.
Proof.
  unfold dget. destruct (decide (k = k')) as [->|].
  - by rewrite lookup_delete.
  - by rewrite lookup_delete_ne by done.
Qed.
Lemma dget_empty k : dget ∅ k = ∅.
Proof. unfold dget. by rewrite lookup_empty. Qed.

(** [itertools.combinations(l, 2)] *)
Fixpoint combinations2 {A} (l : list A) : list (A * A) :=
  match l with
  | [] => []
  | x :: l' => map (pair x) l' ++ combinations2 l'
  end.

(** Decide a closed proposition by computation. *)
Ltac by_vm :=
  lazymatch goal with
  | |- ?P => apply (bool_decide_eq_true_1 P); vm_compute; reflexivity
  end.

