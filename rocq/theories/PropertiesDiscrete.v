(** Marginals of discrete Bayesian networks. *)
From Coq Require Import QArith.Qcanon.
From Verif Require Import Py Spec DagModel QMatModel DiscreteModel SpecDiscrete TopoProofs StateProofs ReachProofs QueryProofs CoreProofs MarkovProofs QMatProofs PropertiesDag DiscreteProofs DiscreteElim.
#[local] Open Scope Qc_scope.

Section setup.
  Context (D : ddag) (o : oracle) (Hwf : ddag_wf D) (S : list node) (HS : ∀ v, v ∈ S → v ∈ d_nodes (dd_dag D)).
  Notation N := (d_nodes (dd_dag D)).
  Notation Ar := (d_arcs (dd_dag D)).

  Lemma anc_setup : ∃ g t, ancestral_subgraph (dd_dag D) o (list_to_set S) = Ok g ∧ topological_sort g o = Ok t ∧
    wf g ∧ d_nodes g ⊆ N ∧ (∀ x y, (x, y) ∈ d_arcs g ↔ (x, y) ∈ Ar ∧ y ∈ d_nodes g) ∧ topo_order (d_nodes g) (d_arcs g) t ∧
    (∀ x, x ∈ d_nodes g ↔ ∃ y, y ∈ S ∧ rtc (edge Ar) x y) ∧ (∀ u v, (u, v) ∈ Ar → v ∈ d_nodes g → u ∈ d_nodes g).
  Proof using Hwf HS.
    pose proof Hwf as (Hv & Hac & _). apply wf_views_agree in Hv.
    destruct (ancestral_subgraph_spec (dd_dag D) o Hv Hac (list_to_set S)) as (g & E & Hg & Hacg & HN & HA).
    pose proof (topological_sort_spec g o Hg) as Ht. destruct (topological_sort g o) as [t|e] eqn:Et.
    2:{ destruct Ht as (w & _ & Hw). by apply closes_cycle_not_acyclic in Hw. }
    exists g, t. do 3 (split; [done|]). split.
    { intros x Hx. apply HN in Hx as (y & Hy & Hr). apply elem_of_list_to_set, HS in Hy.
      clear -Hr Hy Hv. induction Hr as [|x z y Hxz _ IH]; [done|]. by destruct (wf_over _ Hv _ _ Hxz). }
    split; [done|]. split; [done|]. split.
    - intros x. rewrite HN. setoid_rewrite elem_of_list_to_set. done.
    - intros u v He Hvg. apply HN in Hvg as (y & Hy & Hr). apply HN. exists y. split; [done|]. by eapply rtc_l.
  Qed.

  Context (g : dag) (t : list node).
  Context (Hg : wf g) (HgN : d_nodes g ⊆ N) (HgA : ∀ x y, (x, y) ∈ d_arcs g ↔ (x, y) ∈ Ar ∧ y ∈ d_nodes g) (Ht : topo_order (d_nodes g) (d_arcs g) t)
    (HgS : ∀ x, x ∈ d_nodes g ↔ ∃ y, y ∈ S ∧ rtc (edge Ar) x y).
  Lemma later q new r w : t = q ++ new :: r → w ∈ children g new → w ∉ q ++ [new].
  Proof using Hwf Hg HgA Ht.
    intros Heq Hw. apply (g_children D g Hg HgA) in Hw as [Hw Hwg]. assert ((new, w) ∈ d_arcs g) as He by (by apply HgA).
    assert (t !! length q = Some new) as Hi by (rewrite Heq; by apply list_lookup_middle).
    intros [j Hj]%elem_of_list_lookup. destruct Ht as (_ & _ & Ho). assert (t !! j = Some w) as Hj'.
    { rewrite Heq, (cons_middle new q r), app_assoc. by apply lookup_app_l_Some. }
    pose proof (Ho _ _ _ _ He Hi Hj'). apply lookup_lt_Some in Hj. rewrite app_length in Hj. cbn in Hj. lia.
  Qed.
  Lemma pending q new r : t = q ++ new :: r → new ∉ S → ∃ w, w ∈ children g new ∧ w ∉ q ++ [new].
  Proof using Hwf Hg HgA Ht HgS.
    intros Heq Hn. assert (new ∈ d_nodes g) as Hng by (destruct Ht as (_ & H & _); apply H; rewrite Heq; apply elem_of_app; right; by left).
    apply HgS in Hng as (y & Hy & Hr). apply rtc_inv in Hr as [->|(w & Hnw & Hwy)]; [done|].
    assert (w ∈ children g new) as Hw.
    { apply (g_children D g Hg HgA). split; [done|]. apply HgS. by exists y. }
    exists w. split; [done|]. by apply (later q new r).
  Qed.
  Lemma first_Inv v0 rest c0 : t = v0 :: rest → dd_cond D !! v0 = Some c0 →
    Inv D g [v0] [v0] [] c0 ∧ (no_tiny D → Inv D g [v0] [v0] [] (clip_t c0)) ∧ dd_par D !! v0 = Some [].
  Proof using Hwf Hg HgN HgA Ht.
    intros Heq Ec. assert (v0 ∈ N) as Hv0.
    { apply HgN. destruct Ht as (_ & H & _). apply H. rewrite Heq. by left. }
    pose proof Hwf as (_ & _ & Hw). destruct (Hw v0 Hv0) as (al & ps & c & _ & Ep & Ec' & _ & Hps & Hsh). rewrite Ec in Ec'. injection Ec' as <-.
    assert (ps = []) as ->.
    { destruct ps as [|u ps]; [done|]. assert ((u, v0) ∈ Ar) as He by (apply Hps; by left).
      assert (u ∈ []) as Hu by (eapply (g_pre D g t Hg HgA Ht []); [exact Heq|done]). by apply elem_of_nil in Hu. }
    assert (∀ a, t_at c0 (vals a [v0]) = prob D a v0) as Hat by (intros a; unfold prob; by rewrite Ec, Ep).
    split; [|split; [|done]].
    - split; [done|]. split; [intros v Hv; by apply elem_of_nil in Hv|]. split; [done|]. intros a Ha. cbn [sum_over]. by rewrite plist_one.
    - intros Hti. split; [done|]. split; [intros v Hv; by apply elem_of_nil in Hv|]. split; [done|]. intros a Ha. cbn [sum_over]. rewrite plist_one. unfold clip_t. cbn [map_t t_at].
      rewrite Hat. by apply (clip_prob D Hti v0 []).
  Qed.
End setup.

(** The elimination of variables with any function [f] that leaves the entries of the tables as they are. *)
Lemma get_marginals_by_spec (f : Qc → Qc) (o : oracle) (D : ddag) (S : list node) :
  ddag_wf D → stochastic D →
  (∀ v ps a, v ∈ d_nodes (dd_dag D) → dd_par D !! v = Some ps → in_range D (ps ++ [v]) a → f (prob D a v) = prob D a v) →
  S ≠ [] → NoDup S → (∀ v, v ∈ S → v ∈ d_nodes (dd_dag D)) →
  ∃ t, get_marginals_by f o D S = Ok t ∧ t_shape t = card D <$> S ∧
    ∀ a, in_range D S a → t_at t (vals a S) = marginal D (list_to_set S) a.
Proof.
  intros Hwf Hst Hf Hne Hnd HS. destruct (anc_setup D o Hwf S HS) as (g & t & Eg & Et & Hg & HgN & HgA & Ht & HgS & Hcl).
  unfold get_marginals_by. rewrite Eg. cbn [res_bind]. rewrite Et. cbn [res_bind].
  assert (∀ v, v ∈ S → v ∈ t) as HSt by (intros v Hv; destruct Ht as (_ & H & _); apply H, HgS; by exists v).
  destruct t as [|v0 rest].
  { destruct S as [|s S]; [done|]. specialize (HSt s ltac:(by left)). by apply elem_of_nil in HSt. }
  assert (v0 ∈ d_nodes (dd_dag D)) as Hv0 by (apply HgN; destruct Ht as (_ & H & _); apply H; by left).
  pose proof Hwf as (_ & _ & Hw). destruct (Hw v0 Hv0) as (_ & _ & c0 & _ & _ & Ec & _). rewrite Ec.
  destruct (first_Inv D Hwf g _ Hg HgN HgA Ht v0 rest c0 eq_refl Ec) as (HI & _ & _).
  set (keep := λ _ v : node, bool_decide (v ∈ S)).
  destruct (elim_loop D Hwf g _ Hg HgN HgA Ht f Hf keep rest [v0] [v0] [] c0 eq_refl ltac:(done) HI) as (cur & E & table & Hl & HI' & Hk & Hc & HE).
  { intros q new r Heq. unfold keep. destruct (decide (new ∈ S)) as [H|H]; [left; by apply bool_decide_eq_true|right].
    by apply (pending D Hwf S g _ Hg HgA Ht HgS q new r). }
  assert (list_to_set [v0] = {[v0]} :> nset) as Hs0 by (cbn; set_solver). rewrite Hs0 in Hl. fold keep. rewrite Hl. cbn [res_bind fst snd].
  destruct HI' as (Hperm & _ & Hrep).
  assert (∀ v, v ∈ cur ↔ v ∈ S) as HcS.
  { intros v. split.
    - intros Hv. destruct (decide (rest = [])) as [->|Hr].
      + rewrite Hc in Hv by done. apply elem_of_list_singleton in Hv as ->. destruct S as [|s S]; [done|].
        pose proof (HSt s ltac:(by left)) as Hs. apply elem_of_list_singleton in Hs as ->. by left.
      + destruct (last rest) as [n|] eqn:El; [|by apply last_None in El]. apply (Hk n eq_refl) in Hv. by apply bool_decide_eq_true in Hv.
    - intros Hv. pose proof (HSt v Hv) as Hvt. rewrite <-Hperm in Hvt. apply elem_of_app in Hvt as [?|HvE]; [done|].
      destruct (HE v HvE) as [H|(n & _ & H)]; [by apply elem_of_nil in H|]. by apply bool_decide_eq_false in H. }
  assert (NoDup (cur ++ E)) as HndcE by (rewrite Hperm; by destruct Ht). apply NoDup_app in HndcE as (Hndc & _ & _).
  destruct (repeat_rep D table cur S _ Hrep Hndc Hnd HcS) as (t' & -> & Hrep'). exists t'. split; [done|]. destruct Hrep' as [Hsh Hat]. split; [done|].
  intros a Ha. rewrite Hat by done. apply (marginal_ancestral D Hwf Hst (d_nodes g)).
  - done.
  - done.
  - by destruct Ht.
  - by destruct Ht as (_ & ? & _).
  - rewrite <-Hperm. apply Permutation_app_tail. apply NoDup_Permutation; [done|done|]. intros v. by rewrite HcS.
  - done.
Qed.

(** ** C49: [get_marginals], [get_marginal] *)
(** The table returned for the nodes [S] has one axis per node in the given order and holds the sums of the joint distribution
    over all values of the other nodes of the network. *)
Theorem C49_get_marginals (o : oracle) (D : ddag) (S : list node) :
  ddag_wf D → stochastic D → no_tiny D → S ≠ [] → NoDup S → (∀ v, v ∈ S → v ∈ d_nodes (dd_dag D)) →
  ∃ t, get_marginals o D S = Ok t ∧ t_shape t = card D <$> S ∧
    ∀ a, in_range D S a → t_at t (vals a S) = marginal D (list_to_set S) a.
Proof. intros Hwf Hst Hti. apply get_marginals_by_spec; [done..|]. exact (clip_prob D Hti). Qed.

(** The same for one node. *)
Theorem C49_get_marginal (o : oracle) (D : ddag) (x : node) :
  ddag_wf D → stochastic D → no_tiny D → x ∈ d_nodes (dd_dag D) →
  ∃ t, get_marginal o D x = Ok t ∧ t_shape t = [card D x] ∧
    ∀ k, (k < card D x)%nat → t_at t [k] = marginal D {[x]} {[x := k]}.
Proof.
  intros Hwf Hst Hti Hx. destruct (anc_setup D o Hwf [x]) as (g & t & Eg & Et & Hg & HgN & HgA & Ht & HgS & Hcl).
  { by intros v ->%elem_of_list_singleton. }
  unfold get_marginal, elim_step. assert (list_to_set [x] = {[x]} :> nset) as Hx1 by (cbn; set_solver). rewrite Hx1 in Eg. rewrite Eg. cbn [res_bind]. rewrite Et. cbn [res_bind].
  assert (x ∈ t) as Hxt by (destruct Ht as (_ & H & _); apply H, HgS; exists x; split; [by left|done]).
  destruct t as [|v0 rest]; [by apply elem_of_nil in Hxt|].
  assert (v0 ∈ d_nodes (dd_dag D)) as Hv0 by (apply HgN; destruct Ht as (_ & H & _); apply H; by left).
  pose proof Hwf as (_ & _ & Hw). destruct (Hw v0 Hv0) as (_ & _ & c0 & _ & _ & Ec & _). rewrite Ec.
  destruct (first_Inv D Hwf g _ Hg HgN HgA Ht v0 rest c0 eq_refl Ec) as (_ & HI & _). specialize (HI Hti).
  set (keep := λ new v : node, bool_decide (v = new)).
  destruct (elim_loop D Hwf g _ Hg HgN HgA Ht clip (clip_prob D Hti) keep rest [v0] [v0] [] (clip_t c0) eq_refl ltac:(done) HI) as (cur & E & table & Hl & HI' & Hk & Hc & HE).
  { intros q new r _. left. by apply bool_decide_eq_true. }
  assert (list_to_set [v0] = {[v0]} :> nset) as Hs0 by (cbn; set_solver). rewrite Hs0 in Hl. fold keep. rewrite Hl. cbn [res_bind fst snd].
  destruct HI' as (Hperm & HchE & Hrep). exists table. split; [done|].
  (* [x] is the last node of the order *)
  assert (∀ q new r, v0 :: rest = q ++ new :: r → r = [] → new = x) as Hlast.
  { intros q new r Heq ->. destruct (decide (new ∈ [x])) as [H|H]; [by apply elem_of_list_singleton|].
    destruct (pending D Hwf [x] g _ Hg HgA Ht HgS q new [] Heq H) as (w & Hw1 & Hw2). destruct Hw2. rewrite <-Heq. destruct Ht as (_ & Ht & _).
    apply Ht. by apply (g_children D g Hg HgA) in Hw1 as [_ ?]. }
  assert (∀ v, v ∈ cur → v = x) as Hcur.
  { intros v Hv. destruct (decide (rest = [])) as [->|Hr].
    - rewrite Hc in Hv by done. apply elem_of_list_singleton in Hv as ->. by apply (Hlast [] v0 []).
    - destruct (last rest) as [n|] eqn:El; [|by apply last_None in El]. pose proof (Hk n eq_refl v Hv) as H. apply bool_decide_eq_true in H as ->.
      apply last_Some in El as (r' & ->). by apply (Hlast (v0 :: r') n []). }
  assert (x ∈ cur) as Hxc.
  { rewrite <-Hperm in Hxt. apply elem_of_app in Hxt as [?|HxE]; [done|]. exfalso.
    destruct (HE x HxE) as [H|(n & Hn & H)]; [by apply elem_of_nil in H|]. apply bool_decide_eq_false in H.
    assert (cur = []) as Hnil.
    { destruct cur as [|v cur]; [done|]. assert (v = x) as -> by (apply Hcur; by left). assert (NoDup (x :: cur ++ E)) as Hnd by (change (NoDup ((x :: cur) ++ E)); rewrite Hperm; by destruct Ht).
      apply NoDup_cons in Hnd as [Hnd _]. destruct Hnd. apply elem_of_app. by right. }
    rewrite Hnil in Hperm. cbn in Hperm.
    (* the last node is never dropped *)
    destruct (last rest) as [l|] eqn:El; [|apply last_None in El; subst rest; by apply elem_of_nil in Hn].
    apply last_Some in El as (r' & ->).
    clear -Hl Hnil. revert Hl. subst cur. 
    assert (∀ (l1 : list node) st st', loopR (elim_step_by clip D g keep) (l1 ++ [l]) st = Ok st' → l ∈ st'.1.1) as H.
    { induction l1 as [|y l1 IH]; intros st st'; cbn [app loopR].
      - unfold elim_step_by. destruct st as [[cur added] tb]. destruct (dd_cond D !! l), (dd_par D !! l); [|done..].
        destruct (add_variable_by _ _ _ _ _ _); [|done]. cbn [res_bind]. case_decide; [intros [= <-]; cbn; apply elem_of_app; right; by left|].
        case_decide as Hl; [done|]. intros [= <-]. cbn. apply elem_of_list_filter. split; [done|]. apply elem_of_app. right. by left.
      - destruct (elim_step_by clip D g keep y st); [apply IH|done]. }
    intros Hl. apply H in Hl. by apply elem_of_nil in Hl. }
  assert (cur = [x]) as ->.
  { assert (NoDup (cur ++ E)) as Hnd by (rewrite Hperm; by destruct Ht). apply NoDup_app in Hnd as (Hnd & _ & _).
    destruct cur as [|v cur]; [by apply elem_of_nil in Hxc|]. assert (v = x) as -> by (apply Hcur; by left).
    destruct cur as [|w cur]; [done|]. assert (w = x) as -> by (apply Hcur; right; by left). apply NoDup_cons in Hnd as [Hnd _]. destruct Hnd. by left. }
  destruct Hrep as [Hsh Hat]. split; [done|]. intros k Hk'. specialize (Hat {[x := k]}). cbn in Hat.
  assert (({[x := k]} : assignment) !!! x = k) as Hxk by (unfold lookup_total, map_lookup_total; by rewrite lookup_singleton). rewrite Hxk in Hat.
  assert (in_range D [x] {[x := k]}) as Hr by (intros v ->%elem_of_list_singleton; by rewrite Hxk).
  rewrite Hat by done. rewrite <-Hx1. apply (marginal_ancestral D Hwf Hst (d_nodes g)); [done|done|by destruct Ht|by destruct Ht as (_ & ? & _)|done|done].
Qed.

(** The network [0 -> 1], [0 -> 2], [1 -> 2] with two values each. *)
Definition q10 (z : Z) : Qc := qz z / qz 10.
Definition ex_alph : gmap node (list Qc) := list_to_map [(0%nat, [qz 0; qz 1]); (1%nat, [qz 0; qz 1]); (2%nat, [qz 0; qz 3])].
Definition ex_tab (l : list Z) (shape : list nat) : tensor :=
  Tensor shape (λ ix, q10 (default 0%Z (l !! foldl (λ acc k, 2 * acc + k)%nat 0%nat ix))).
Definition ex_ddag : ddag := DDag (dag_of {[0; 1; 2]}%nat {[(0, 1); (0, 2); (1, 2)]}%nat) [0; 1; 2]%nat
  (list_to_map [(0%nat, ex_tab [5; 5]%Z [2]%nat); (1%nat, ex_tab [1; 9; 9; 1]%Z [2; 2]%nat); (2%nat, ex_tab [1; 9; 9; 1; 8; 2; 2; 8]%Z [2; 2; 2]%nat)])
  (list_to_map [(0, []); (1, [0]); (2, [1; 0])]%nat) ex_alph.
Lemma ex_ddag_ok : ddag_wf ex_ddag ∧ stochastic ex_ddag ∧ no_tiny ex_ddag.
Proof.
  destruct (check_rows_sound ex_ddag) as [? ?]; [apply dag_of_wf|by_vm|by_vm|]. split; [done|]. split; [done|]. apply check_small_sound. by_vm.
Qed.
Example C49_example :
  (ddag_wf ex_ddag ∧ stochastic ex_ddag ∧ no_tiny ex_ddag) ∧
  match get_marginals oracle0 ex_ddag [2; 0]%nat with
  | Ok t => bool_decide (t_shape t = [2; 2]%nat ∧ t_at t [1; 0]%nat = qz 27 / qz 200) | Raise _ => false end = true ∧
  match get_marginal oracle0 ex_ddag 2%nat with
  | Ok t => bool_decide (t_shape t = [2]%nat ∧ t_at t [1]%nat = qz 22 / qz 100) | Raise _ => false end = true.
Proof. split; [apply ex_ddag_ok|]. split; vm_compute; reflexivity. Qed.

(** Probabilities up to 1e-10 are treated as 0: without that hypothesis the claim fails. *)
Theorem C49_tiny_refuted :
  ∃ D t, ddag_wf D ∧ stochastic D ∧ get_marginal oracle0 D 1%nat = Ok t ∧
    t_at t [0%nat] = 0 ∧ marginal D {[1%nat]} {[1%nat := 0%nat]} = Q2Qc (QArith_base.Qmake 1 100000000000).
Proof.
  set (eps := Q2Qc (QArith_base.Qmake 1 100000000000)).
  set (row := λ ix : list nat, if decide (last ix = Some 0%nat) then eps else 1 - eps).
  set (D := DDag (dag_of {[0; 1]}%nat {[(0, 1)]}%nat) [0; 1]%nat
    (list_to_map [(0%nat, Tensor [1%nat] (λ _, 1)); (1%nat, Tensor [1; 2]%nat row)])
    (list_to_map [(0, []); (1, [0])]%nat) (list_to_map [(0%nat, [qz 0]); (1%nat, [qz 0; qz 1])])).
  assert (match get_marginal oracle0 D 1%nat with
    | Ok t => bool_decide (t_at t [0%nat] = 0 ∧ marginal D {[1%nat]} {[1%nat := 0%nat]} = eps) | Raise _ => false end = true) as H by (vm_compute; reflexivity).
  destruct (get_marginal oracle0 D 1%nat) as [t|] eqn:E; [|done]. apply bool_decide_eq_true in H as [H1 H2]. exists D, t.
  destruct (check_rows_sound D) as [? ?]; [apply dag_of_wf|by_vm|by_vm|]. done.
Qed.

Print Assumptions C49_get_marginals.
Print Assumptions C49_get_marginal.
Print Assumptions C49_tiny_refuted.
