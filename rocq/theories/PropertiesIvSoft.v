(** C78: exactly what [soft_interventional_dag] returns. *)
From Coq Require Import QArith.Qcanon.
From Verif Require Import Py Spec DagModel QMatModel GaussModel TopoProofs StateProofs ReachProofs CoreProofs MarkovProofs QMatProofs PropertiesDag GaussProofs GaussLoops PropertiesGauss PropertiesGauss2.
#[local] Open Scope Qc_scope.

(** The weight of the arc from [i]: the bias of the triple for node 0, the variance for node 1. *)
Definition triple_entry (t : Qc * Qc * list Qc) (i : node) : Qc := match i with O => t.1.1 | _ => t.1.2 end.
Definition soft_new (iv : gmap node (Qc * Qc * list Qc)) (a : arc * Qc) : Qc := match iv !! a.1.2 with Some t => triple_entry t a.1.1 | None => a.2 end.

(** If all arcs into intervened nodes come from the nodes 0 and 1, these arcs get the bias and the variance as weights;
    the list of weights is not used. *)
Theorem C78_soft (o : oracle) (g : gauss) (n : nat) (iv : gmap node (Qc * Qc * list Qc)) :
  gauss_wf g → g_list g = seq 0 n → length (g_bias g) = n → length (g_var g) = n → on o [136%nat] (d_nodes (g_dag g)) = seq 0 n →
  (∀ i j, (i, j) ∈ d_arcs (g_dag g) → is_Some (iv !! j) → (i < 2)%nat) →
  ∃ g', soft_interventional_dag o g iv = Ok g' ∧ gauss_wf g' ∧ g_list g' = seq 0 n ∧
    (∀ i j, weight g' i j = match iv !! j with Some t => if decide ((i, j) ∈ d_arcs (g_dag g)) then triple_entry t i else 0 | None => weight g i j end) ∧
    (∀ v, (v < n)%nat → g_bias g' !! v = Some match iv !! v with Some t => t.1.1 | None => vec_of (g_bias g) v end) ∧
    (∀ v, (v < n)%nat → g_var g' !! v = Some match iv !! v with Some t => t.1.2 | None => vec_of (g_var g) v end).
Proof.
  intros Hg Hl Hb Hv Ho H2. unfold soft_interventional_dag. destruct (arc_weights_ok o g n Hg Hl) as (ws & -> & Hnd & Hws). cbn [res_bind].
  set (ws' := (λ a, (a.1, soft_new iv a)) <$> ws).
  match goal with |- context [loopR ?f ws []] => assert (loopR f ws [] = Ok ws') as -> end.
  { rewrite (loopR_foldl _ (λ a acc, acc ++ [(a.1, soft_new iv a)])).
    - f_equal. assert (∀ acc, foldl (λ y (a : arc * Qc), y ++ [(a.1, soft_new iv a)]) acc ws = acc ++ ((λ a, (a.1, soft_new iv a)) <$> ws)) as HH; [|apply HH].
      clear. induction ws as [|v t IH]; intros acc; cbn; [by rewrite app_nil_r|]. by rewrite IH, <-app_assoc.
    - intros [[i j] w] acc Ha. cbn. unfold soft_new. cbn. apply Hws in Ha as [Ha _]. destruct (iv !! j) as [t|] eqn:E; [|done].
      assert (i < 2)%nat as Hi by (apply (H2 i j); [done|by eexists]). destruct i as [|[|i]]; [by destruct t as [[] ?]|by destruct t as [[] ?]|lia]. }
  cbn [res_bind]. rewrite Ho. rewrite !pick_ok by (intros v Hx%elem_of_seq _; lia). cbn [res_bind].
  assert (ws'.*1 = ws.*1) as Hfst by (unfold ws'; by rewrite <-list_fmap_compose).
  assert (∀ i j w, ((i, j), w) ∈ ws' ↔ (i, j) ∈ d_arcs (g_dag g) ∧ w = match iv !! j with Some t => triple_entry t i | None => weight g i j end) as Hws'.
  { intros i j w. unfold ws'. rewrite elem_of_list_fmap. unfold soft_new. split.
    - intros ([[a b] x] & [= -> -> ->] & [Ha ->]%Hws). done.
    - intros [Ha ->]. exists ((i, j), weight g i j). split; [done|]. by apply Hws. }
  destruct (gauss_new_spec o (seq 0 n) ws' (Some ((λ v, default (vec_of (g_bias g) v) (((λ t, t.1.1) <$> iv) !! v)) <$> seq 0 n))
    (Some ((λ v, default (vec_of (g_var g) v) (((λ t, t.1.2) <$> iv) !! v)) <$> seq 0 n))) as (g' & -> & Hwf & Hl' & Hw & Hv' & Hb' & _); [apply NoDup_seq|by rewrite Hfst| |].
  { intros [i j] w (H & _)%Hws'. cbn. pose proof (lab_wf g Hg) as [Hov _ _ _]. apply Hov in H as [Hi Hj].
    rewrite (lab_node g n Hg Hl) in Hi, Hj. rewrite !elem_of_seq. lia. }
  exists g'. split; [done|]. split; [done|]. split; [done|]. split.
  { intros i j. rewrite Hw. pose proof Hg as (_ & _ & _ & _ & HA). destruct (given ws' (i, j)) as [w|] eqn:E.
    - apply given_Some in E; [|by rewrite Hfst]. apply Hws' in E as (Ha & ->). cbn. destruct (iv !! j); [|done]. by rewrite decide_True.
    - apply given_None in E. rewrite Hfst in E. cbn. assert ((i, j) ∉ d_arcs (g_dag g)) as Hna.
      { intros Ha. apply E, elem_of_list_fmap. exists ((i, j), weight g i j). split; [done|]. by apply Hws. }
      destruct (iv !! j); [by rewrite decide_False|]. destruct (decide (weight g i j = 0)) as [->|Hne]; [done|]. by apply HA in Hne. }
  split; intros v Hvn; [rewrite Hb'|rewrite Hv']; cbn [default]; unfold id; rewrite list_lookup_fmap, lookup_seq_lt by done; cbn [fmap option_fmap option_map Nat.add];
    rewrite lookup_fmap; by destruct (iv !! v).
Qed.
(** An arc from any other node into an intervened node makes the method fail. *)
Theorem C78_soft_fails (o : oracle) (g : gauss) (n : nat) (iv : gmap node (Qc * Qc * list Qc)) i j :
  gauss_wf g → g_list g = seq 0 n → (i, j) ∈ d_arcs (g_dag g) → is_Some (iv !! j) → (2 ≤ i)%nat →
  ∃ e, soft_interventional_dag o g iv = Raise e.
Proof.
  intros Hg Hl Ha [t Ht] Hi. unfold soft_interventional_dag. destruct (arc_weights_ok o g n Hg Hl) as (ws & -> & Hnd & Hws). cbn [res_bind].
  assert (((i, j), weight g i j) ∈ ws) as Hin by (by apply Hws). clear Hws Hnd.
  match goal with |- context [loopR ?f ws []] => assert (∀ acc, ∃ e, loopR f ws acc = Raise e) as H end.
  { induction ws as [|a ws IH]; [by apply elem_of_nil in Hin|]. intros acc. cbn [loopR]. apply elem_of_cons in Hin as [<-|Hin].
    - cbn. rewrite Ht. destruct i as [|[|[|i]]]; [lia|lia|..]; cbn; destruct t as [[] ?]; by eexists.
    - match goal with |- ∃ e, match ?x with _ => _ end = _ => destruct x as [acc'|e]; [|by exists e] end. by apply IH. }
  destruct (H []) as [e ->]. by exists e.
Qed.
Example C78_soft_example : ∃ g, gauss_make oracle0 [0; 1; 2]%nat [((0, 2)%nat, 1); ((1, 2)%nat, 1)] None None = Ok g ∧ gauss_wf g ∧ g_list g = seq 0 3 ∧
  length (g_bias g) = 3%nat ∧ length (g_var g) = 3%nat ∧ on oracle0 [136%nat] (d_nodes (g_dag g)) = seq 0 3 ∧
  ∀ i j, (i, j) ∈ d_arcs (g_dag g) → is_Some (({[2%nat := (qz 7, qz 3, [qz 4; qz 5])]} : gmap node (Qc * Qc * list Qc)) !! j) → (i < 2)%nat.
Proof.
  destruct (gauss_new_spec oracle0 [0; 1; 2]%nat [((0, 2)%nat, 1); ((1, 2)%nat, 1)] None None) as (g & Hg & Hwf & Hl & _).
  { by apply (bool_decide_unpack _). } { by apply (bool_decide_unpack _). }
  { intros e w. rewrite !elem_of_cons, elem_of_nil. intros [[= -> ->]|[[= -> ->]|[]]]; cbn; split; apply (bool_decide_unpack _); done. }
  assert (match gauss_make oracle0 [0; 1; 2]%nat [((0, 2)%nat, 1); ((1, 2)%nat, 1)] None None with
    | Ok g => bool_decide (length (g_bias g) = 3%nat ∧ length (g_var g) = 3%nat ∧ on oracle0 [136%nat] (d_nodes (g_dag g)) = seq 0 3 ∧ set_Forall (λ e : arc, (e.1 < 2)%nat) (d_arcs (g_dag g))) | _ => false end = true) as H by by_vm.
  rewrite Hg in H. apply bool_decide_eq_true in H as (? & ? & ? & H). exists g. split_and!; [done..|]. intros i j Ha _. by apply (H _ Ha).
Qed.

Print Assumptions C78_soft.
Print Assumptions C78_soft_fails.
