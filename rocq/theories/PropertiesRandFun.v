(** Final theorems about the random functions: C109. *)
From Coq Require Import QArith.Qcanon Field.
From Verif Require Import Py Spec DagModel QMatModel GaussModel ScmModel CamModel RandFunModel PropertiesDag SpecScm SpecCam SpecRandFun TopoProofs StateProofs ReachProofs QueryProofs CoreProofs DiscreteModel DiscreteProofs QMatProofs GaussProofs ScmProofs CamProofs PropertiesScm PropertiesCam RandFunProofs.
#[local] Open Scope Qc_scope.

(** ** C109: additive models with the desired share of explained variance *)

(** The structure is that of the graph.  Every node has an additive mean function with the drawn functions and weights, a
    coefficient [c], and its noise times [b].  The Monte Carlo columns solve the equations, and in them the mean of a node with
    parents has the variance asked for and its noise the rest, where the square roots are exact; the noise of a node
    without parents has the variance 1. *)
Theorem C109_additive (o : oracle) (d : dag) (bases : node → list (Qc → Qc)) (weights mc : node → list Qc) (noise : node → nat → res (list Qc)) (r2 : gmap nat Qc) (by_node : bool) (sq : Qc → Qc) (nmc : nat) C dict :
  views_agree d → acyclic (d_arcs d) → (∀ v, length (mc v) = nmc) →
  rand_additive_basis o d bases weights mc noise r2 by_node sq nmc = Ok (C, dict) →
  cam_wf C ∧ d_nodes (cm_dag C) = d_nodes d ∧ d_arcs (cm_dag C) = d_arcs d ∧
  ∀ v, v ∈ d_nodes d →
    ∃ ps cs base c b mean e,
      NoDup ps ∧ (∀ p, p ∈ ps ↔ (p, v) ∈ d_arcs d) ∧ (∀ j p g, ps !! j = Some p → bases v !! j = Some g → base p = g) ∧
      (cm_mean C !! v = Some mean ∧ ∀ cs' n ps', ps' ≡ₚ ps → length cs' = length ps' →
        mean cs' n ps' = Ok ((λ i, c * signal base (weights v) ps' cs' i) <$> seq 0 n)) ∧
      (cm_noise C !! v = Some e ∧ ∀ n, e n = res_bind (noise v n) (λ x, Ok ((λ y, b * y) <$> x))) ∧
      Forall2 (λ p x, dict !! p = Some x) ps cs ∧
      let mu := (λ i, c * signal base (weights v) ps cs i) <$> seq 0 nmc in
      let eps := (λ y, b * y) <$> mc v in
      dict !! v = Some (zip_with Qcplus mu eps) ∧
      (ps = [] → exact sq (1 / variance (mc v)) → variance eps = 1) ∧
      (ps ≠ [] → ∃ q, r2 !! (if by_node then v else length ps) = Some q ∧ 0 <= q ∧ q <= 1 ∧
        (exact sq (q / variance (signal base (weights v) ps cs <$> seq 0 nmc)) → variance mu = q) ∧
        (exact sq ((1 - q) / variance (mc v)) → variance eps = 1 - q)).
Proof.
  intros Hva Hac Hmc Hrun. unfold rand_additive_basis in Hrun. set (ns := on o [188%nat] (d_nodes d)) in *.
  assert (∀ v, v ∈ ns ↔ v ∈ d_nodes d) as Hns by (intros v; apply elem_of_on).
  destruct (C106_constructor o ns (d_arcs d)) as (S & HS & Hwf & Hl & Ha & _ & _); [apply NoDup_on|done| |].
  { intros a b Hab. rewrite !Hns. by apply Hva in Hab. }
  unfold cam_make in Hrun. unfold sdag_make in HS. destruct (dag_make o (list_to_set ns) (d_arcs d)) as [d'|]; [|done]. cbn [res_bind] in HS, Hrun.
  injection HS as <-. cbn [s_dag s_list] in *. clear Hl.
  destruct (proj1 (C05_topological_sort d o Hva) Hac) as (t & Et & Ht). rewrite Et in Hrun. cbn [res_bind] in Hrun.
  eapply (loop_made _ _ _ _ _ _ _ _ _ _ Hva Hmc []) in Hrun as (Hmade & Hd & Hlist); [|done|by intros v ?%elem_of_nil]. cbn [cm_dag cm_list] in Hd, Hlist.
  assert (d_nodes d' = d_nodes d) as Hnodes. { apply set_eq. intros v. destruct Hwf as (_ & _ & _ & HL). cbn in HL. by rewrite <-HL, Hns. }
  split; [unfold cam_wf; rewrite Hd, Hlist; exact Hwf|]. rewrite Hd. split; [done|]. split; [done|]. intros v Hv.
  destruct (Hmade v) as (ps & cs & base & c & b & H1 & H2 & H3 & H4 & H5 & H6 & H7 & H8 & H9 & (f & Hf & Hf') & e & He & He'); [by apply Ht|].
  exists ps, cs, base, c, b, f, e. split; [done|]. split; [done|]. split; [done|]. split; [done|]. split; [done|]. split; [done|].
  cbv zeta. split; [done|]. split.
  - intros Hps Hex. rewrite (variance_scale b), (H8 Hps). by apply scale_exact.
  - intros Hps. destruct (H9 Hps) as (q & Hq & Hq0 & Hq1 & Hne & -> & ->). exists q. split; [done|]. split; [done|]. split; [done|]. split.
    + intros Hex. etrans; [|exact (scale_exact sq q _ Hne Hex)]. rewrite <-variance_scale. by rewrite <-list_fmap_compose.
    + intros Hex. rewrite variance_scale. by apply scale_exact.
Qed.
(** A value must be given for every node with parents ... *)
Theorem C109_missing (o : oracle) (d : dag) (bases : node → list (Qc → Qc)) (weights mc : node → list Qc) (noise : node → nat → res (list Qc)) (r2 : gmap nat Qc) (by_node : bool) (sq : Qc → Qc) (nmc : nat) p v : views_agree d → acyclic (d_arcs d) → (∀ v, length (mc v) = nmc) →
  (p, v) ∈ d_arcs d → r2 !! (if by_node then v else size (parents d v)) = None →
  ∀ r, rand_additive_basis o d bases weights mc noise r2 by_node sq nmc ≠ Ok r.
Proof.
  intros Hva Hac Hmc Hp Hr2 [C dict] Hrun. destruct (C109_additive _ _ _ _ _ _ _ _ _ _ _ _ Hva Hac Hmc Hrun) as (_ & _ & _ & H).
  assert (v ∈ d_nodes d) as Hv by (by apply Hva in Hp as [_ ?]).
  destruct (H v Hv) as (ps & cs & base & c & b & mean & e & Hnd & Hps & _ & _ & _ & _ & _ & _ & Hq).
  destruct Hq as (q & Hq & _); [intros ->; apply Hps in Hp; by apply elem_of_nil in Hp|].
  assert (length ps = size (parents d v)) as Hl.
  { rewrite <-(size_list_to_set (C:=nset) ps Hnd). f_equal. apply set_eq. intros w. rewrite elem_of_list_to_set, Hps. symmetry. apply (proj1 Hva). }
  rewrite Hl in Hq. destruct by_node; congruence.
Qed.
(** ... and with values from 0 to 1 the function returns, unless a variance is 0. *)
Theorem C109_total (o : oracle) (d : dag) (bases : node → list (Qc → Qc)) (weights mc : node → list Qc) (noise : node → nat → res (list Qc)) (r2 : gmap nat Qc) (by_node : bool) (sq : Qc → Qc) (nmc : nat) : views_agree d → acyclic (d_arcs d) → (∀ v, length (mc v) = nmc) →
  (∀ v, v ∈ d_nodes d → length (weights v) = size (parents d v) ∧ length (bases v) = size (parents d v)) →
  (∀ p v, (p, v) ∈ d_arcs d → ∃ q, r2 !! (if by_node then v else size (parents d v)) = Some q ∧ 0 <= q ∧ q <= 1) →
  (∃ r, rand_additive_basis o d bases weights mc noise r2 by_node sq nmc = Ok r) ∨
  rand_additive_basis o d bases weights mc noise r2 by_node sq nmc = Raise RuntimeError.
Proof.
  intros Hva Hac Hmc Hwb Hr2. unfold rand_additive_basis. set (ns := on o [188%nat] (d_nodes d)) in *.
  assert (∀ v, v ∈ ns ↔ v ∈ d_nodes d) as Hns by (intros v; apply elem_of_on).
  destruct (C106_constructor o ns (d_arcs d)) as (S & HS & _); [apply NoDup_on|done| |].
  { intros a b Hab. rewrite !Hns. by apply Hva in Hab. }
  unfold cam_make. unfold sdag_make in HS. destruct (dag_make o (list_to_set ns) (d_arcs d)) as [d'|]; [|done]. cbn [res_bind].
  destruct (proj1 (C05_topological_sort d o Hva) Hac) as (t & Et & Ht). rewrite Et. cbn [res_bind].
  destruct (loop_total o d bases weights mc noise r2 by_node sq nmc Hva Hmc) with (t1 := @nil node) (t2 := t) (C := Cam d' ns ∅ ∅) (dict := ∅ : gmap node (list Qc)) as [H|H].
  - intros v Hv. by apply Hwb.
  - intros v Hv. by apply Hwb.
  - done.
  - done.
  - intros v Hv. by apply elem_of_nil in Hv.
  - by right.
  - by left.
Qed.

(** ** C109: random networks *)

(** All nodes get the network of one node: the one that the loop visits last. *)
Theorem C109_network o d layers nonlin noise : views_agree d → acyclic (d_arcs d) → d_nodes d ≠ ∅ →
  ∃ S l, rand_nn_functions o d layers nonlin noise = Ok S ∧ scm_wf S ∧ d_nodes (s_dag S) = d_nodes d ∧ d_arcs (s_dag S) = d_arcs d ∧ l ∈ d_nodes d ∧
    ∀ v, v ∈ d_nodes d → ∃ f, s_cond S !! v = Some f ∧
      ∀ x, length x = size (parents d l) →
        ∃ y, network (size (parents d l)) nonlin (layers l) x y ∧ f (Vec x) = Ok (Vec ((λ q, q + noise v) <$> y)).
Proof.
  intros Hva Hac Hne. destruct (nn_made o d layers nonlin noise Hva Hac Hne) as (S & l & H1 & H2 & H3 & H4 & H5 & H6).
  exists S, l. split; [done|]. split; [done|]. split; [done|]. split; [done|]. split; [done|]. intros v Hv. eexists. split; [by apply H6|].
  intros x Hx. destruct (layers_vec _ nonlin (layers l) x Hx) as (y & Hy & _ & Hrun). exists y. split; [done|]. unfold nn_conditional. by rewrite Hrun.
Qed.
(** Under an intervention only one row can be sampled, and only if every other node has exactly one parent. *)
Theorem C109_interventional o d layers nonlin noise S o' iv n m v : views_agree d → acyclic (d_arcs d) →
  rand_nn_functions o d layers nonlin noise = Ok S → scm_sample_interventional o' S iv n = Ok m →
  v ∈ d_nodes d → iv !! v = None → n = 1%nat ∧ size (parents d v) = 1%nat.
Proof.
  intros Hva Hac HS Hm Hv Hiv. destruct (nn_made o d layers nonlin noise Hva Hac) as (S' & l & H1 & H2 & H3 & H4 & H5 & H6); [set_solver|].
  rewrite HS in H1. injection H1 as <-. apply (sample_iv_iff S H2) in Hm as [_ Hm]. destruct (Hm v) as (cs & c & Hcs & Hmech & _); [by rewrite H3|].
  unfold mechanism in Hmech. rewrite Hiv in Hmech. destruct Hmech as (f & x & Hf & Hx & Hfill). rewrite (H6 v Hv) in Hf. injection Hf as <-.
  destruct (cond_mat (size (parents d l)) (layers l) nonlin (noise v) n cs) as [E|(cs' & Hl & E)]; rewrite E in Hx; [done|]. injection Hx as <-.
  destruct Hfill as [Hc (Hn & ll & Hll & Hcase)]. split; [done|]. subst n.
  assert (length cs' = 1%nat) as Hone.
  { replace (length cs') with (length ll) by (by rewrite Hll, fmap_length). destruct Hcase as [->|(q & -> & _)]; done. }
  apply Forall2_length in Hcs. rewrite <-Hone, Hl, <-Hcs. unfold pord. rewrite <-(size_list_to_set (C:=nset)) by apply NoDup_on. f_equal. apply set_eq. intros p.
  rewrite elem_of_list_to_set, elem_of_on. rewrite (proj1 Hva). rewrite <-H4. symmetry. apply (proj1 (proj1 H2)).
Qed.
(** Without an intervention sampling always raises, for every number of rows. *)
Theorem C109_raises o d layers nonlin noise S o' n : views_agree d → acyclic (d_arcs d) → d_nodes d ≠ ∅ →
  rand_nn_functions o d layers nonlin noise = Ok S → scm_sample o' S n = Raise ValueError.
Proof.
  intros Hva Hac Hne HS. destruct (nn_made o d layers nonlin noise Hva Hac Hne) as (S' & l & H1 & Hwf & H3 & H4 & H5 & H6).
  rewrite HS in H1. injection H1 as <-. pose proof Hwf as (Hva' & Hac' & Hnd & HL). unfold scm_sample.
  destruct (proj1 (C05_topological_sort (s_dag S) o' Hva') Hac') as (t & -> & Ht). cbn [res_bind].
  destruct t as [|v t]. { exfalso. apply Hne. apply set_eq. intros w. rewrite <-H3. destruct Ht as (_ & Hin & _). rewrite <-Hin. split; [by intros ?%elem_of_nil|set_solver]. }
  cbn [loopR]. assert (v ∈ d_nodes (s_dag S)) as Hv by (apply Ht; by left).
  assert (on o' [186%nat; v] (parents (s_dag S) v) = []) as Hps.
  { destruct (on o' [186%nat; v] (parents (s_dag S) v)) as [|p ps] eqn:Ep; [done|]. exfalso.
    assert ((p, v) ∈ d_arcs (s_dag S)) as Hp by (apply (proj1 Hva'); apply (elem_of_on o' [186%nat; v]); rewrite Ep; by left).
    destruct Ht as (_ & Hin & Hord). assert (p ∈ v :: t) as Hpt by (apply Hin; by apply Hva' in Hp as [? _]).
    apply elem_of_list_lookup in Hpt as [i Hi]. pose proof (Hord i 0%nat p v Hp Hi eq_refl). lia. }
  unfold scm_node. rewrite ix_map_pos by (done || by apply HL). rewrite Hps. cbn [ixs_in loopR res_bind]. rewrite (H6 v) by (by rewrite <-H3).
  cbn [cols_at loopR res_bind]. destruct (cond_mat (size (parents d l)) (layers l) nonlin (noise v) n []) as [->|(cs' & Hl & ->)]; [done|]. cbn [res_bind].
  apply nil_length_inv in Hl as ->. unfold put_col. rewrite decide_True.
  - cbn [fill]. destruct (decide (n = 1%nat)) as [->|]; done.
  - unfold zero_cols. rewrite replicate_length, (size_list S Hwf). eapply (cpos_lt (s_list S) (d_nodes (s_dag S)) HL v (replicate (length (s_list S)) [])) in Hv; [by rewrite replicate_length in Hv|by rewrite replicate_length].
Qed.

(** ** Examples and refutations *)

Definition fq (a : Z) (b : positive) : Qc := Q2Qc (QArith_base.Qmake a b).
Definition vee : dag := dag_of {[0; 1; 2]}%nat {[(0, 2); (1, 2)]}%nat.
Lemma vee_views : views_agree vee.
Proof. apply wf_views_agree. apply dag_of_wf. Qed.
(** Four Monte Carlo rows; all noises have the variance 1.  The function of the parent 1 doubles. *)
Definition vee_mc (v : node) : list Qc :=
  match v with 0%nat => [1; zq (-1); 1; zq (-1)] | 1%nat => [1; 1; zq (-1); zq (-1)] | _ => [1; zq (-1); zq (-1); 1] end.
Definition vee_bases (v : node) : list (Qc → Qc) := if decide (v = 2%nat) then [(λ x, x); (λ x, zq 2 * x)] else [].
Definition vee_weights (v : node) : list Qc := if decide (v = 2%nat) then [zq 3; zq 2] else [].
Definition vee_noise (v : node) (n : nat) : res (list Qc) := Ok (take n (vee_mc v)).
Definition vee_r2 : gmap nat Qc := {[2%nat := fq 9 25]}.
Definition table_sqrt (x : Qc) : Qc := if decide (x = fq 9 625) then fq 3 25 else if decide (x = fq 16 25) then fq 4 5 else x.
Definition vee_made : res (cam * gmap node (list Qc)) :=
  rand_additive_basis oracle0 vee vee_bases vee_weights vee_mc vee_noise vee_r2 false table_sqrt 4.
Example C109_example :
  views_agree vee ∧ acyclic (d_arcs vee) ∧ (∀ v, length (vee_mc v) = 4%nat) ∧
  (∀ v, v ∈ d_nodes vee → length (vee_weights v) = size (parents vee v) ∧ length (vee_bases v) = size (parents vee v)) ∧
  (∀ p v, (p, v) ∈ d_arcs vee → ∃ q, vee_r2 !! size (parents vee v) = Some q ∧ 0 <= q ∧ q <= 1) ∧
  (∀ x, x ∈ [1; fq 9 625; fq 16 25] → exact table_sqrt x) ∧
  ∃ C dict, vee_made = Ok (C, dict) ∧
    dict !! 0%nat = Some (vee_mc 0) ∧ dict !! 1%nat = Some (vee_mc 1) ∧
    dict !! 2%nat = Some [fq 41 25; fq (-17) 25; fq (-23) 25; fq (-1) 25] ∧
    cam_sample oracle0 C 4 = Ok [vee_mc 0; vee_mc 1; [fq 41 25; fq (-17) 25; fq (-23) 25; fq (-1) 25]] ∧
    variance ((λ i, fq 3 25 * signal (λ p x, if decide (p = 1%nat) then zq 2 * x else x) [zq 3; zq 2] [0; 1]%nat [vee_mc 0; vee_mc 1] i) <$> seq 0 4) = fq 9 25.
Proof.
  split; [apply vee_views|]. split; [by_vm|]. split; [intros [|[|v]]; done|]. split.
  { intros v Hv. assert (v = 0 ∨ v = 1 ∨ v = 2)%nat as Hc. { assert (d_nodes vee = {[0; 1; 2]}%nat) as E by by_vm. rewrite E in Hv. set_solver. }
    destruct Hc as [->|[->| ->]]; split; by_vm. }
  split.
  { intros p v Hp. exists (fq 9 25). assert (d_arcs vee = {[(0, 2); (1, 2)]}%nat) as E by by_vm. rewrite E in Hp.
    assert (v = 2%nat) as -> by set_solver. split; [by_vm|]. split; by_vm. }
  split. { intros x Hx. unfold exact. repeat (apply elem_of_cons in Hx as [->|Hx]; [by_vm|]). by apply elem_of_nil in Hx. }
  assert (match vee_made with Ok _ => true | Raise _ => false end = true) as Hok by (vm_compute; reflexivity).
  destruct vee_made as [[C dict]|] eqn:E; [|done]. clear Hok. exists C, dict. split; [done|].
  assert (Ok (C, dict) = vee_made) as E' by done. clear E.
  assert (dict = match vee_made with Ok (_, d) => d | _ => ∅ end) as -> by (by rewrite <-E').
  assert (cam_sample oracle0 C 4 = match vee_made with Ok (C, _) => cam_sample oracle0 C 4 | _ => Raise KeyError end) as -> by (by rewrite <-E'). clear E'.
  split; [by_vm|]. split; [by_vm|]. split; [by_vm|]. split; by_vm.
Qed.
(** The weights belong to positions and not to parents: if the set of parents is iterated in another order when sampling than it was
    when the coefficients were computed, the parents get the weights of each other, the same noise gives other samples, and
    the share of the variance is not the desired one. *)
Theorem C109_order_refuted : ∃ d bases weights mc noise r2 sq C dict f mu m m',
  views_agree d ∧ acyclic (d_arcs d) ∧ (∀ v, length (mc v) = 4%nat) ∧
  rand_additive_basis oracle0 d bases weights mc noise r2 false sq 4 = Ok (C, dict) ∧
  (∀ x, x ∈ [1; fq 9 625; fq 16 25] → exact sq x) ∧ r2 !! 2%nat = Some (fq 9 25) ∧
  on oracle0 [189; 2]%nat (parents d 2) = [0; 1]%nat ∧ on oracle_rev [187; 2]%nat (parents d 2) = [1; 0]%nat ∧
  cam_sample oracle0 C 4 = Ok m ∧ cam_sample oracle_rev C 4 = Ok m' ∧ m ≠ m' ∧
  cm_mean C !! 2%nat = Some f ∧ f [mc 1%nat; mc 0%nat] 4%nat [1; 0]%nat = Ok mu ∧ variance mu = fq 72 125.
Proof.
  destruct C109_example as (H1 & H2 & H3 & _ & _ & H6 & C & dict & HC & _ & _ & _ & Hs & _).
  destruct (C109_additive _ _ _ _ _ _ _ _ _ _ _ _ H1 H2 H3 HC) as (_ & _ & _ & Hv).
  destruct (Hv 2%nat) as (ps & cs & base & c & b & f & e & _ & _ & _ & [Hf _] & _); [by_vm|]. clear Hv.
  exists vee, vee_bases, vee_weights, vee_mc, vee_noise, vee_r2, table_sqrt, C, dict, f.
  assert (cam_sample oracle_rev C 4 = match vee_made with Ok (C, _) => cam_sample oracle_rev C 4 | _ => Raise KeyError end) as Hs' by (by rewrite HC).
  assert (f [vee_mc 1; vee_mc 0] 4%nat [1; 0]%nat = match vee_made with Ok (C, _) => match cm_mean C !! 2%nat with Some f => f [vee_mc 1; vee_mc 0] 4%nat [1; 0]%nat | None => Raise KeyError end | _ => Raise KeyError end) as Hf' by (by rewrite HC, Hf).
  eexists _, _, _. split; [done|]. split; [done|]. split; [done|]. split; [exact HC|]. split; [done|]. split; [by_vm|]. split; [by_vm|]. split; [by_vm|].
  split; [exact Hs|]. split; [rewrite Hs'; vm_compute; reflexivity|]. split; [by_vm|]. split; [done|]. split; [rewrite Hf'; vm_compute; reflexivity|]. by_vm.
Qed.
(** A missing value gives [KeyError] instead of the exception with the explanation: the handler only catches [ValueError]. *)
Theorem C109_key_error_refuted : ∃ d bases weights mc noise sq,
  views_agree d ∧ acyclic (d_arcs d) ∧ rand_additive_basis oracle0 d bases weights mc noise ∅ false sq 4 = Raise KeyError.
Proof. exists vee, vee_bases, vee_weights, vee_mc, vee_noise, table_sqrt. split; [apply vee_views|]. split; [by_vm|]. vm_compute. reflexivity. Qed.
(** In a chain of three nodes the node 1 does not get its own network. *)
Theorem C109_own_refuted : ∃ d layers S f x y, views_agree d ∧ acyclic (d_arcs d) ∧
  rand_nn_functions oracle0 d layers id (λ _, 0) = Ok S ∧ s_cond S !! 1%nat = Some f ∧
  length x = size (parents d 1) ∧ network (size (parents d 1)) id (layers 1%nat) x y ∧ f (Vec x) ≠ Ok (Vec y).
Proof.
  set (d := dag_of {[0; 1; 2]}%nat {[(0, 1); (1, 2)]}%nat). set (layers := λ (v : node), [(λ _ _, zq (Z.of_nat v)) : mat]).
  assert (views_agree d) as Hva by (apply wf_views_agree, dag_of_wf).
  destruct (nn_made oracle0 d layers id (λ _, 0) Hva) as (S & l & HS & _ & _ & _ & _ & Hc); [by_vm|by_vm|].
  exists d, layers, S. eexists. exists [1], [1]. split; [done|]. split; [by_vm|]. split; [done|]. split; [apply Hc; by_vm|]. split; [by_vm|]. split.
  { exists [1]. split; [|done]. split; [by_vm|]. intros i Hi. assert (i = 0%nat) as ->. { assert (size (parents d 1) = 1%nat) as E by by_vm. lia. } by_vm. }
  assert (match rand_nn_functions oracle0 d layers id (λ _, 0) with Ok T => match s_cond T !! 1%nat with Some f => match f (Vec [1]) with Ok (Vec [q]) => q | _ => 1 end | None => 1 end | _ => 1 end ≠ 1) as H by by_vm.
  rewrite HS, (Hc 1%nat) in H by by_vm. intros E. rewrite E in H. done.
Qed.
Example C109_network_example :
  views_agree vee ∧ acyclic (d_arcs vee) ∧ d_nodes vee ≠ ∅ ∧
  match rand_nn_functions oracle0 vee (λ v, [(λ _ _, 1) : mat]) id (λ _, 1) with
  | Ok T => scm_sample oracle0 T 2 = Raise ValueError ∧
    scm_sample_interventional oracle0 T {[0%nat := perfect_dist (PConst 1); 1%nat := perfect_dist (PConst 1)]} 2 = Raise ValueError
  | Raise _ => False
  end.
Proof.
  split; [apply vee_views|]. split; [by_vm|]. split; [by_vm|].
  destruct (nn_made oracle0 vee (λ v, [(λ _ _, 1) : mat]) id (λ _, 1) vee_views) as (S & l & HS & _); [by_vm|by_vm|]. rewrite HS.
  assert (match rand_nn_functions oracle0 vee (λ v, [(λ _ _, 1) : mat]) id (λ _, 1) with Ok T => scm_sample_interventional oracle0 T {[0%nat := perfect_dist (PConst 1); 1%nat := perfect_dist (PConst 1)]} 2 | Raise _ => Raise KeyError end = Raise ValueError) as H by by_vm.
  rewrite HS in H. split; [|done]. by apply (C109_raises oracle0 vee (λ v, [(λ _ _, 1) : mat]) id (λ _, 1)); [apply vee_views|by_vm|by_vm|].
Qed.

Print Assumptions C109_additive.
Print Assumptions C109_missing.
Print Assumptions C109_total.
Print Assumptions C109_network.
Print Assumptions C109_interventional.
Print Assumptions C109_raises.
Print Assumptions C109_order_refuted.
Print Assumptions C109_key_error_refuted.
Print Assumptions C109_own_refuted.
