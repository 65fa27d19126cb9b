(** Fitting discrete Bayesian networks to data. *)
From Coq Require Import QArith.Qcanon Field.
From Verif Require Import Py Spec DagModel QMatModel DiscreteModel DiscreteSampleModel DiscreteFitModel SpecDiscrete SpecFit TopoProofs StateProofs ReachProofs QueryProofs CoreProofs MarkovProofs QMatProofs PropertiesDag DiscreteProofs SampleProofs QcTac FitProofs.
#[local] Open Scope Qc_scope.

(** ** C101: [fit] with the methods ["mle"] and ["add_one_mle"] *)
Section fitted.
  Context (o : oracle) (ord : list (list Z) → list (list Z)) (d : dag) (w : nat) (data : list row) (add_one : bool) (alpha : Qc).
  Context (n2p : option (gmap node (list node))) (al : option (gmap node (list Qc))).
  Context (Hord : ∀ l, ord l ≡ₚ l) (Hwf : wf d) (Hac : acyclic (d_arcs d)) (Hu : usable d w data)
    (Hm : ∀ m, n2p = Some m → parents_listed d m) (Hal : ∀ m, al = Some m → alphabets_cover d m data).
  Lemma fit_found : ∃ m a D, fit o ord d w data n2p al add_one alpha = Ok D ∧ parents_listed d m ∧ alphabets_cover d a data ∧
    (∀ m', n2p = Some m' → m = m') ∧ (∀ a', al = Some a' → a = a') ∧
    (al = None → ∀ v, v ∈ d_nodes d → ∃ r z, r ∈ data ∧ r !! v = Some z ∧ size_of a v = S (Z.to_nat z)) ∧
    wf (dd_dag D) ∧ d_nodes (dd_dag D) = d_nodes d ∧ d_arcs (dd_dag D) = d_arcs d ∧ dd_par D = m ∧ dd_alph D = a ∧
    ∀ v, v ∈ d_nodes d → ∃ c, dd_cond D !! v = Some c ∧ table_ok data add_one alpha m a v c.
  Proof using Hord Hwf Hac Hu Hm Hal.
    unfold fit. assert (parents_listed d (default (found_parents o d) n2p)) as Hm'.
    { destruct n2p as [m|]; [by apply Hm|by apply found_parents_listed]. }
    assert (∃ a, (match al with Some m => Ok m | None => found_alphabets o d w data end) = Ok a ∧ alphabets_cover d a data ∧ (∀ a', al = Some a' → a = a') ∧
      (al = None → ∀ v, v ∈ d_nodes d → ∃ r z, r ∈ data ∧ r !! v = Some z ∧ size_of a v = S (Z.to_nat z))) as (a & -> & Ha & Ha1 & Ha2).
    { destruct al as [a|]; [exists a; split; [done|]; split; [by apply Hal|]; split; [by intros a' [= ->]|done]|].
      destruct (found_alphabets_spec o d w data Hu) as (a & -> & H1 & H2). exists a. split; [done|]. split; [done|]. split; [done|]. intros _. exact H2. }
    cbn [res_bind]. destruct (fit_core o ord d w data add_one alpha _ a Hord Hwf Hac Hu Hm' Ha) as (D & -> & H1 & H2 & H3 & H4 & H5 & H6).
    exists (default (found_parents o d) n2p), a, D. do 3 (split; [done|]). split; [by intros m' ->|]. do 2 (split; [done|]). done.
  Qed.
  Context (Halpha : add_one = true → 0 <= alpha).
  Lemma alpha_nonneg : 0 <= alpha_of add_one alpha.
  Proof using Halpha. destruct add_one; cbn; [by apply Halpha|apply Qcle_refl]. Qed.
  Lemma fit_facts m a D : fit o ord d w data n2p al add_one alpha = Ok D → parents_listed d m → alphabets_cover d a data →
    wf (dd_dag D) → d_nodes (dd_dag D) = d_nodes d → d_arcs (dd_dag D) = d_arcs d → dd_par D = m → dd_alph D = a →
    (∀ v, v ∈ d_nodes d → ∃ c, dd_cond D !! v = Some c ∧ table_ok data add_one alpha m a v c) →
    ddag_wf D ∧ (∀ v ps (x : assignment), dd_par D !! v = Some ps → (x !!! v < card D v)%nat →
      prob D x v = estimate add_one alpha (card D v) (occurs ps x data) (occurs (ps ++ [v]) x data)).
  Proof using Hord Hwf Hac Hu.
    intros E H1 H2 H3 H4 H5 <- <- H6. assert (∀ v, card D v = size_of (dd_alph D) v) as Hcard by done. split.
    - split; [by apply wf_views_agree|]. split; [by rewrite H5|]. intros v Hv. rewrite H4 in Hv.
      destruct (H6 v Hv) as (c & Ec & Hc). assert (is_Some (dd_par D !! v)) as [ps Eps] by (by apply H1).
      destruct (al_at d w data (dd_alph D) Hu H2 v Hv) as [Ea _]. exists (al_of (size_of (dd_alph D) v)), ps, c. do 3 (split; [done|]).
      destruct H1 as [_ H1]. destruct (H1 v ps Eps) as [Hnd Hps]. split; [done|]. split; [intros p; by rewrite H5|]. by destruct (Hc ps Eps).
    - intros v ps x Eps Hx. destruct (H6 v) as (c & Ec & Hc); [apply H1; by eexists|]. unfold prob. rewrite Ec, Eps.
      destruct (Hc ps Eps) as [_ Hat]. rewrite Hat by done. done.
  Qed.
  Lemma fit_stochastic D : ddag_wf D → d_nodes (dd_dag D) = d_nodes d → alphabets_cover d (dd_alph D) data → parents_listed d (dd_par D) →
    (∀ v ps (x : assignment), dd_par D !! v = Some ps → (x !!! v < card D v)%nat →
      prob D x v = estimate add_one alpha (card D v) (occurs ps x data) (occurs (ps ++ [v]) x data)) →
    stochastic D ∧ nonneg D.
  Proof using Hwf Hac Hu Halpha.
    intros HD HN Ha Hp Hpr. pose proof alpha_nonneg as Hα. set (α := alpha_of add_one alpha) in *.
    assert (∀ v, v ∈ d_nodes d → (0 < card D v)%nat) as Hpos by (intros v Hv; by apply (size_pos d w data (dd_alph D) Hu Ha)).
    assert (∀ np K, np ≠ 0%nat → 0 < qn np + α * qn K) as Hden.
    { intros np K Hnp. assert (0 < qn np) as P1 by (apply qn_pos; lia). pose proof (qn_nonneg K) as P2.
      set (u := qn np) in *. set (z := qn K) in *. clearbody u z α. qnra. }
    split.
    - intros v ps x Hv Eps Hx. rewrite HN in Hv. assert (∀ p, p ∈ ps → p ∈ d_nodes d) as HpsN by (intros p Hp'; by apply (par_in d (dd_par D) Hwf Hp v ps)).
      assert (v ∉ ps) as Hvps.
      { intros Hvp. destruct Hp as [_ Hp]. apply (Hp v ps Eps) in Hvp. apply (Hac v). by apply tc_once. }
      assert (∀ k, occurs ps (<[v:=k]> x) data = occurs ps x data) as Hocc.
      { intros k. unfold occurs. f_equal. apply filter_length_ext. intros r _. rewrite !Forall_forall. split; intros H p Hp'; rewrite (H p Hp'), ins_other; (done || (intros ->; done)). }
      transitivity (qsum (card D v) (λ k, estimate add_one alpha (card D v) (occurs ps x data) (occurs (ps ++ [v]) (<[v:=k]> x) data))).
      { apply qsum_ext. intros k Hk. rewrite (Hpr v ps) by (rewrite ?ins_same; done). by rewrite Hocc. }
      unfold estimate. fold α. case_decide as H0.
      + assert (∀ K, qsum K (λ _, / qn (card D v)) = qn K * / qn (card D v)) as ->.
        { induction K as [|K IH]; cbn [qsum]; [change (qn 0) with 0; ring|]. rewrite qn_S, IH. ring. }
        apply Qcmult_inv_r. by apply qn_ne, Hpos.
      + transitivity (qsum (card D v) (λ k, (qn (hits (filter (λ r : row, cell r <$> ps = Z.of_nat <$> vals x ps) data) v k) + α) * / (qn (occurs ps x data) + α * qn (card D v)))).
        { apply qsum_ext. intros k Hk. rewrite <-(hits_occurs d w data Hu ps (<[v:=k]> x) v) by done. rewrite ins_same.
          assert (vals (<[v:=k]> x) ps = vals x ps) as ->; [|done]. apply vals_ext. intros p Hp'. apply ins_other. by intros ->. }
        rewrite qsum_mul_r, qsum_add, hits_sum.
        * assert (∀ K, qsum K (λ _, α) = α * qn K) as ->.
          { induction K as [|K IH]; cbn [qsum]; [change (qn 0) with 0; ring|]. rewrite qn_S, IH. ring. }
          rewrite (sub_occurs d w data Hu ps x HpsN). unfold occurs at 1. apply Qcmult_inv_r. intros E0. specialize (Hden (occurs ps x data) (card D v) H0).
          unfold occurs in *. rewrite E0 in Hden. by destruct (Qclt_not_eq _ _ Hden).
        * intros r [_ Hr]%elem_of_list_filter. by apply (al_at d w data (dd_alph D) Hu Ha v Hv).
    - intros v ps x Hv Eps Hx. rewrite HN in Hv. rewrite (Hpr v ps) by (try done; apply Hx, elem_of_app; right; by left). unfold estimate. fold α. case_decide as H0.
      + apply Qclt_le_weak, Qc_inv_pos'. by apply qn_pos, Hpos.
      + pose proof (Qc_inv_pos' _ (Hden (occurs ps x data) (card D v) H0)) as P. pose proof (qn_nonneg (occurs (ps ++ [v]) x data)) as P2. unfold Qcdiv.
        set (u := / _) in *. set (z := qn (occurs _ _ _)) in *. clearbody u z α. qnra.
  Qed.
End fitted.

(** The fitted network has the given graph.  The probability of a value of a node, given values of its parents, is the fraction of
    the rows with these parent values that have the value, each value counted [alpha] additional times with ["add_one_mle"].
    Parent values that do not occur give the uniform distribution.  Alphabets that are not given reach to the largest value. *)
Theorem C101_fit (o : oracle) (ord : list (list Z) → list (list Z)) (d : dag) (w : nat) (data : list row)
    (n2p : option (gmap node (list node))) (al : option (gmap node (list Qc))) (add_one : bool) (alpha : Qc) :
  (∀ l, ord l ≡ₚ l) → views_agree d → acyclic (d_arcs d) → usable d w data →
  (∀ m, n2p = Some m → parents_listed d m) → (∀ m, al = Some m → alphabets_cover d m data) → (add_one = true → 0 <= alpha) →
  ∃ D, fit o ord d w data n2p al add_one alpha = Ok D ∧ ddag_wf D ∧ stochastic D ∧ nonneg D ∧
    d_nodes (dd_dag D) = d_nodes d ∧ d_arcs (dd_dag D) = d_arcs d ∧
    (∀ m, n2p = Some m → dd_par D = m) ∧ (∀ m, al = Some m → dd_alph D = m) ∧
    (∀ v, v ∈ d_nodes d → plain D v ∧
      (al = None → (∀ r z, r ∈ data → r !! v = Some z → (z < Z.of_nat (card D v))%Z) ∧ ∃ r z, r ∈ data ∧ r !! v = Some z ∧ card D v = S (Z.to_nat z))) ∧
    ∀ v ps a, dd_par D !! v = Some ps → in_range D (ps ++ [v]) a →
      (occurs ps a data = 0%nat → prob D a v = / qz (Z.of_nat (card D v))) ∧
      (occurs ps a data ≠ 0%nat →
        let α := if add_one then alpha else 0 in
        prob D a v = (qz (Z.of_nat (occurs (ps ++ [v]) a data)) + α) / (qz (Z.of_nat (occurs ps a data)) + α * qz (Z.of_nat (card D v)))).
Proof.
  intros Hord Hv Hac Hu Hm Hal Hα. apply wf_views_agree in Hv.
  destruct (fit_found o ord d w data add_one alpha n2p al Hord Hv Hac Hu Hm Hal) as (m & a & D & E & H1 & H2 & H3 & H4 & H5 & H6 & H7 & H8 & H9 & H10 & H11).
  destruct (fit_facts o ord d w data add_one alpha n2p al Hord Hv Hac Hu m a D E H1 H2 H6 H7 H8 H9 H10 H11) as [Hwf Hpr]. subst m a.
  destruct (fit_stochastic d w data add_one alpha Hv Hac Hu Hα D Hwf H7 H2 H1 Hpr) as [Hst Hnn].
  exists D. do 6 (split; [done|]). do 2 (split; [done|]). split.
  - intros v Hin. destruct (H2 v Hin) as (k & Ek & Hk). assert (card D v = k) as Hck by (unfold card; rewrite Ek; cbn; by rewrite fmap_length, seq_length).
    split; [unfold plain; by rewrite Hck|]. intros Hn. split; [intros r z Hr Hz; rewrite Hck; by eapply Hk|]. by apply H5.
  - intros v ps x Eps Hx. rewrite (Hpr v ps) by (try done; apply Hx, elem_of_app; right; by left). unfold estimate.
    split; intros H; [by rewrite decide_True|by rewrite decide_False].
Qed.

(** Among all networks with the same graph and alphabets, the one found by ["mle"] makes the data most likely. *)
Theorem C101_max_likelihood (o : oracle) (ord : list (list Z) → list (list Z)) (d : dag) (w : nat) (data : list row)
    (n2p : option (gmap node (list node))) (al : option (gmap node (list Qc))) (alpha : Qc) (D E : ddag) :
  (∀ l, ord l ≡ₚ l) → views_agree d → acyclic (d_arcs d) → usable d w data →
  (∀ m, n2p = Some m → parents_listed d m) → (∀ m, al = Some m → alphabets_cover d m data) →
  fit o ord d w data n2p al false alpha = Ok D → ddag_wf E → stochastic E → nonneg E → same_shape D E →
  likelihood E data <= likelihood D data.
Proof.
  intros Hord Hv Hac Hu Hm Hal E0 HE Hst Hnn (HN & HA & Hc). apply wf_views_agree in Hv.
  destruct (fit_found o ord d w data false alpha n2p al Hord Hv Hac Hu Hm Hal) as (m & a & D' & E' & H1 & H2 & H3 & H4 & H5 & H6 & H7 & H8 & H9 & H10 & H11).
  rewrite E0 in E'. injection E' as <-.
  destruct (fit_facts o ord d w data false alpha n2p al Hord Hv Hac Hu m a D E0 H1 H2 H6 H7 H8 H9 H10 H11) as [Hwf Hpr]. subst m a.
  apply (max_likelihood (d_nodes d) data D E) with (par := λ v, default [] (dd_par D !! v)); try done; [congruence| | |].
  - intros r v Hr Hin. destruct (get_cell d w data Hu r v Hr Hin) as (z & Hz & Hz0 & Hcl). exists z. split; [done|]. split; [done|].
    rewrite <-Hc by congruence. destruct (al_at d w data (dd_alph D) Hu H2 v Hin) as [_ Hb]. specialize (Hb r Hr). rewrite Hcl in Hb. by destruct Hb.
  - intros v p Hin. assert (is_Some (dd_par D !! v)) as [ps Eps] by (by apply H1). rewrite Eps. cbn. destruct H1 as [_ H1]. rewrite <-HA, H8. by apply (H1 v ps).
  - intros r v Hr Hin. assert (is_Some (dd_par D !! v)) as [ps Eps] by (by apply H1). rewrite Eps. cbn [default].
    assert (row_asg r !!! v < card D v)%nat as Hb.
    { destruct (al_at d w data (dd_alph D) Hu H2 v Hin) as [_ Hb]. specialize (Hb r Hr). destruct (get_cell d w data Hu r v Hr Hin) as (z & Hz & Hz0 & Hcl).
      rewrite Hcl in Hb. rewrite (row_asg_lookup r v z Hz). unfold card, size_of in *. lia. }
    rewrite (Hpr v ps) by done. unfold estimate. rewrite decide_False.
    + cbn [alpha_of]. unfold id. f_equal; [ring|]. f_equal. ring.
    + assert (occurs ps (row_asg r) data = length (filter (alike ps r) data)) as ->.
      { apply (occurs_alike (d_nodes d) data E); [|done|].
        - intros r' v' Hr' Hin'. destruct (get_cell d w data Hu r' v' Hr' Hin') as (z & Hz & Hz0 & Hcl). exists z. split; [done|]. split; [done|].
          rewrite <-Hc by congruence. destruct (al_at d w data (dd_alph D) Hu H2 v' Hin') as [_ Hb']. specialize (Hb' r' Hr'). rewrite Hcl in Hb'. by destruct Hb'.
        - intros p Hp. by apply (par_in d (dd_par D) Hv H1 v ps). }
      pose proof (alike_len_pos data ps r Hr) as Hp. intros E1. apply (f_equal (λ n : nat, (0 < n)%nat)) in E1. cbn in E1. assert (0 < 0)%nat by (by rewrite <-E1). lia.
Qed.

Lemma ex_nodes2 v : v ∈ d_nodes (dag_of {[0; 1]}%nat {[(0, 1)]}%nat) → v = 0%nat ∨ v = 1%nat.
Proof. assert (d_nodes (dag_of {[0; 1]}%nat {[(0, 1)]}%nat) = {[0; 1]}%nat) as -> by by_vm. set_solver. Qed.
Lemma ex_nodes3 v : v ∈ d_nodes (dag_of {[0; 1; 2]}%nat {[(0, 1); (1, 2)]}%nat) → (v < 3)%nat.
Proof. assert (d_nodes (dag_of {[0; 1; 2]}%nat {[(0, 1); (1, 2)]}%nat) = {[0; 1; 2]}%nat) as -> by by_vm. rewrite !elem_of_union, !elem_of_singleton. lia. Qed.
Lemma ex_two {A} (x y r : A) : r ∈ [x; y] → r = x ∨ r = y.
Proof. rewrite !elem_of_cons, elem_of_nil. naive_solver. Qed.

(** Alphabets that are not [0, 1, ...] are not respected: the tables are indexed by the values of the parents, not by their places
    in the alphabet.  Here the first node has the alphabet [1, 0], and the fitted network makes certain what never occurs. *)
Theorem C101_alphabet_order_refuted : ∃ (d : dag) (data : list row) (al : gmap node (list Qc)) (D : ddag) (a : assignment),
  views_agree d ∧ acyclic (d_arcs d) ∧ usable d 2 data ∧
  (∀ v l, v ∈ d_nodes d → al !! v = Some l → NoDup l ∧ ∀ r z, r ∈ data → r !! v = Some z → qz z ∈ l) ∧
  fit oracle0 id d 2 data None (Some al) false 1 = Ok D ∧ dd_par D !! 1%nat = Some [0%nat] ∧
  (∃ l0 l1, dd_alph D !! 0%nat = Some l0 ∧ dd_alph D !! 1%nat = Some l1 ∧ l0 !! (a !!! 0%nat) = Some (qz 1) ∧ l1 !! (a !!! 1%nat) = Some (qz 0)) ∧
  prob D a 1%nat = 1 ∧ ∀ r, r ∈ data → r !! 0%nat = Some 1%Z → r !! 1%nat ≠ Some 0%Z.
Proof.
  set (d := dag_of {[0; 1]}%nat {[(0, 1)]}%nat). set (data := [[0; 0]; [1; 1]]%Z : list row).
  set (al := {[0%nat := [qz 1; qz 0]; 1%nat := [qz 0; qz 1]]} : gmap node (list Qc)).
  destruct (fit oracle0 id d 2 data None (Some al) false 1) as [D|e] eqn:E; [|vm_compute in E; discriminate].
  exists d, data, al, D, ({[0 := 0; 1 := 0]}%nat : assignment).
  split; [apply wf_views_agree, dag_of_wf|]. split; [apply acyclicb_spec; vm_compute; reflexivity|]. split.
  { split; [done|]. split; [intros v [-> | ->]%ex_nodes2; lia|].
    intros r Hr. assert (r = [0; 0]%Z ∨ r = [1; 1]%Z) as [-> | ->] by (by apply ex_two);
      (split; [done|]); intros v z _ Hz; destruct v as [|[|v]]; cbn in Hz; try done; injection Hz as <-; lia. }
  split.
  { intros v l Hv Hl. pose proof (ex_nodes2 v Hv) as Hv'.
    assert (NoDup [qz 1; qz 0] ∧ NoDup [qz 0; qz 1]) as [N1 N2] by (split; apply (bool_decide_eq_true _); vm_compute; reflexivity).
    assert (l = [qz 1; qz 0] ∨ l = [qz 0; qz 1]) as Hl2.
    { destruct Hv' as [-> | ->]; [left|right]; vm_compute in Hl; injection Hl as <-; apply (bool_decide_eq_true _); vm_compute; reflexivity. }
    split; [by destruct Hl2 as [-> | ->]|]. intros r z Hr Hz.
    assert (z = 0 ∨ z = 1)%Z as Hz2.
    { assert (r = [0; 0]%Z ∨ r = [1; 1]%Z) as [-> | ->] by (by apply ex_two); destruct v as [|[|v]]; cbn in Hz; try done; injection Hz as <-; auto. }
    destruct Hl2 as [-> | ->], Hz2 as [-> | ->]; clear; set_solver. }
  split; [done|].
  assert (match fit oracle0 id d 2 data None (Some al) false 1 with Ok D => bool_decide (dd_par D !! 1%nat = Some [0%nat] ∧
    dd_alph D !! 0%nat = Some [qz 1; qz 0] ∧ dd_alph D !! 1%nat = Some [qz 0; qz 1] ∧ prob D ({[0 := 0; 1 := 0]}%nat : assignment) 1%nat = 1) | Raise _ => false end = true) as H
    by (vm_compute; reflexivity).
  rewrite E in H. apply bool_decide_eq_true in H as (H1 & H2 & H3 & H4). split; [done|]. split; [by eexists _, _|]. split; [done|].
  intros r Hr Hr0 Hr1. assert (r = [0; 0]%Z ∨ r = [1; 1]%Z) as [-> | ->] by (by apply ex_two); done.
Qed.
(** Values that are not places of the alphabet end in an error: here all values of the first node are in the alphabet [1, 2]. *)
Theorem C101_alphabet_range_refuted : ∃ (d : dag) (data : list row) (al : gmap node (list Qc)),
  views_agree d ∧ acyclic (d_arcs d) ∧ usable d 2 data ∧
  al !! 0%nat = Some [qz 1; qz 2] ∧ al !! 1%nat = Some [qz 0; qz 1] ∧ data = [[1; 0]; [2; 1]]%Z ∧ d_nodes d = {[0; 1]}%nat ∧
  fit oracle0 id d 2 data None (Some al) false 1 = Raise IndexError.
Proof.
  exists (dag_of {[0; 1]}%nat {[(0, 1)]}%nat), ([[1; 0]; [2; 1]]%Z : list row), ({[0%nat := [qz 1; qz 2]; 1%nat := [qz 0; qz 1]]} : gmap node (list Qc)).
  split; [apply wf_views_agree, dag_of_wf|]. split; [apply acyclicb_spec; vm_compute; reflexivity|]. split.
  { split; [done|]. split; [intros v [-> | ->]%ex_nodes2; lia|].
    intros r Hr. assert (r = [1; 0]%Z ∨ r = [2; 1]%Z) as [-> | ->] by (by apply ex_two);
      (split; [done|]); intros v z _ Hz; destruct v as [|[|v]]; cbn in Hz; try done; injection Hz as <-; lia. }
  do 3 (split; [done|]). split; [apply (bool_decide_eq_true _); vm_compute; reflexivity|]. vm_compute. reflexivity.
Qed.

(** Four rows over [0 → 1 → 2]; the pair of values (0, 1) does not occur in columns 1 and 2. *)
Definition ex_fit_data : list row := [[0; 0; 0]; [0; 1; 1]; [1; 1; 2]; [1; 1; 1]; [1; 1; 1]]%Z.
Example C101_fit_ex :
  match fit oracle0 reverse (dag_of {[0; 1; 2]}%nat {[(0, 1); (1, 2)]}%nat) 3 ex_fit_data None None false 1 with
  | Ok D => bool_decide (card D 0%nat = 2%nat ∧ card D 2%nat = 3%nat ∧
      prob D ({[0 := 1; 1 := 1; 2 := 2]}%nat : assignment) 0%nat = qz 3 / qz 5 ∧ prob D ({[0 := 0; 1 := 1; 2 := 2]}%nat : assignment) 1%nat = qz 1 / qz 2 ∧
      prob D ({[0 := 0; 1 := 1; 2 := 2]}%nat : assignment) 2%nat = qz 1 / qz 4 ∧ likelihood D ex_fit_data = qz 729 / qz 800000)
  | Raise _ => false end = true ∧
  match fit oracle0 reverse (dag_of {[0; 1; 2]}%nat {[(0, 1); (1, 2)]}%nat) 3 ex_fit_data None None true 1 with
  | Ok D => bool_decide (prob D ({[0 := 0; 1 := 1; 2 := 2]}%nat : assignment) 2%nat = qz 2 / qz 7 ∧ prob D ({[0 := 1; 1 := 0; 2 := 2]}%nat : assignment) 1%nat = qz 1 / qz 5)
  | Raise _ => false end = true ∧ usable (dag_of {[0; 1; 2]}%nat {[(0, 1); (1, 2)]}%nat) 3 ex_fit_data.
Proof.
  split; [vm_compute; reflexivity|]. split; [vm_compute; reflexivity|].
  split; [done|]. split.
  - apply ex_nodes3.
  - assert (Forall (λ r : row, length r = 3%nat ∧ Forall (λ z : Z, 0 <= z)%Z r) ex_fit_data) as H by (apply (bool_decide_eq_true _); vm_compute; reflexivity).
    rewrite Forall_forall in H. intros r Hr. destruct (H r Hr) as [H1 H2]. split; [done|]. intros v z _ Hz. rewrite Forall_forall in H2. apply H2. by eapply elem_of_list_lookup_2.
Qed.

Print Assumptions C101_fit.
Print Assumptions C101_max_likelihood.
Print Assumptions C101_alphabet_order_refuted.
Print Assumptions C101_alphabet_range_refuted.
