(** Proofs about linear models under interventions. *)
From Coq Require Import QArith.Qcanon Field.
From Verif Require Import Py Spec DagModel QMatModel GaussModel TopoProofs StateProofs ReachProofs CoreProofs MarkovProofs QMatProofs PropertiesDag GaussProofs GaussLoops PropertiesGauss PropertiesGauss2 GaussIvModel SpecGaussIv.
#[local] Open Scope Qc_scope.

#[local] Instance usable_dec soft d : Decision (usable soft d).
Proof. destruct d; cbn; apply _. Defined.

Section giv.
  Context (g : gauss) (n : nat) (Hg : gauss_wf g) (Hl : g_list g = seq 0 n) (Hac : acyclic (d_arcs (g_dag g))).

  Lemma inflow_w x v : (v < n)%nat → inflow g n x v = qsum n (λ u, g_w g u v * x u).
  Proof using Hg Hl. intros Hv. apply qsum_ext. intros u Hu. by rewrite (lab_weight g n Hg Hl). Qed.
  Lemma inflow_local v x y : (v < n)%nat → (∀ u, (u, v) ∈ d_arcs (g_dag g) → x u = y u) → inflow g n x v = inflow g n y v.
  Proof using Hg.
    intros Hv H. apply qsum_ext. intros u Hu. destruct (decide (weight g u v = 0)) as [->|Hne]; [ring|]. f_equal. apply H.
    destruct Hg as (_ & _ & _ & _ & HA). by apply HA.
  Qed.
  Lemma from_parents_ok o k v x : (v < n)%nat →
    res_bind (ixs_of g (on o k (parents (g_dag g) v))) (λ ps, from_parents g ps v x) = Ok (inflow g n x v).
  Proof using Hg Hl.
    intros Hv. rewrite inflow_w by done. pose proof (lab_dot g n Hg Hl o k v x Hv) as Hdot.
    destruct (ixs_of g (on o k (parents (g_dag g) v))) as [ps|]; [|done]. cbn [res_bind] in *. injection Hdot as Hdot. unfold from_parents.
    destruct (decide (ps = [])) as [->|]; [by rewrite <-Hdot|]. rewrite (lab_dim g n Hl), decide_True by done. by rewrite Hdot.
  Qed.

  (** Solutions are determined by the noise. *)
  Lemma giv_unique noise iv x y : giv_solves g n noise iv x → giv_solves g n noise iv y → ∀ v, (v < n)%nat → x v = y v.
  Proof using Hg Hl Hac.
    intros Hx Hy. pose proof (lab_wf g Hg) as Hwf.
    destruct (exists_topo (d_nodes (g_dag g)) (d_arcs (g_dag g)) Hac) as (t & Hnd & Hin & Hord). { intros a b H. by apply (wf_over _ Hwf). }
    assert (∀ k v, t !! k = Some v → x v = y v) as H.
    { intros k. induction (lt_wf k) as [k _ IH]. intros v Hv. assert (v < n)%nat as Hvn.
      { apply (lab_node g n Hg Hl), Hin. by eapply elem_of_list_lookup_2. }
      assert (inflow g n x v = inflow g n y v) as Heq.
      { apply inflow_local; [done|]. intros u Hu. assert (u ∈ t) as [k' Hk']%elem_of_list_lookup. { apply Hin. by apply (wf_over _ Hwf) in Hu as [? _]. }
        eapply IH; [|exact Hk']. by eapply Hord. }
      specialize (Hx v Hvn). specialize (Hy v Hvn). unfold giv_equation in Hx, Hy. destruct (iv !! v) as [[s e|f m e|c]|].
      - by rewrite Hx, Hy, Heq.
      - destruct Hx as (m1 & -> & ->), Hy as (m2 & [= <-] & ->). by rewrite Heq.
      - by rewrite Hx, Hy.
      - by rewrite Hx, Hy, Heq. }
    intros v Hv. apply (lab_node g n Hg Hl), Hin, elem_of_list_lookup in Hv as [k Hk]. by eapply H.
  Qed.

  Context (soft : bool) (o : oracle) (iv : gmap node gdist) (dev : vec).
  Hypothesis Hbias : length (g_bias g) = n.
  Definition noise_of : vec := λ v, if soft then dev v else dev v + vec_of (g_bias g) v.
  Definition rhs (v : node) (x : vec) : Qc :=
    match iv !! v with
    | None => inflow g n x v + noise_of v
    | Some (GShift s e) => inflow g n x v + vec_of (g_bias g) v + s + e
    | Some (GScale f m e) => f * inflow g n x v + default 0 m + e
    | Some (GPerfect c) => c
    end.
  Lemma giv_node_ok v x : (v < n)%nat → (∀ d, iv !! v = Some d → usable soft d) → giv_node soft o g iv dev v x = Ok (vupd x v (rhs v x)).
  Proof using Hg Hl Hbias.
    intros Hv Hu. unfold giv_node, rhs. assert (g_ix g !! v = Some v) as -> by (by apply (lab_ix g n Hg Hl)).
    pose proof (from_parents_ok o [190%nat; v] v x Hv) as Hfp. destruct (ixs_of g (on o [190%nat; v] (parents (g_dag g) v))) as [ps|]; [|done].
    cbn [res_bind] in *. destruct (iv !! v) as [[s e|f m e|c]|] eqn:Ei.
    - unfold shift_gauss. assert (is_Some (g_bias g !! v)) as [b Hb] by (apply lookup_lt_is_Some; lia). unfold vec_of. rewrite Hb, Hfp. cbn [res_bind default from_option id]. do 2 f_equal. ring.
    - specialize (Hu _ eq_refl). cbn in Hu. destruct m as [m|]; [|done]. unfold scale_gauss. rewrite Hfp. cbn [res_bind default from_option id]. do 2 f_equal. ring.
    - specialize (Hu _ eq_refl). cbn in Hu. by rewrite Hu.
    - rewrite Hfp. cbn [res_bind]. by unfold noise_of.
  Qed.
  Lemma giv_node_bad v x d : (v < n)%nat → iv !! v = Some d → ¬ usable soft d → giv_node soft o g iv dev v x = Raise TypeError.
  Proof using Hg Hl Hbias.
    intros Hv Hd Hu. unfold giv_node. assert (g_ix g !! v = Some v) as -> by (by apply (lab_ix g n Hg Hl)).
    pose proof (from_parents_ok o [190%nat; v] v x Hv) as Hfp. destruct (ixs_of g (on o [190%nat; v] (parents (g_dag g) v))) as [ps|]; [|done].
    cbn [res_bind] in *. rewrite Hd. destruct d as [s e|f [m|] e|c]; cbn in Hu; [tauto|exfalso; by apply Hu|done|]. by destruct soft.
  Qed.

  Hypothesis Hlen : soft = true ∨ length (g_var g) = n.
  Lemma giv_row_loop : ∃ t, topo_order (d_nodes (g_dag g)) (d_arcs (g_dag g)) t ∧ giv_row soft o g iv dev = loopR (giv_node soft o g iv dev) t (λ _, 0).
  Proof using Hg Hl Hac Hbias Hlen.
    pose proof (lab_wf g Hg) as Hwf. unfold giv_row. rewrite decide_False.
    2:{ rewrite (lab_size g n Hg Hl), Hbias. intros [Hs Hor]. destruct Hlen as [Ht|Ht]; [congruence|]. tauto. }
    pose proof (topological_sort_spec (g_dag g) o Hwf) as Ht. destruct (topological_sort (g_dag g) o) as [t|e]; [by exists t|].
    destruct Ht as (w & _ & Hw). by apply closes_cycle_not_acyclic in Hw.
  Qed.
  Lemma giv_row_ok : (∀ v d, (v < n)%nat → iv !! v = Some d → usable soft d) →
    ∃ x, giv_row soft o g iv dev = Ok x ∧ giv_solves g n noise_of iv x.
  Proof using Hg Hl Hac Hbias Hlen.
    intros Hu. destruct giv_row_loop as (t & (Hnd & Hin & Hord) & ->).
    assert (∀ v, v ∈ t → (v < n)%nat) as Hr by (intros v Hv; by apply (lab_node g n Hg Hl), Hin).
    rewrite (loopR_foldl _ (λ v x, vupd x v (rhs v x))). 2:{ intros v x Hv%Hr. apply giv_node_ok; [done|]. intros d. by apply Hu. }
    set (x := foldl _ _ _). exists x. split; [done|]. intros v Hv.
    assert (x v = rhs v x) as HX.
    { unfold x. apply (topo_loop (d_arcs (g_dag g)) t rhs); [done|done| |by apply Hin, (lab_node g n Hg Hl)].
      intros w y z Hw%Hr Hyz. unfold rhs. by rewrite (inflow_local w y z Hw Hyz). }
    unfold giv_equation. unfold rhs in HX. pose proof (Hu v) as Huv. destruct (iv !! v) as [[s e|f m e|c]|]; try done.
    specialize (Huv _ Hv eq_refl). cbn in Huv. destruct m as [m|]; [|done]. by exists m.
  Qed.
  Lemma giv_row_bad v d : (v < n)%nat → iv !! v = Some d → ¬ usable soft d → giv_row soft o g iv dev = Raise TypeError.
  Proof using Hg Hl Hac Hbias Hlen.
    intros Hv Hd Hu. destruct giv_row_loop as (t & (Hnd & Hin & Hord) & ->).
    assert (∀ v, v ∈ t → (v < n)%nat) as Hr by (intros w Hw; by apply (lab_node g n Hg Hl), Hin).
    assert (v ∈ t) as Hvt by (by apply Hin, (lab_node g n Hg Hl)). clear Hnd Hin Hord.
    generalize (λ _ : nat, 0 : Qc) as x. induction t as [|w t IH]; intros x; [by apply elem_of_nil in Hvt|]. cbn [loopR].
    assert (w < n)%nat as Hw by (apply Hr; by left).
    destruct (iv !! w) as [dw|] eqn:Ew.
    - destruct (decide (usable soft dw)) as [Hok|Hbad].
      + rewrite giv_node_ok; [|done|by intros d' Hd'; rewrite Ew in Hd'; injection Hd' as <-]. cbn [res_bind]. apply IH.
        * intros u Hu'. apply Hr. by right.
        * apply elem_of_cons in Hvt as [->|]; [|done]. rewrite Ew in Hd. by injection Hd as ->.
      + by rewrite (giv_node_bad w x dw).
    - rewrite giv_node_ok; [|done|by intros d' Hd'; rewrite Ew in Hd']. cbn [res_bind]. apply IH.
      + intros u Hu'. apply Hr. by right.
      + apply elem_of_cons in Hvt as [->|]; [|done]. by rewrite Ew in Hd.
  Qed.
End giv.
