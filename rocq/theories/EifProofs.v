(** Conditional expectations in discrete Bayesian networks and projections on their scores. *)
From Coq Require Import QArith.Qcanon Field.
From Verif Require Import Py Spec DagModel QMatModel DiscreteModel SpecDiscrete TopoProofs StateProofs ReachProofs QueryProofs CoreProofs MarkovProofs QMatProofs SemProofs PropertiesDag DiscreteProofs DiscreteElim SpecEif.
#[local] Open Scope Qc_scope.

Lemma div_0_r (x : Qc) : x / 0 = 0.
Proof. unfold Qcdiv. assert (/ 0 = 0) as ->; [|ring]. by apply (bool_decide_unpack _). Qed.
Lemma div_mul (x y : Qc) : y ≠ 0 → y * (x / y) = x.
Proof. intros. field. done. Qed.
Lemma mul_nonneg (x y : Qc) : 0 <= x → 0 <= y → 0 <= x * y.
Proof. intros Hx Hy. replace 0 with (0 * y) by ring. by apply Qcmult_le_compat_r. Qed.
Lemma depends_mono (S T : nset) f : S ⊆ T → depends S f → depends T f.
Proof. intros H Hf a b Hab. apply Hf. intros v Hv. apply Hab. set_solver. Qed.

Section lsum.
  Context {A : Type}.
  Implicit Types f g : A → Qc.
  Lemma lsum_of_app f l1 l2 : lsum_of f (l1 ++ l2) = lsum_of f l1 + lsum_of f l2.
  Proof. unfold lsum_of. induction l1 as [|x l1 IH]; cbn [app foldr]; [by rewrite Qcplus_0_l|]. rewrite IH. ring. Qed.
  Lemma lsum_of_perm f l1 l2 : l1 ≡ₚ l2 → lsum_of f l1 = lsum_of f l2.
  Proof. unfold lsum_of. induction 1 as [|x l1 l2 H IH|x y l|l1 l2 l3 H1 IH1 H2 IH2]; cbn; [done|by rewrite IH|ring|congruence]. Qed.
  Lemma lsum_of_ext f g l : (∀ x, x ∈ l → f x = g x) → lsum_of f l = lsum_of g l.
  Proof. unfold lsum_of. induction l as [|x l IH]; intros H; cbn; [done|]. rewrite (H x) by (by left). f_equal. apply IH. intros y Hy. apply H. by right. Qed.
  Lemma lsum_of_zero f l : (∀ x, x ∈ l → f x = 0) → lsum_of f l = 0.
  Proof. unfold lsum_of. induction l as [|x l IH]; intros H; cbn; [done|]. rewrite (H x) by (by left). rewrite IH; [ring|]. intros y Hy. apply H. by right. Qed.
  Lemma lsum_of_one f l x : NoDup l → x ∈ l → (∀ y, y ∈ l → y ≠ x → f y = 0) → lsum_of f l = f x.
  Proof.
    intros Hnd Hx H. apply elem_of_list_split in Hx as (l1 & l2 & ->). rewrite lsum_of_app. unfold lsum_of at 2. cbn. fold (lsum_of f l2).
    apply NoDup_app in Hnd as (_ & Hd & Hnd). apply NoDup_cons in Hnd as [Hn _]. rewrite !lsum_of_zero; [ring| |].
    - intros y Hy. apply H; [apply elem_of_app; right; by right|]. intros ->. done.
    - intros y Hy. apply H; [apply elem_of_app; by left|]. intros ->. apply (Hd x Hy). by left.
  Qed.
End lsum.

Section eif.
  Context (D : ddag) (Hwf : ddag_wf D) (Hst : stochastic D) (Hnn : nonneg D).
  Notation N := (d_nodes (dd_dag D)).
  Notation Ar := (d_arcs (dd_dag D)).

  Lemma sum_over_add l f g a : sum_over D l (λ b, f b + g b) a = sum_over D l f a + sum_over D l g a.
  Proof. revert a. induction l as [|v l IH]; intros a; cbn; [done|]. rewrite <-qsum_add. apply qsum_ext. intros k _. apply IH. Qed.
  Lemma sum_over_scale l f c a : sum_over D l (λ b, c * f b) a = c * sum_over D l f a.
  Proof. revert a. induction l as [|v l IH]; intros a; cbn; [done|]. rewrite <-qsum_mul_l. apply qsum_ext. intros k _. apply IH. Qed.
  Lemma sum_over_0 l f a : (∀ b, upd_of D l a b → f b = 0) → sum_over D l f a = 0.
  Proof.
    intros H. rewrite (sum_over_ext D l f (λ _, 0 * 0)); [rewrite (sum_over_scale l (λ _, 0) 0); ring|]. intros b Hb. rewrite (H b Hb). ring.
  Qed.
  Lemma sum_over_nonneg l f a : (∀ b, upd_of D l a b → 0 <= f b) → 0 <= sum_over D l f a.
  Proof.
    revert a. induction l as [|v l IH]; intros a H; cbn.
    - apply H. split; [done|]. intros v Hv. by apply elem_of_nil in Hv.
    - apply qsum_nonneg. intros k Hk. apply IH. intros b [Hb1 Hb2]. apply H. split.
      + intros w Hw. apply not_elem_of_cons in Hw as [Hw1 Hw2]. rewrite Hb1 by done. by apply ins_other.
      + intros w [->|Hw]%elem_of_cons; [|by apply Hb2]. destruct (decide (v ∈ l)) as [Hv|Hv]; [by apply Hb2|]. by rewrite Hb1, ins_same.
  Qed.
  Lemma sum_over_null l f g a : (∀ b, upd_of D l a b → 0 <= f b) → sum_over D l f a = 0 → sum_over D l (λ b, f b * g b) a = 0.
  Proof.
    revert a. induction l as [|v l IH]; intros a H H0; cbn in *; [rewrite H0; ring|].
    assert (∀ k, (k < card D v)%nat → ∀ b, upd_of D l (<[v := k]> a) b → 0 <= f b) as Hk.
    { intros k Hk b [Hb1 Hb2]. apply H. split.
      + intros w Hw. apply not_elem_of_cons in Hw as [Hw1 Hw2]. rewrite Hb1 by done. by apply ins_other.
      + intros w [->|Hw]%elem_of_cons; [|by apply Hb2]. destruct (decide (v ∈ l)) as [Hv|Hv]; [by apply Hb2|]. by rewrite Hb1, ins_same. }
    apply qsum_zero. intros k Hlt. apply IH; [by apply Hk|]. destruct (decide (sum_over D l f (<[v := k]> a) = 0)) as [|Hne]; [done|].
    exfalso. assert (0 < qsum (card D v) (λ k, sum_over D l f (<[v := k]> a))) as Hp.
    { apply (qsum_pos _ _ k); [|done|].
      - intros j Hj. apply sum_over_nonneg. by apply Hk.
      - assert (0 <= sum_over D l f (<[v := k]> a)) as Hge by (apply sum_over_nonneg; by apply Hk).
        apply Qcle_lt_or_eq in Hge as [?|?]; [done|congruence]. }
    rewrite H0 in Hp. by apply Qclt_not_eq in Hp.
  Qed.

  Lemma depends_joint : depends N (joint D).
  Proof using Hwf Hst Hnn.
    intros a b H. change (plist D (elements N) a = plist D (elements N) b). apply (plist_agree D Hwf).
    - intros v. by rewrite elem_of_elements.
    - intros v Hv%elem_of_elements. by apply H.
    - intros u v He _. apply H. by apply (D_over D Hwf u v He).
  Qed.
  Lemma pa_arc u v : u ∈ pa D v ↔ (u, v) ∈ Ar.
  Proof using Hwf Hst Hnn. apply (proj1 (proj1 Hwf)). Qed.
  Lemma pa_N v : pa D v ⊆ N.
  Proof using Hwf Hst Hnn. intros u Hu%pa_arc. by apply (D_over D Hwf u v Hu). Qed.
  Lemma pa_not v : v ∉ pa D v.
  Proof using Hwf Hst Hnn. intros H%pa_arc. destruct Hwf as (_ & Hac & _). apply (Hac v). by apply tc_once. Qed.
  Lemma fam_N v : v ∈ N → fam D v ⊆ N.
  Proof using Hwf Hst Hnn. intros Hv. pose proof (pa_N v). unfold fam. set_solver. Qed.
  Lemma joint_nonneg a : in_range D (elements N) a → 0 <= joint D a.
  Proof using Hwf Hst Hnn.
    intros Ha. unfold joint. assert (∀ v, v ∈ elements N → 0 <= prob D a v) as H.
    { intros v Hv%elem_of_elements. destruct Hwf as (_ & _ & Hw). destruct (Hw v Hv) as (al & ps & c & _ & Ep & _ & _ & Hps & _).
      apply (Hnn v ps); [done|done|]. intros w [Hw'| ->%elem_of_list_singleton]%elem_of_app; apply Ha, elem_of_elements; [|done].
      apply Hps in Hw'. by apply (D_over D Hwf w v Hw'). }
    revert H. generalize (elements N). intros l. induction l as [|v l IH]; intros H; cbn; [done|].
    apply mul_nonneg; [apply H; by left|]. apply IH. intros w Hw. apply H. by right.
  Qed.

  (** The numerator of a conditional expectation. *)
  Definition num (S : nset) (h : assignment → Qc) (a : assignment) : Qc := sum_over D (elements (N ∖ S)) (λ b, joint D b * h b) a.
  Lemma cexp_num S h a : cexp D S h a = num S h a / marginal D S a.
  Proof. done. Qed.
  Lemma depends_num S h : S ⊆ N → depends N h → depends S (num S h).
  Proof using Hwf Hst Hnn.
    intros HS Hh a b Hab. unfold num. apply (sum_over_agree D N).
    - intros c c' Hc. by rewrite (depends_joint c c' Hc), (Hh c c' Hc).
    - intros v Hv Hn. apply Hab. rewrite elem_of_elements in Hn. destruct (decide (v ∈ S)); [done|]. destruct Hn. set_solver.
  Qed.
  Lemma marginal_num S a : marginal D S a = num S (λ _, 1) a.
  Proof. unfold marginal, num. apply sum_over_ext. intros b _. ring. Qed.
  Lemma depends_marginal S : S ⊆ N → depends S (marginal D S).
  Proof using Hwf Hst Hnn. intros HS a b Hab. rewrite !marginal_num. by apply depends_num. Qed.
  Lemma depends_cexp S h : S ⊆ N → depends N h → depends S (cexp D S h).
  Proof using Hwf Hst Hnn. intros HS Hh a b Hab. rewrite !cexp_num. by rewrite (depends_num S h HS Hh a b Hab), (depends_marginal S HS a b Hab). Qed.
  Lemma upd_range (S : nset) a b : in_range D (elements S) a → upd_of D (elements (N ∖ S)) a b → in_range D (elements N) b.
  Proof.
    intros Ha [H1 H2] v Hv%elem_of_elements. destruct (decide (v ∈ S)) as [Hs|Hs].
    - rewrite H1; [apply Ha; by apply elem_of_elements|]. rewrite elem_of_elements. set_solver.
    - apply H2, elem_of_elements. set_solver.
  Qed.
  Lemma num_null S h a : in_range D (elements S) a → marginal D S a = 0 → num S h a = 0.
  Proof using Hwf Hst Hnn.
    intros Ha Hm. apply (sum_over_null _ (joint D) h); [|done]. intros b Hb. apply joint_nonneg. by eapply upd_range.
  Qed.
  Lemma marg_cexp S h a : in_range D (elements S) a → marginal D S a * cexp D S h a = num S h a.
  Proof using Hwf Hst Hnn.
    intros Ha. rewrite cexp_num. destruct (decide (marginal D S a = 0)) as [H0|H0]; [|by apply div_mul].
    rewrite H0, (num_null S h a Ha H0). ring.
  Qed.
  Lemma expect_split S F : S ⊆ N → expect D F = sum_over D (elements S) (num S F) ∅.
  Proof.
    intros HS. unfold expect, num. rewrite (sum_over_perm D _ (elements S ++ elements (N ∖ S))); [by rewrite sum_over_app|apply NoDup_elements|].
    rewrite <-elements_disj_union by set_solver. by rewrite <-union_difference_L.
  Qed.
  Lemma num_local S h g a : depends S g → num S (λ b, h b * g b) a = num S h a * g a.
  Proof.
    intros Hg. unfold num. rewrite <-(sum_over_mul D _ (λ b, joint D b * h b) g).
    - apply sum_over_ext. intros b _. ring.
    - intros b [Hb _]. apply Hg. intros v Hv. apply Hb. rewrite elem_of_elements. set_solver.
  Qed.
  Lemma upd_empty (S : nset) b : upd_of D (elements S) ∅ b → in_range D (elements S) b.
  Proof. by intros [_ ?]. Qed.

  (** ** Tower property *)
  Lemma tower S h g : S ⊆ N → depends N h → depends S g → expect D (λ a, cexp D S h a * g a) = expect D (λ a, h a * g a).
  Proof using Hwf Hst Hnn.
    intros HS Hh Hg. rewrite !(expect_split S) by done. apply sum_over_ext. intros a Ha%upd_empty.
    rewrite !num_local by done. f_equal.
    transitivity (num S (λ b, 1 * cexp D S h b) a). { unfold num. apply sum_over_ext. intros; ring. }
    rewrite num_local by (by apply depends_cexp). rewrite <-marginal_num. by apply marg_cexp.
  Qed.

  (** ** Expectations along a topological order *)
  Lemma split_order v : v ∈ N → ∃ pre post, topo_order N Ar (pre ++ v :: post).
  Proof using Hwf Hst Hnn.
    intros Hv. destruct (exists_topo N Ar) as [l Hl]; [by destruct Hwf as (_ & ? & _)|apply (D_over D Hwf)|].
    assert (v ∈ l) as Hin by (destruct Hl as (_ & H & _); by apply H). apply elem_of_list_split in Hin as (pre & post & ->). by exists pre, post.
  Qed.
  Lemma prefix_closed l pre post : topo_order N Ar l → l = pre ++ post → ∀ u v, (u, v) ∈ Ar → v ∈ pre → u ∈ pre.
  Proof using Hwf Hst Hnn.
    intros Ht -> u v He Hv. apply elem_of_list_split in Hv as (p1 & p2 & ->).
    apply elem_of_app. left. eapply (topo_pre N Ar _ p1 v (p2 ++ post)); [done|by rewrite <-app_assoc|done|]. by apply (D_over D Hwf u v).
  Qed.
  Lemma prefix_facts l pre post : topo_order N Ar l → l = pre ++ post → NoDup pre ∧ list_to_set pre ⊆ N.
  Proof.
    intros (Hnd & Hl & _) ->. apply NoDup_app in Hnd as (? & _). split; [done|]. intros v Hv%elem_of_list_to_set. apply Hl, elem_of_app. by left.
  Qed.
  Lemma marginal_prefix l pre post (S E : list node) a : topo_order N Ar l → l = pre ++ post → S ++ E ≡ₚ pre → in_range D S a →
    marginal D (list_to_set S) a = sum_over D E (plist D pre) a.
  Proof using Hwf Hst Hnn.
    intros Ht Hl Hp Ha. destruct (prefix_facts _ _ _ Ht Hl) as [Hnd HN]. symmetry.
    apply (marginal_ancestral D Hwf Hst (list_to_set pre)); [done| |done|by intros v; rewrite elem_of_list_to_set|done|done].
    intros u v He. rewrite !elem_of_list_to_set. by apply (prefix_closed l pre post).
  Qed.
  Lemma expect_prefix l pre post F : topo_order N Ar l → l = pre ++ post → depends (list_to_set pre) F →
    expect D F = sum_over D pre (λ a, plist D pre a * F a) ∅.
  Proof using Hwf Hst Hnn.
    intros Ht Hl HF. destruct (prefix_facts _ _ _ Ht Hl) as [Hnd HN]. rewrite (expect_split (list_to_set pre)) by done.
    assert (elements (list_to_set pre : nset) ≡ₚ pre) as Hp by (by apply elements_list_to_set).
    rewrite (sum_over_perm D _ pre); [|apply NoDup_elements|done]. apply sum_over_ext. intros a [_ Ha].
    transitivity (num (list_to_set pre) (λ b, 1 * F b) a). { unfold num. apply sum_over_ext. intros; ring. }
    rewrite num_local by done. rewrite <-marginal_num. f_equal. rewrite (marginal_prefix l pre post pre []); [done|done|done|by rewrite app_nil_r|done].
  Qed.
  (** A score of [v] is uncorrelated with everything before [v]. *)
  Lemma score_before l pre v post s g : topo_order N Ar l → l = pre ++ v :: post → score D v s → depends (list_to_set pre) g →
    expect D (λ a, s a * g a) = 0.
  Proof using Hwf Hst Hnn.
    intros Ht Hl [Hs1 Hs2] Hg. assert (l = (pre ++ [v]) ++ post) as Hl2 by (by rewrite <-app_assoc).
    destruct (prefix_facts _ _ _ Ht Hl2) as [Hnd2 HN2]. apply NoDup_app in Hnd2 as (Hnd & Hd & _).
    assert (v ∉ pre) as Hvp by (intros H; apply (Hd v H); by left).
    assert (∀ u, u ∈ pa D v → u ∈ pre) as Hpa.
    { intros u Hu%pa_arc. eapply (topo_pre N Ar l pre v post); [done|done|done|]. by apply (D_over D Hwf u v). }
    rewrite (expect_prefix l (pre ++ [v]) post _ Ht Hl2).
    2:{ intros a b Hab. f_equal; [apply Hs1|apply Hg]; intros w Hw; apply Hab; rewrite list_to_set_app_L; [|set_solver].
        unfold fam in Hw. apply elem_of_union in Hw as [Hw|Hw]; [|set_solver]. apply elem_of_union_l, elem_of_list_to_set. by apply Hpa. }
    rewrite sum_over_app. apply sum_over_0. intros a [_ Ha]. cbn [sum_over].
    transitivity (qsum (card D v) (λ k, (plist D pre a * g a) * (prob D (<[v := k]> a) v * s (<[v := k]> a)))).
    - apply qsum_ext. intros k Hk. rewrite plist_app, plist_one.
      assert (plist D pre (<[v := k]> a) = plist D pre a) as ->.
      { apply (plist_agree D Hwf).
        - intros w Hw. apply HN2. rewrite elem_of_list_to_set, elem_of_app. by left.
        - intros w Hw. apply ins_other. by intros ->.
        - intros u w He Hw. apply ins_other. intros Hvu. apply Hvp. rewrite Hvu. by apply (prefix_closed l pre (v :: post) Ht Hl u w). }
      assert (g (<[v := k]> a) = g a) as ->. { apply Hg. intros w Hw%elem_of_list_to_set. apply ins_other. by intros ->. } ring.
    - rewrite qsum_mul_l, Hs2; [ring|]. intros w Hw%elem_of_elements. apply Ha, Hpa, Hw.
  Qed.

  (** ** The terms of the projection *)
  Lemma marginal_fam v a : v ∈ N → in_range D (elements (fam D v)) a → marginal D (fam D v) a = prob D a v * marginal D (pa D v) a.
  Proof using Hwf Hst Hnn.
    intros Hv Ha. destruct (split_order v Hv) as (pre & post & Ht).
    assert (pre ++ v :: post = (pre ++ [v]) ++ post) as Hl2 by (by rewrite <-app_assoc).
    destruct (prefix_facts _ _ _ Ht Hl2) as [Hnd2 HN2]. apply NoDup_app in Hnd2 as (Hnd & Hd & _).
    assert (v ∉ pre) as Hvp by (intros H; apply (Hd v H); by left).
    assert (∀ u, u ∈ pa D v → u ∈ pre) as Hpa.
    { intros u Hu%pa_arc. eapply (topo_pre N Ar _ pre v post); [done|done|done|]. by apply (D_over D Hwf u v). }
    set (P := elements (pa D v)). set (E := filter (λ u, u ∉ pa D v) pre).
    assert (P ++ E ≡ₚ pre) as Hp.
    { apply NoDup_Permutation; [|done|].
      - apply NoDup_app. split; [apply NoDup_elements|]. split; [|by apply NoDup_filter].
        intros u Hu%elem_of_elements [Hn _]%elem_of_list_filter. done.
      - intros u. unfold P, E. rewrite elem_of_app, elem_of_elements, elem_of_list_filter. destruct (decide (u ∈ pa D v)); naive_solver. }
    assert (list_to_set P = pa D v) as HP by (unfold P; apply list_to_set_elements_L).
    assert (list_to_set (P ++ [v]) = fam D v) as HPv by (rewrite list_to_set_app_L, HP; unfold fam; set_solver).
    rewrite <-HPv at 1. rewrite <-HP. assert (in_range D (P ++ [v]) a) as Har.
    { intros u [Hu%elem_of_elements| ->%elem_of_list_singleton]%elem_of_app; apply Ha, elem_of_elements; unfold fam; set_solver. }
    rewrite (marginal_prefix _ (pre ++ [v]) post (P ++ [v]) E a Ht Hl2).
    2:{ rewrite <-app_assoc, (Permutation_app_comm [v] E), app_assoc. by rewrite Hp. } 2:{ done. }
    rewrite (marginal_prefix _ pre (v :: post) P E a Ht eq_refl Hp) by (intros u Hu; apply Har, elem_of_app; by left).
    rewrite Qcmult_comm. rewrite <-(sum_over_mul D E (plist D pre) (λ b, prob D b v)).
    - apply sum_over_ext. intros b _. by rewrite plist_app, plist_one.
    - intros b [Hb _]. apply (prob_agree D Hwf); [done| |].
      + apply Hb. unfold E. rewrite elem_of_list_filter. tauto.
      + intros u He. apply Hb. unfold E. rewrite elem_of_list_filter. intros [Hn _]. apply Hn. by apply pa_arc.
  Qed.
  Lemma num_fam v h a : v ∈ N → num (pa D v) h a = qsum (card D v) (λ k, num (fam D v) h (<[v := k]> a)).
  Proof using Hwf Hst Hnn.
    intros Hv. unfold num. rewrite (sum_over_perm D _ (v :: elements (N ∖ fam D v))); [done|apply NoDup_elements|].
    pose proof (pa_not v) as Hn. rewrite <-elements_union_singleton by (unfold fam; set_solver).
    replace ({[v]} ∪ N ∖ fam D v) with (N ∖ pa D v); [done|]. unfold fam. apply set_eq. intros u. destruct (decide (u = v)); set_solver.
  Qed.
  Lemma term_score v h : v ∈ N → depends N h → score D v (λ a, cexp D (fam D v) h a - cexp D (pa D v) h a).
  Proof using Hwf Hst Hnn.
    intros Hv Hh. pose proof (fam_N v Hv) as HF. pose proof (pa_N v) as HP. pose proof (pa_not v) as Hnv. split.
    { intros a b Hab. rewrite (depends_cexp (fam D v) h HF Hh a b Hab). rewrite (depends_cexp (pa D v) h HP Hh a b); [done|]. intros w Hw. apply Hab. unfold fam. set_solver. }
    intros a Ha.
    assert (∀ k, cexp D (pa D v) h (<[v := k]> a) = cexp D (pa D v) h a) as Hc.
    { intros k. apply depends_cexp; [done|done|]. intros w Hw. apply ins_other. by intros ->. }
    assert (∀ k, marginal D (pa D v) (<[v := k]> a) = marginal D (pa D v) a) as Hm.
    { intros k. apply depends_marginal; [done|]. intros w Hw. apply ins_other. by intros ->. }
    assert (∀ k, (k < card D v)%nat → in_range D (elements (fam D v)) (<[v := k]> a)) as Hr.
    { intros k Hk w Hw%elem_of_elements. destruct (decide (v = w)) as [->|Hne]; [by rewrite ins_same|]. rewrite ins_other by done.
      apply Ha, elem_of_elements. unfold fam in Hw. set_solver. }
    destruct (Hwf) as (_ & _ & Hw). destruct (Hw v Hv) as (al & ps & c & _ & Ep & _ & _ & Hps & _).
    assert (qsum (card D v) (λ k, prob D (<[v := k]> a) v) = 1) as H1.
    { apply (Hst v ps); [done|done|]. intros p Hp. apply Ha, elem_of_elements, pa_arc. by apply Hps. }
    rewrite (qsum_ext _ _ (λ k, prob D (<[v := k]> a) v * cexp D (fam D v) h (<[v := k]> a) - prob D (<[v := k]> a) v * cexp D (pa D v) h a)).
    2:{ intros k _. rewrite Hc. ring. }
    rewrite qsum_sub, qsum_mul_r, H1.
    enough (qsum (card D v) (λ k, prob D (<[v := k]> a) v * cexp D (fam D v) h (<[v := k]> a)) = cexp D (pa D v) h a) as -> by ring.
    set (m := marginal D (pa D v) a). rewrite (cexp_num (pa D v)). fold m. destruct (decide (m = 0)) as [H0|H0].
    - rewrite H0, div_0_r. apply qsum_zero. intros k Hk. rewrite cexp_num, marginal_fam by (try done; by apply Hr). rewrite Hm. fold m. rewrite H0, Qcmult_0_r, div_0_r. ring.
    - rewrite (num_fam v) by done. unfold Qcdiv. rewrite <-qsum_mul_r. apply qsum_ext. intros k Hk.
      pose proof (marg_cexp (fam D v) h (<[v := k]> a) (Hr k Hk)) as He. rewrite (marginal_fam v _ Hv (Hr k Hk)), Hm in He. fold m in He. rewrite <-He. field. done.
  Qed.

  (** ** The projection *)
  Lemma expect_add f g : expect D (λ a, f a + g a) = expect D f + expect D g.
  Proof. unfold expect. rewrite <-sum_over_add. apply sum_over_ext. intros; ring. Qed.
  Lemma expect_scale f c : expect D (λ a, c * f a) = c * expect D f.
  Proof. unfold expect. rewrite <-sum_over_scale. apply sum_over_ext. intros; ring. Qed.
  Lemma expect_ext f g : (∀ a, in_range D (elements N) a → f a = g a) → expect D f = expect D g.
  Proof. intros H. unfold expect. apply sum_over_ext. intros b [_ Hb]. by rewrite H. Qed.
  Lemma expect_0 : expect D (λ _, 0) = 0.
  Proof. unfold expect. apply sum_over_0. intros; ring. Qed.
  Lemma expect_sub f g : expect D (λ a, f a - g a) = expect D f - expect D g.
  Proof. rewrite (expect_ext _ (λ a, f a + (- (1)) * g a)) by (intros; ring). rewrite expect_add, expect_scale. ring. Qed.
  Lemma expect_lsum {A} (f : A → assignment → Qc) (l : list A) : expect D (λ a, lsum_of (λ x, f x a) l) = lsum_of (λ x, expect D (f x)) l.
  Proof. unfold lsum_of. induction l as [|x l IH]; cbn; [apply expect_0|]. rewrite <-IH. apply expect_add. Qed.
  Lemma expect_nonneg f : (∀ a, in_range D (elements N) a → 0 <= f a) → 0 <= expect D f.
  Proof using Hwf Hst Hnn.
    intros H. unfold expect. apply sum_over_nonneg. intros b [_ Hb]. apply mul_nonneg; [by apply joint_nonneg|by apply H].
  Qed.
  Notation term h v := (λ a, cexp D (fam D v) h a - cexp D (pa D v) h a).

  (** Scores of different nodes are uncorrelated. *)
  Lemma scores_orthogonal u v s s' : u ∈ N → v ∈ N → u ≠ v → score D u s → score D v s' → expect D (λ a, s a * s' a) = 0.
  Proof using Hwf Hst Hnn.
    intros Hu Hv Hne Hs Hs'. destruct (exists_topo N Ar) as [l Hl]; [by destruct Hwf as (_ & ? & _)|apply (D_over D Hwf)|].
    assert (∀ x y sx sy, x ∈ N → y ∈ N → x ≠ y → score D x sx → score D y sy → (∃ pre mid post, l = pre ++ y :: mid ++ x :: post) →
      expect D (λ a, sx a * sy a) = 0) as H.
    { intros x y sx sy Hx Hy Hxy Hsx [Hd _] (pre & mid & post & Hl'). assert (l = (pre ++ y :: mid) ++ x :: post) as Hl2 by (by rewrite Hl', <-app_assoc).
      apply (score_before l (pre ++ y :: mid) x post sx sy Hl Hl2 Hsx).
      apply (depends_mono (fam D y)); [|done]. intros w Hw. apply elem_of_list_to_set. unfold fam in Hw. apply elem_of_union in Hw as [Hw%pa_arc| ->%elem_of_singleton].
      - apply elem_of_app. left. eapply (topo_pre N Ar l pre y (mid ++ x :: post)); [done|done|done|]. by apply (D_over D Hwf w y).
      - apply elem_of_app. right. by left. }
    assert (u ∈ l) as Hul by (destruct Hl as (_ & Hin & _); by apply Hin). assert (v ∈ l) as Hvl by (destruct Hl as (_ & Hin & _); by apply Hin).
    apply elem_of_list_split in Hul as (l1 & l2 & Heq). rewrite Heq in Hvl. apply elem_of_app in Hvl as [Hvl|Hvl].
    - apply elem_of_list_split in Hvl as (k1 & k2 & ->). apply (H u v); [done..|]. exists k1, k2, l2. by rewrite Heq, <-app_assoc.
    - apply elem_of_cons in Hvl as [->|Hvl]; [done|]. apply elem_of_list_split in Hvl as (k1 & k2 & ->).
      rewrite (expect_ext _ (λ a, s' a * s a)) by (intros; ring). apply (H v u); [done|done|by apply not_eq_sym|done|done|]. by exists l1, k1, k2.
  Qed.
  Lemma term_inner v s h : v ∈ N → depends N h → score D v s → expect D (λ a, term h v a * s a) = expect D (λ a, h a * s a).
  Proof using Hwf Hst Hnn.
    intros Hv Hh Hs. destruct (split_order v Hv) as (pre & post & Ht).
    rewrite (expect_ext _ (λ a, cexp D (fam D v) h a * s a - s a * cexp D (pa D v) h a)) by (intros; ring).
    rewrite expect_sub. rewrite tower; [|by apply fam_N|done|by destruct Hs].
    rewrite (score_before _ pre v post s _ Ht eq_refl Hs); [ring|]. apply (depends_mono (pa D v)); [|apply depends_cexp; [apply pa_N|done]].
    intros u Hu%pa_arc. apply elem_of_list_to_set. eapply (topo_pre N Ar _ pre v post); [done|done|done|]. by apply (D_over D Hwf u v).
  Qed.
  Lemma projection_inner l v s h : NoDup l → (∀ u, u ∈ l → u ∈ N) → v ∈ l → depends N h → score D v s →
    expect D (λ a, projection D l h a * s a) = expect D (λ a, h a * s a).
  Proof using Hwf Hst Hnn.
    intros Hnd Hl Hv Hh Hs. rewrite <-(term_inner v s h) by (try done; by apply Hl).
    rewrite (expect_ext _ (λ a, lsum_of (λ u, term h u a * s a) l)).
    2:{ intros a _. unfold projection, lsum_of. clear. induction l as [|u l IH]; cbn; [ring|]. rewrite <-IH. ring. }
    rewrite expect_lsum. apply (lsum_of_one (λ u, expect D (λ a, term h u a * s a)) l v Hnd Hv).
    intros u Hu Hne. apply (scores_orthogonal u v); [by apply Hl|by apply Hl|done|by apply term_score; [apply Hl|]|done].
  Qed.
  Lemma projection_mean l h : (∀ u, u ∈ l → u ∈ N) → depends N h → expect D (projection D l h) = 0.
  Proof using Hwf Hst Hnn.
    intros Hl Hh. unfold projection. rewrite (expect_lsum (λ v, term h v)). apply lsum_of_zero. intros v Hv%Hl.
    rewrite expect_sub. pose proof (tower (fam D v) h (λ _, 1) (fam_N v Hv) Hh ltac:(done)) as H1.
    pose proof (tower (pa D v) h (λ _, 1) (pa_N v) Hh ltac:(done)) as H2.
    rewrite (expect_ext _ (cexp D (fam D v) h)) in H1 by (intros; ring). rewrite (expect_ext _ (cexp D (pa D v) h)) in H2 by (intros; ring).
    etransitivity; [apply (f_equal2 Qcminus H1 H2)|]. ring.
  Qed.
  Lemma projection_least l h g : NoDup l → (∀ u, u ∈ l → u ∈ N) → depends N h →
    (∀ v s, v ∈ l → score D v s → expect D (λ a, g a * s a) = expect D (λ a, h a * s a)) →
    expect D (λ a, projection D l h a * projection D l h a) <= expect D (λ a, g a * g a).
  Proof using Hwf Hst Hnn.
    intros Hnd Hl Hh Hg. set (p := projection D l h).
    assert (∀ f, expect D (λ a, f a * p a) = lsum_of (λ v, expect D (λ a, f a * term h v a)) l) as Hp.
    { intros f. rewrite <-(expect_lsum (λ v a, f a * term h v a)). apply expect_ext. intros a _. unfold p, projection, lsum_of. clear.
      induction l as [|u l IH]; cbn; [ring|]. rewrite <-IH. ring. }
    assert (expect D (λ a, g a * p a) = expect D (λ a, p a * p a)) as Hgp.
    { rewrite !Hp. apply lsum_of_ext. intros v Hv. rewrite (Hg v); [|done|apply term_score; [by apply Hl|done]].
      symmetry. apply (projection_inner l v); [done|done|done|done|]. apply term_score; [by apply Hl|done]. }
    assert (0 <= expect D (λ a, (g a - p a) * (g a - p a))) as Hsq.
    { apply expect_nonneg. intros a _. apply Qc_square_nonneg. }
    rewrite (expect_ext _ (λ a, (g a * g a + p a * p a) - (1 + 1) * (g a * p a))) in Hsq by (intros; ring).
    rewrite expect_sub, expect_add, (expect_scale (λ a, g a * p a)), Hgp in Hsq.
    apply Qcle_minus_iff. replace (expect D (λ a, g a * g a) + - expect D (λ a, p a * p a)) with
      (expect D (λ a, g a * g a) + expect D (λ a, p a * p a) - (1 + 1) * expect D (λ a, p a * p a)) by ring. done.
  Qed.
End eif.
