(** Loops that fill a vector node by node. *)
From Coq Require Import QArith.Qcanon.
From Verif Require Import Py Spec DagModel QMatModel GaussModel TopoProofs StateProofs ReachProofs CoreProofs MarkovProofs QMatProofs PropertiesDag GaussProofs.
#[local] Open Scope Qc_scope.

Lemma foldr_qsum n (l : list nat) (f : nat → Qc) : NoDup l → (∀ k, k ∈ l → (k < n)%nat) →
  foldr (λ a acc, f a + acc) 0 l = qsum n (λ k, if decide (k ∈ l) then f k else 0).
Proof.
  intros Hnd Hin. induction Hnd as [|a l Ha Hnd IH]; cbn [foldr].
  { symmetry. apply qsum_zero. intros k _. rewrite decide_False; [done|apply not_elem_of_nil]. }
  rewrite IH by (intros k Hk; apply Hin; by right).
  transitivity (qsum n (λ k, (if decide (k = a) then f a else 0) + (if decide (k ∈ l) then f k else 0))).
  - rewrite qsum_add. f_equal. rewrite (qsum_one n _ a); [by rewrite decide_True|apply Hin; by left|]. intros k _ Hk. by rewrite decide_False.
  - apply qsum_ext. intros k _. destruct (decide (k = a)) as [->|Hne].
    + rewrite (decide_False (P := a ∈ l)) by done. rewrite decide_True by (by left). ring.
    + destruct (decide (k ∈ l)) as [H|H].
      * rewrite decide_True by (by right). ring.
      * rewrite decide_False by (intros [?|?]%elem_of_cons; done). ring.
Qed.
Lemma dot_at_qsum n W (ps : list nat) c x : NoDup ps → (∀ k, k ∈ ps → (k < n)%nat) → (∀ k, (k < n)%nat → k ∉ ps → W k c = 0) →
  dot_at W ps c x = qsum n (λ k, W k c * x k).
Proof.
  intros Hnd Hin Hz. unfold dot_at. rewrite (foldr_qsum n ps (λ a, W a c * x a)) by done. apply qsum_ext. intros k Hk.
  case_decide as H; [done|]. rewrite Hz by done. ring.
Qed.

Lemma topo_loop (E : arcset) (t : list node) (f : node → vec → Qc) (x0 : vec) :
  NoDup t → (∀ i j x y, (x, y) ∈ E → t !! i = Some x → t !! j = Some y → (i < j)%nat) →
  (∀ v x y, v ∈ t → (∀ u, (u, v) ∈ E → x u = y u) → f v x = f v y) →
  let x := foldl (λ x v, vupd x v (f v x)) x0 t in ∀ v, v ∈ t → x v = f v x.
Proof.
  induction t as [|v t IH] using rev_ind; intros Hnd Hord Hf; cbn zeta; intros u Hu; [by apply elem_of_nil in Hu|].
  rewrite foldl_app. cbn [foldl]. set (xt := foldl _ _ t).
  apply NoDup_app in Hnd as (Hnd & Hdis & _).
  assert (∀ w, w ∈ t → w ≠ v) as Hne by (intros w Hw ->; apply (Hdis _ Hw); by left).
  assert (∀ w, (v, w) ∈ E → w ∉ t ++ [v]) as Hlast.
  { intros w Hvw [k Hk]%elem_of_list_lookup. assert ((t ++ [v]) !! length t = Some v) as Hv by (by apply list_lookup_middle).
    pose proof (Hord _ _ _ _ Hvw Hv Hk) as H. apply lookup_lt_Some in Hk. rewrite app_length in Hk. cbn in Hk. lia. }
  assert (∀ w, w ∈ t ++ [v] → f w xt = f w (vupd xt v (f v xt))) as Hsame.
  { intros w Hw. apply Hf; [done|]. intros u' Hu'. unfold vupd. rewrite decide_False; [done|]. intros ->. by apply (Hlast w). }
  apply elem_of_app in Hu as [Hu|Hu].
  - unfold vupd at 1. rewrite decide_False by (by apply Hne). rewrite <-Hsame by (apply elem_of_app; by left). apply IH; [done| | |done].
    + intros i j x y Hxy Hi Hj. apply (Hord i j x y Hxy); by apply lookup_app_l_Some.
    + intros w x y Hw. apply Hf. apply elem_of_app. by left.
  - apply elem_of_list_singleton in Hu as ->. unfold vupd at 1. rewrite decide_True by done. apply Hsame. apply elem_of_app. right. by left.
Qed.

Lemma loopR_foldl {A X} (step : A → X → res X) (f : A → X → X) l x :
  (∀ a y, a ∈ l → step a y = Ok (f a y)) → loopR step l x = Ok (foldl (λ y a, f a y) x l).
Proof.
  revert x. induction l as [|a l IH]; intros x H; cbn; [done|]. rewrite H by (by left). apply IH. intros b y Hb. apply H. by right.
Qed.

(** A [GaussDAG] whose labels are the indices. *)
Section labels.
  Context (g : gauss) (n : nat) (Hg : gauss_wf g) (Hl : g_list g = seq 0 n).
  Lemma lab_dim : g_dim g = n.
  Proof using Hl. unfold g_dim. by rewrite Hl, seq_length. Qed.
  Lemma lab_ix v a : g_ix g !! v = Some a ↔ v = a ∧ (v < n)%nat.
  Proof using Hg Hl.
    destruct Hg as (_ & _ & _ & H & _). rewrite H, Hl, lookup_seq. cbn. split; [intros [<- ?]; done|intros [-> ?]; done].
  Qed.
  Lemma lab_node v : v ∈ d_nodes (g_dag g) ↔ (v < n)%nat.
  Proof using Hg Hl. destruct Hg as (_ & _ & H & _). rewrite H, Hl, elem_of_seq. lia. Qed.
  Lemma lab_weight i j : (i < n)%nat → (j < n)%nat → weight g i j = g_w g i j.
  Proof using Hg Hl.
    intros Hi Hj. unfold weight. assert (g_ix g !! i = Some i) as -> by (by apply lab_ix). assert (g_ix g !! j = Some j) as -> by (by apply lab_ix). done.
  Qed.
  Lemma lab_wf : wf (g_dag g).
  Proof using Hg. destruct Hg as (H & _). by apply wf_views_agree. Qed.
  Lemma lab_parents i j : i ∈ parents (g_dag g) j ↔ (i < n)%nat ∧ (j < n)%nat ∧ g_w g i j ≠ 0.
  Proof using Hg Hl.
    pose proof lab_wf as Hwf. destruct (wf_views_agree (g_dag g)) as [H _]. specialize (H Hwf). destruct Hwf as [Ho Hp _ _].
    rewrite Hp. split.
    - intros Hij. pose proof (Ho _ _ Hij) as [Hi%lab_node Hj%lab_node]. split_and!; [done..|]. rewrite <-lab_weight by done.
      destruct Hg as (_ & _ & _ & _ & HA). by apply HA.
    - intros (Hi & Hj & Hw). destruct Hg as (_ & _ & _ & _ & HA). apply HA. by rewrite lab_weight.
  Qed.
  Lemma lab_ixs l : (∀ v, v ∈ l → (v < n)%nat) → ixs_of g l = Ok l.
  Proof using Hg Hl.
    intros H. unfold ixs_of. rewrite (loopR_foldl _ (λ p acc, acc ++ [p])).
    - f_equal. assert (∀ acc, foldl (λ y a, y ++ [a]) acc l = acc ++ l) as HH; [|apply HH].
      clear. induction l as [|a l IH]; intros acc; cbn; [by rewrite app_nil_r|]. by rewrite IH, <-app_assoc.
    - intros a acc Ha. assert (g_ix g !! a = Some a) as -> by (apply lab_ix; auto). done.
  Qed.
  Lemma lab_dot o k v x : (v < n)%nat →
    res_bind (ixs_of g (on o k (parents (g_dag g) v))) (λ ps, Ok (dot_at (g_w g) ps v x)) = Ok (qsum n (λ u, g_w g u v * x u)).
  Proof using Hg Hl.
    intros Hv. rewrite lab_ixs by (intros u Hu; apply elem_of_on, lab_parents in Hu; lia). cbn. f_equal. apply dot_at_qsum.
    - apply NoDup_on.
    - intros u Hu. apply elem_of_on, lab_parents in Hu. lia.
    - intros u Hu Hn. destruct (decide (g_w g u v = 0)); [done|]. destruct Hn. by apply elem_of_on, lab_parents.
  Qed.
  Lemma lab_macyclic : acyclic (d_arcs (g_dag g)) → macyclic n (g_w g).
  Proof using Hg Hl.
    intros Hac i Hi. apply (Hac i). eapply tc_congruence with (f := id); [|exact Hi]. intros a b (Ha & Hb & Hw). unfold edge.
    destruct Hg as (_ & _ & _ & _ & HA). apply HA. cbn. by rewrite lab_weight.
  Qed.
  Lemma lab_size : size (d_nodes (g_dag g)) = n.
  Proof using Hg Hl.
    replace (d_nodes (g_dag g)) with (list_to_set (seq 0 n) : nset); [rewrite size_list_to_set; [apply seq_length|apply NoDup_seq]|].
    apply set_eq. intros v. rewrite elem_of_list_to_set, elem_of_seq, lab_node. lia.
  Qed.
End labels.

(** In general the matrix of an acyclic graph has no cycle either. *)
Lemma gauss_macyclic g : gauss_wf g → acyclic (d_arcs (g_dag g)) → macyclic (g_dim g) (g_w g).
Proof.
  intros (_ & _ & _ & Hix & HA) Hac i Hi. set (lab := λ a, default O (g_list g !! a)).
  apply (Hac (lab i)). eapply tc_congruence; [|exact Hi]. intros a b (Ha & Hb & Hw). apply lookup_lt_is_Some in Ha as [x Hx], Hb as [y Hy].
  unfold lab, edge. rewrite Hx, Hy. cbn. apply HA. apply Hix in Hx, Hy. unfold weight. by rewrite Hx, Hy.
Qed.
Lemma gauss_size g : gauss_wf g → size (d_nodes (g_dag g)) = g_dim g.
Proof.
  intros (_ & Hnd & HN & _). replace (d_nodes (g_dag g)) with (list_to_set (g_list g) : nset); [by apply size_list_to_set|].
  apply set_eq. intros v. by rewrite elem_of_list_to_set, HN.
Qed.
