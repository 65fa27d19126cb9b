(** Final theorems about the matrices of [GaussDAG] and [GGM]: C89 to C93. *)
From Coq Require Import QArith.Qcanon Field.
From Verif Require Import Py Spec SpecDsep SpecLin DagModel DsepModel UGraphModel QMatModel GaussModel GaussLinModel TopoProofs StateProofs ReachProofs CoreProofs MarkovProofs
  QMatProofs LinProofs SemProofs InvProofs PartialProofs SchurProofs LdlProofs PrecProofs UGraphProofs GgmProofs MoralProofs PropertiesDag PropertiesDsep GaussProofs GaussLoops PropertiesGauss PropertiesGauss2.
#[local] Open Scope Qc_scope.

(** One positive variance per node. *)
Definition variances_pos (g : gauss) : Prop := length (g_var g) = g_dim g ∧ Forall (λ v, 0 < v) (g_var g).
Lemma variances_pos_ok g : variances_pos g → variances_ok g.
Proof. intros [H1 H2]. split; [done|]. eapply Forall_impl; [exact H2|]. intros v. apply Qc_lt_ne. Qed.

(** A linear Gaussian model on the nodes 0..n-1 whose caches are empty. *)
Definition plain (n : nat) (g : gauss) : Prop :=
  gauss_wf g ∧ g_list g = seq 0 n ∧ acyclic (d_arcs (g_dag g)) ∧ variances_pos g ∧ fresh g.

(** What [covariance] says about the variables. *)
Lemma plain_sem inv n g : inverts inv → plain n g →
  ∃ V C, is_inverse n (msub mid (g_w g)) V ∧ read_covariance inv g = (with_cov (Some C) g, Ok C) ∧
    (∀ i, (i < n)%nat → 0 < vec_of (g_var g) i) ∧
    (∀ i j, (i < n)%nat → (j < n)%nat → C i j = C j i) ∧
    (∀ i j, (i < n)%nat → (j < n)%nat → lcov n C (noise (g_w g) i) (noise (g_w g) j) = if decide (i = j) then vec_of (g_var g) i else 0) ∧
    (∀ i j, (i, j) ∈ d_arcs (g_dag g) ↔ (i < n)%nat ∧ (j < n)%nat ∧ g_w g i j ≠ 0).
Proof.
  intros Hinv (Hg & Hl & Hac & Hv & Hfr). pose proof (lab_dim g n Hl) as Hdim.
  assert (is_inverse n (msub mid (g_w g)) (inv n (msub mid (g_w g)))) as HV.
  { apply Hinv. eexists. rewrite <-Hdim. apply acyclic_inverse. by apply gauss_macyclic. }
  destruct (C46_inverse inv g Hg (variances_pos_ok g Hv) Hfr) as (P & C & _ & HC & _ & Hn); [by rewrite Hdim|]. rewrite Hdim in Hn.
  destruct (covariance_formula inv g Hg (variances_pos_ok g Hv)) as (C' & HC' & HCf). rewrite Hdim in HCf. cbn zeta in HCf.
  pose proof HC as HC2. unfold read_covariance in HC2. destruct Hfr as [_ Hfc]. rewrite Hfc, HC' in HC2. cbn in HC2. injection HC2 as <-.
  exists (inv n (msub mid (g_w g))), C'. split; [done|]. split. { unfold read_covariance. by rewrite Hfc, HC'. }
  split; [|split; [|split; [done|]]].
  - intros i Hi. destruct Hv as [Hlen Hpos]. rewrite <-Hdim, <-Hlen in Hi. apply lookup_lt_is_Some in Hi as [x Hx]. unfold vec_of. rewrite Hx. cbn. rewrite Forall_lookup in Hpos. by eapply Hpos.
  - intros i j Hi Hj. rewrite (HCf i j), (HCf j i) by done. unfold mmul, mT. apply qsum_ext. intros k Hk.
    rewrite <-!qsum_mul_r. assert (∀ a, qsum n (λ m, inv n (msub mid (g_w g)) m a * mdiag (vec_of (g_var g)) m k) = inv n (msub mid (g_w g)) k a * vec_of (g_var g) k) as E.
    { intros a. rewrite (qsum_one n _ k); [unfold mdiag; by rewrite decide_True|done|]. intros m _ Hm. unfold mdiag. rewrite decide_False by done. ring. }
    rewrite !qsum_mul_r, !E. ring.
  - intros i j. pose proof Hg as (_ & _ & _ & _ & HA). split.
    + intros H. pose proof (lab_wf g Hg) as [Hov _ _ _]. destruct (Hov _ _ H) as [Hi Hj]. rewrite (lab_node g n Hg Hl) in Hi, Hj.
      apply HA in H. by rewrite (lab_weight g n Hg Hl) in H.
    + intros (Hi & Hj & H). apply HA. by rewrite (lab_weight g n Hg Hl).
Qed.

(** ** C89: partial correlations *)

(** [partial_correlation(i, j, cond)] is the correlation of the residuals of the regressions of [i] and [j] on [cond]: the pair [(a, b)]
    stands for [a / sqrt(b)], and up to a positive factor it is the covariance of the residuals over the root of the
    product of their variances. *)
Theorem C89_residuals (o : oracle) (inv : nat → mat → mat) (n : nat) (g : gauss) (i j : node) (cond : nset) :
  inverts inv → plain n g → (i < n)%nat → (j < n)%nat → i ≠ j → i ∉ cond → j ∉ cond → (∀ v, v ∈ cond → (v < n)%nat) →
  ∃ C a b, (read_covariance inv g).2 = Ok C ∧ (g_partial_correlation o inv i j cond g).2 = Ok (a, b) ∧ 0 < b ∧
    ∀ r s, residual n C cond i r → residual n C cond j s →
      ∃ k, 0 < k ∧ a = k * lcov n C r s ∧ b = k * k * (lcov n C r r * lcov n C s s).
Proof.
  intros Hinv Hg Hi Hj Hij HiC HjC HC. destruct (plain_sem inv n g Hinv Hg) as (V & C & HV & HR & Hd & Hs & Hn & HE).
  pose proof (sem_posdef n _ V C _ HV Hd Hs Hn) as Hpd. pose proof Hg as (_ & Hl & _).
  destruct (partial_spec o inv n C i j cond Hinv Hpd Hi Hj Hij HiC HjC HC) as (a & b & H1 & H2 & H3).
  exists C, a, b. split; [by rewrite HR|]. split; [|done]. unfold g_partial_correlation, mbind'. rewrite HR. cbn. unfold g_dim. cbn. by rewrite Hl, seq_length.
Qed.
(** Residuals exist, so the statement above is about something; they are unique. *)
Theorem C89_residuals_exist (inv : nat → mat → mat) (n : nat) (g : gauss) (W : nset) (x : node) :
  inverts inv → plain n g →
  ∃ C, (read_covariance inv g).2 = Ok C ∧ posdef n C ∧ (∃ r, residual n C W x r) ∧
    ∀ r r', residual n C W x r → residual n C W x r' → ∀ i, (i < n)%nat → r i = r' i.
Proof.
  intros Hinv Hg. destruct (plain_sem inv n g Hinv Hg) as (V & C & HV & HR & Hd & Hs & Hn & HE).
  pose proof (sem_posdef n _ V C _ HV Hd Hs Hn) as Hpd. exists C. split; [by rewrite HR|]. split; [done|]. split; [by apply residual_exists|].
  intros r r'. by apply residual_unique.
Qed.

(** d-separated nodes have partial correlation 0 (the global Markov property of the model). *)
Theorem C89_dsep (o : oracle) (inv : nat → mat → mat) (n : nat) (g : gauss) (i j : node) (cond : nset) :
  inverts inv → plain n g → (i < n)%nat → (j < n)%nat → i ≠ j → i ∉ cond → j ∉ cond → (∀ v, v ∈ cond → (v < n)%nat) →
  dsepd (d_arcs (g_dag g)) {[i]} {[j]} cond →
  ∃ b, (g_partial_correlation o inv i j cond g).2 = Ok (0, b) ∧ 0 < b.
Proof.
  intros Hinv Hg Hi Hj Hij HiC HjC HC Hsep. destruct (C89_residuals o inv n g i j cond Hinv Hg Hi Hj Hij HiC HjC HC) as (C & a & b & HR & H1 & H2 & H3).
  destruct (plain_sem inv n g Hinv Hg) as (V & C' & HV & HR' & Hd & Hs & Hn & HE). rewrite HR' in HR. cbn in HR. injection HR as ->.
  destruct (sem_global n _ V C _ _ HV Hd Hs Hn (proj1 (proj2 (proj2 Hg))) HE i j cond Hi Hj Hij HiC HjC HC Hsep) as (r & s & Hr & Hs' & H0).
  destruct (H3 r s Hr Hs') as (k & _ & Ha & _). exists b. split; [|done]. rewrite H1, Ha, H0. do 2 f_equal. ring.
Qed.


(** The graphs of the examples: 0 -> 1 -> 2 and 0 -> 2 with the given weights, noise variances 1, 2, 3 and biases 1, 1, 1. *)
Definition tri (a b c : Z) : mat := mupd (mupd (mupd mzero 0%nat 1%nat (qz a)) 1%nat 2%nat (qz b)) 0%nat 2%nat (qz c).
Definition tri_make (a b c : Z) : res gauss := gauss_from_amat oracle0 3 (tri a b c) None (Some [1; 1; 1]) (Some [1; qz 2; qz 3]).
Lemma tri_plain a b c : ∃ g, tri_make a b c = Ok g ∧ plain 3 g ∧ g_bias g = [1; 1; 1] ∧ (∀ i j, (i, j) ∈ d_arcs (g_dag g) → (i < j)%nat) ∧
  (∀ i j, (i < 3)%nat → (j < 3)%nat → g_w g i j = tri a b c i j) ∧ g_var g = [1; qz 2; qz 3].
Proof.
  destruct (C79_from_amat oracle0 3 (tri a b c) (Some [1; 1; 1]) (Some [1; qz 2; qz 3])) as (g & Hg & Hwf & Hl & HW & HA & Hv & Hb & Hfr).
  assert (∀ i j, (i, j) ∈ d_arcs (g_dag g) → (i < j)%nat) as Hinc.
  { intros i j (Hi & Hj & H)%HA. unfold tri, mupd, mzero in H. repeat case_decide; first [lia|done]. }
  exists g. split; [done|]. split; [|done]. split; [done|]. split; [done|]. split; [|split; [|done]].
  - intros i Hi. assert (∀ x y, tc (edge (d_arcs (g_dag g))) x y → (x < y)%nat) as Ht.
    { intros x y H. induction H as [x y H%Hinc|x y z H%Hinc _ IH]; lia. }
    apply Ht in Hi. lia.
  - split; [by rewrite Hv; unfold g_dim; rewrite Hl|]. rewrite Hv. cbn [default]. repeat constructor.
Qed.
Lemma tri_dsep a b c g i j k : tri_make a b c = Ok g → plain 3 g →
  ∀ t, match tri_make a b c with Ok g => bool_decide (dsep (g_dag g) oracle0 popper0 {[i]} {[j]} k = Ok t) | Raise _ => false end = true → i ∉ k →
  t = true ↔ dsepd (d_arcs (g_dag g)) {[i]} {[j]} k.
Proof.
  intros Hg Hp t H Hik. rewrite Hg in H. apply bool_decide_eq_true in H. destruct Hp as ((Hv & _) & _ & Hac & _).
  destruct (C09_dsep_decides (g_dag g) oracle0 popper0 {[i]} {[j]} k Hv Hac) as (b' & Hb & Hiff); [set_solver|]. rewrite Hb in H. by injection H as ->.
Qed.
Example C89_example :
  inverts exact_inv ∧ ∃ g, tri_make 1 2 0 = Ok g ∧ plain 3 g ∧ dsepd (d_arcs (g_dag g)) {[0%nat]} {[2%nat]} {[1%nat]} ∧
    (∃ b, (g_partial_correlation oracle0 exact_inv 0%nat 2%nat {[1%nat]} g).2 = Ok (0, b)) ∧
    (g_partial_correlation oracle0 exact_inv 0%nat 2%nat ∅ g).2 = Ok (qz 2, qz 15).
Proof.
  split; [apply exact_inv_ok|]. destruct (tri_plain 1 2 0) as (g & Hg & Hp & _). exists g. split; [done|]. split; [done|].
  assert (dsepd (d_arcs (g_dag g)) {[0%nat]} {[2%nat]} {[1%nat]}) as Hsep.
  { apply (tri_dsep 1 2 0 g 0%nat 2%nat {[1%nat]} Hg Hp true); [vm_compute; reflexivity|set_solver|done]. }
  split; [done|]. split.
  - destruct (C89_dsep oracle0 exact_inv 3 g 0%nat 2%nat {[1%nat]} exact_inv_ok Hp) as (b & Hb & _); [lia|lia|done|set_solver|set_solver|set_solver by lia|done|]. by exists b.
  - assert (match tri_make 1 2 0 with Ok g => match (g_partial_correlation oracle0 exact_inv 0%nat 2%nat ∅ g).2 with Ok p => bool_decide (p = (qz 2, qz 15)) | Raise _ => false end | Raise _ => false end = true) as H by (vm_compute; reflexivity).
    rewrite Hg in H. destruct ((g_partial_correlation oracle0 exact_inv 0%nat 2%nat ∅ g).2); [|done]. apply bool_decide_eq_true in H. by subst.
Qed.

(** The converse fails when effects cancel: a zero partial correlation does not mean d-separation. *)
Theorem C89_converse_refuted : ∃ g b, plain 3 g ∧ (g_partial_correlation oracle0 exact_inv 0%nat 2%nat ∅ g).2 = Ok (0, b) ∧ 0 < b ∧
  ¬ dsepd (d_arcs (g_dag g)) {[0%nat]} {[2%nat]} ∅.
Proof.
  destruct (tri_plain 1 1 (-1)) as (g & Hg & Hp & _). exists g, (qz 5). split; [done|]. split.
  - assert (match tri_make 1 1 (-1) with Ok g => match (g_partial_correlation oracle0 exact_inv 0%nat 2%nat ∅ g).2 with Ok p => bool_decide (p = (0, qz 5)) | Raise _ => false end | Raise _ => false end = true) as H by (vm_compute; reflexivity).
    rewrite Hg in H. destruct ((g_partial_correlation oracle0 exact_inv 0%nat 2%nat ∅ g).2); [|done]. apply bool_decide_eq_true in H. by subst.
  - split; [done|]. intros H. apply (tri_dsep 1 1 (-1) g 0%nat 2%nat ∅ Hg Hp false) in H; [done|vm_compute; reflexivity|set_solver].
Qed.

(** ** C91: the precision matrix of a subset of the variables *)

(** [marginal_precision(nodes)] inverts the covariance matrix of these nodes, in the given order. *)
Theorem C91_marginal_precision (o : oracle) (inv : nat → mat → mat) (n : nat) (g : gauss) (nodes : list node) :
  inverts inv → plain n g → NoDup nodes → (∀ v, v ∈ nodes → (v < n)%nat) →
  ∃ C M, (read_covariance inv g).2 = Ok C ∧ (marginal_precision o inv nodes g).2 = Ok M ∧
    is_inverse (length nodes) (mix_ nodes nodes C) M.
Proof.
  intros Hinv Hg Hnd Hr. destruct (plain_sem inv n g Hinv Hg) as (V & C & HV & HR & Hd & Hs & Hn & HE).
  pose proof (sem_posdef n _ V C _ HV Hd Hs Hn) as Hpd. pose proof Hg as (Hwf & Hl & Hac & Hv & Hfr).
  pose proof (lab_dim g n Hl) as Hdim.
  destruct (C46_inverse inv g Hwf (variances_pos_ok g Hv) Hfr) as (P & C' & HP & HC & Hi & _).
  { rewrite Hdim. apply Hinv. exists V. done. }
  rewrite HR in HC. cbn in HC. injection HC as <-. rewrite Hdim in Hi.
  unfold marginal_precision, mbind'. unfold read_precision in *. destruct Hfr as [Hfp _]. rewrite Hfp in *. destruct (precision_of g) as [P'|]; [|done].
  cbn [snd] in HP. injection HP as <-. cbn [fst snd g_dag with_prec g_dim g_list].
  set (comp := filter (λ v, v ∉ nodes) (on o [150%nat] (d_nodes (g_dag g)))).
  assert (∀ v, v ∈ comp ↔ v ∉ nodes ∧ (v < n)%nat) as Hcomp.
  { intros v. unfold comp. rewrite elem_of_list_filter, elem_of_on, (lab_node g n Hwf Hl). done. }
  assert (nodes ++ comp ≡ₚ seq 0 n) as Hperm.
  { apply NoDup_Permutation; [|apply NoDup_seq|].
    - apply NoDup_app. split; [done|]. split; [intros v Hv1 [Hv2 _]%Hcomp; done|]. apply NoDup_filter, NoDup_on.
    - intros v. rewrite elem_of_app, Hcomp, elem_of_seq. split; [intros [?%Hr|[_ ?]]; lia|]. intros Hv'. destruct (decide (v ∈ nodes)); [by left|right; split; [done|lia]]. }
  assert (in_range n (nodes ++ comp)) as Hir. { apply Forall_forall. intros v Hv'. rewrite Hperm in Hv'. apply elem_of_seq in Hv'. lia. }
  rewrite decide_True.
  2: { unfold g_dim. cbn. by rewrite Hl, seq_length. }
  exists C. eexists. split; [by rewrite HR|]. split; [reflexivity|].
  apply Forall_app in Hir as [_ Hirc]. apply (schur_spec n C P'); [done|by destruct Hi|done|].
  apply inverts_pd; [done|]. apply (posdef_sub n); [apply NoDup_filter, NoDup_on|done|]. eapply posdef_inverse; [exact Hpd|]. by destruct Hi.
Qed.
Example C91_example : inverts exact_inv ∧ ∃ g, tri_make 1 2 1 = Ok g ∧ plain 3 g ∧
  match (marginal_precision oracle0 exact_inv [2; 0]%nat g).2 with Ok M => M 0%nat 0%nat = / qz 11 ∧ M 0%nat 1%nat = - (qz 3 / qz 11) ∧ M 1%nat 1%nat = qz 20 / qz 11 | Raise _ => False end.
Proof.
  split; [apply exact_inv_ok|]. destruct (tri_plain 1 2 1) as (g & Hg & Hp & _). exists g. split; [done|]. split; [done|].
  assert (match tri_make 1 2 1 with Ok g => match (marginal_precision oracle0 exact_inv [2; 0]%nat g).2 with Ok M => bool_decide (M 0%nat 0%nat = / qz 11 ∧ M 0%nat 1%nat = - (qz 3 / qz 11) ∧ M 1%nat 1%nat = qz 20 / qz 11) | Raise _ => false end | Raise _ => false end = true) as H by (vm_compute; reflexivity).
  rewrite Hg in H. destruct ((marginal_precision oracle0 exact_inv [2; 0]%nat g).2); [|done]. by apply bool_decide_eq_true in H.
Qed.

(** ** C92: regression coefficients *)

(** Subtracting from a target the predictors times their coefficients leaves the residual of the linear regression. *)
Theorem C92_residuals (o : oracle) (inv : nat → mat → mat) (n : nat) (g : gauss) (ts ps : list node) :
  inverts inv → plain n g → length (g_bias g) = n → NoDup ps → (∀ v, v ∈ ps ++ ts → (v < n)%nat) →
  ∃ C m co bi, (read_covariance inv g).2 = Ok C ∧ means o g = Ok m ∧ (regression_coefficients o inv ts ps g).2 = Ok (co, bi) ∧
    ∀ b t, ts !! b = Some t →
      bi b = m t - qsum (length ps) (λ a, m (default O (ps !! a)) * co a b) ∧
      (t ∉ ps → residual n C (list_to_set ps) t (λ x, eunit t x - qsum (length ps) (λ a, co a b * eunit (default O (ps !! a)) x))).
Proof.
  intros Hinv Hg Hb Hnd Hr. destruct (plain_sem inv n g Hinv Hg) as (V & C & HV & HR & Hd & Hs & Hn & HE).
  pose proof (sem_posdef n _ V C _ HV Hd Hs Hn) as Hpd. pose proof Hg as (Hwf & Hl & Hac & Hv & Hfr).
  destruct (C47_means_computed o g n Hwf Hl Hb) as (m & Hm & _).
  assert (in_range n (ps ++ ts)) as Hir by (apply Forall_forall; exact Hr).
  unfold regression_coefficients, mbind'. rewrite HR. cbn [fst snd].
  rewrite decide_True.
  2: { unfold g_dim. cbn. by rewrite Hl, seq_length. }
  assert (means o (with_cov (Some C) g) = means o g) as -> by done. rewrite Hm. cbn [res_bind].
  exists C, m. do 2 eexists. split; [done|]. split; [done|]. split; [reflexivity|].
  intros b t Hbt. split. { unfold vix. by rewrite Hbt. }
  intros Ht. apply Forall_app in Hir as [Hirp Hirt]. unfold in_range in Hirt. rewrite Forall_lookup in Hirt.
  eapply residual_ext; [|apply (regression_spec inv n C ps t Hinv Hpd Hnd Hirp (Hirt b t Hbt) Ht)].
  intros i Hi. unfold emb, mmul. cbn beta. transitivity (eunit t i - qsum (length ps) (λ a, qsum (length ps) (λ k, inv (length ps) (mix_ ps ps C) a k * C (default O (ps !! k)) t) * eunit (default O (ps !! a)) i)); [ring|].
  f_equal. apply qsum_ext. intros a _. f_equal. apply qsum_ext. intros k _. unfold mix_. by rewrite Hbt.
Qed.

(** Regressing a node on non-descendants that include its parents gives the weights of its arcs. *)
Theorem C92_parents (o : oracle) (inv : nat → mat → mat) (n : nat) (g : gauss) (t : node) (ps : list node) :
  inverts inv → plain n g → length (g_bias g) = n → NoDup ps → (∀ v, v ∈ ps → (v < n)%nat) → (t < n)%nat →
  (∀ p, (p, t) ∈ d_arcs (g_dag g) → p ∈ ps) → (∀ p, p ∈ ps → ¬ rtc (edge (d_arcs (g_dag g))) t p) →
  ∃ co bi, (regression_coefficients o inv [t] ps g).2 = Ok (co, bi) ∧
    (∀ a p, ps !! a = Some p → co a O = weight g p t) ∧
    ((∀ i j, (i, j) ∈ d_arcs (g_dag g) → (i < j)%nat) → bi O = vec_of (g_bias g) t).
Proof.
  intros Hinv Hg Hb Hnd Hr Ht Hpa Hnde. assert (t ∉ ps) as Htp. { intros H. by apply (Hnde t H). }
  destruct (C92_residuals o inv n g [t] ps Hinv Hg Hb Hnd) as (C & m & co & bi & HC & Hm & Hco & H).
  { intros v [Hv|Hv]%elem_of_app; [by apply Hr|]. apply elem_of_list_singleton in Hv. by subst v. }
  destruct (H 0%nat t eq_refl) as [Hbi Hres]. specialize (Hres Htp).
  destruct (plain_sem inv n g Hinv Hg) as (V & C' & HV & HR & Hd & Hs & Hn & HE). rewrite HR in HC. cbn in HC. injection HC as ->.
  pose proof (sem_posdef n _ V C _ HV Hd Hs Hn) as Hpd. pose proof Hg as (Hwf & Hl & Hac & Hv & Hfr).
  pose proof (noise_residual n _ V C _ _ HV Hn Hac HE (list_to_set ps) t Ht) as Hno.
  assert (in_range n ps) as Hir by (apply Forall_forall; exact Hr).
  assert (∀ a p, ps !! a = Some p → co a O = g_w g p t) as Hw.
  { intros a p Hap. assert (p ∈ ps) as Hp by by eapply elem_of_list_lookup_2. pose proof (lookup_lt_Some _ _ _ Hap) as Hal.
    assert (residual n C (list_to_set ps) t (noise (g_w g) t)) as Hno'.
    { apply Hno; [by rewrite elem_of_list_to_set|intros q Hq; rewrite elem_of_list_to_set; by apply Hpa|intros z Hz; rewrite elem_of_list_to_set in Hz; by apply Hnde]. }
    pose proof (residual_unique n C Hpd _ _ _ _ Hres Hno' p (Hr p Hp)) as E.
    pose proof (emb_at ps Hnd (λ a, co a O) a Hal) as E2. unfold emb in E2. rewrite Hap in E2. change (default O (Some p)) with p in E2. cbn beta in E, E2. rewrite E2 in E.
    unfold noise in E. transitivity (eunit t p - (eunit t p - co a O)); [ring|]. rewrite E. ring. }
  exists co, bi. split; [done|]. split. { intros a p Hap. rewrite (Hw a p Hap). symmetry. apply (lab_weight g n Hwf Hl); [apply Hr; by eapply elem_of_list_lookup_2|done]. }
  intros Hinc. destruct (C47_means o g n Hwf Hl Hb Hinc) as (m' & Hm' & Heq). rewrite Hm in Hm'. injection Hm' as <-.
  rewrite Hbi, (Heq t Ht).
  assert (qsum n (λ k, weight g k t * m k) = qsum (length ps) (λ a, m (default O (ps !! a)) * co a O)) as ->; [|ring].
  assert (ps ++ filter (λ v, v ∉ ps) (seq 0 n) ≡ₚ seq 0 n) as Hperm.
  { apply NoDup_Permutation; [|apply NoDup_seq|].
    - apply NoDup_app. split; [done|]. split; [intros v Hv1 [Hv2 _]%elem_of_list_filter; done|]. apply NoDup_filter, NoDup_seq.
    - intros v. rewrite elem_of_app, elem_of_list_filter, elem_of_seq. split; [intros [?%Hr|[_ ?]]; lia|]. intros Hv'. destruct (decide (v ∈ ps)); [by left|by right]. }
  rewrite (qsum_split n _ _ _ Hperm). rewrite (qsum_zero (length (filter _ _))).
  - transitivity (qsum (length ps) (λ k, weight g (default O (ps !! k)) t * m (default O (ps !! k)))); [ring|]. apply qsum_ext. intros a Ha.
    apply lookup_lt_is_Some in Ha as [p Hp]. rewrite Hp. cbn. rewrite (Hw a p Hp), (lab_weight g n Hwf Hl); [ring|apply Hr; by eapply elem_of_list_lookup_2|done].
  - intros k Hk. apply lookup_lt_is_Some in Hk as [v Hv']. rewrite Hv'. cbn. apply elem_of_list_lookup_2, elem_of_list_filter in Hv' as [Hv1 _].
    destruct (decide (weight g v t = 0)) as [->|Hne]; [ring|]. destruct Hv1. apply Hpa. by apply Hwf.
Qed.
Example C92_example : inverts exact_inv ∧ ∃ g, tri_make 1 2 1 = Ok g ∧ plain 3 g ∧ length (g_bias g) = 3%nat ∧
  (∀ i j, (i, j) ∈ d_arcs (g_dag g) → (i < j)%nat) ∧
  match (regression_coefficients oracle0 exact_inv [2; 0]%nat [1]%nat g).2 with
  | Ok (co, bi) => co 0%nat 0%nat = qz 7 / qz 3 ∧ bi 0%nat = qz 4 / qz 3 ∧ co 0%nat 1%nat = qz 1 / qz 3 ∧ bi 1%nat = qz 1 / qz 3 | Raise _ => False end ∧
  match (regression_coefficients oracle0 exact_inv [2]%nat [0; 1]%nat g).2 with
  | Ok (co, bi) => co 0%nat 0%nat = 1 ∧ co 1%nat 0%nat = qz 2 ∧ bi 0%nat = 1 | Raise _ => False end.
Proof.
  split; [apply exact_inv_ok|]. destruct (tri_plain 1 2 1) as (g & Hg & Hp & Hb & Hinc & _). exists g. split; [done|]. split; [done|]. split; [by rewrite Hb|]. split; [done|].
  assert (match tri_make 1 2 1 with Ok g => match (regression_coefficients oracle0 exact_inv [2; 0]%nat [1]%nat g).2 with
    | Ok (co, bi) => bool_decide (co 0%nat 0%nat = qz 7 / qz 3 ∧ bi 0%nat = qz 4 / qz 3 ∧ co 0%nat 1%nat = qz 1 / qz 3 ∧ bi 1%nat = qz 1 / qz 3) | Raise _ => false end | Raise _ => false end = true) as H1 by (vm_compute; reflexivity).
  assert (match tri_make 1 2 1 with Ok g => match (regression_coefficients oracle0 exact_inv [2]%nat [0; 1]%nat g).2 with
    | Ok (co, bi) => bool_decide (co 0%nat 0%nat = 1 ∧ co 1%nat 0%nat = qz 2 ∧ bi 0%nat = 1) | Raise _ => false end | Raise _ => false end = true) as H2 by (vm_compute; reflexivity).
  rewrite Hg in H1, H2. split.
  - destruct ((regression_coefficients oracle0 exact_inv [2; 0]%nat [1]%nat g).2) as [[co bi]|]; [|done]. by apply bool_decide_eq_true in H1.
  - destruct ((regression_coefficients oracle0 exact_inv [2]%nat [0; 1]%nat g).2) as [[co bi]|]; [|done]. by apply bool_decide_eq_true in H2.
Qed.

(** The bias is wrong when an arc goes to a smaller label, because [means] is (see [C47_means_refuted]). *)
Theorem C92_bias_refuted : ∃ g, plain 2 g ∧ length (g_bias g) = 2%nat ∧ d_arcs (g_dag g) = {[(1, 0)%nat]} ∧
  match (regression_coefficients oracle0 exact_inv [0]%nat [1]%nat g).2 with Ok (co, bi) => co 0%nat 0%nat = 1 ∧ bi 0%nat ≠ vec_of (g_bias g) 0%nat | Raise _ => False end.
Proof.
  set (W := mupd mzero 1%nat 0%nat 1).
  destruct (C79_from_amat oracle0 2 W (Some [0; 1]) None) as (g & Hg & Hwf & Hl & HW & HA & Hv & Hb & Hfr).
  assert (d_arcs (g_dag g) = {[(1, 0)%nat]}) as HE.
  { apply set_eq. intros [i j]. rewrite HA, elem_of_singleton. unfold W, mupd, mzero. split.
    - intros (_ & _ & H). case_decide as D; [destruct D; by subst|done].
    - intros [= -> ->]. split; [lia|]. split; [lia|]. by rewrite decide_True. }
  exists g. split; [|split; [by rewrite Hb|]].
  { split; [done|]. split; [done|]. split; [rewrite HE; by_vm|]. split; [|done]. split; [by rewrite Hv; unfold g_dim; rewrite Hl|]. rewrite Hv. repeat constructor. }
  split; [done|].
  assert (match gauss_from_amat oracle0 2 W None (Some [0; 1]) None with Ok g => match (regression_coefficients oracle0 exact_inv [0]%nat [1]%nat g).2 with
    | Ok (co, bi) => bool_decide (co 0%nat 0%nat = 1 ∧ bi 0%nat ≠ vec_of (g_bias g) 0%nat) | Raise _ => false end | Raise _ => false end = true) as H1 by (vm_compute; reflexivity).
  rewrite Hg in H1. destruct ((regression_coefficients oracle0 exact_inv [0]%nat [1]%nat g).2) as [[co bi]|]; [|done]. by apply bool_decide_eq_true in H1.
Qed.

(** ** C90: models from a precision matrix or a covariance matrix *)

Lemma Qc_inv_inv (q : Qc) : 0 < q → / / q = q.
Proof.
  intros Hq. pose proof (Qc_lt_ne _ Hq) as H1. pose proof (Qc_lt_ne _ (Qc_inv_pos q Hq)) as H2. transitivity (/ / q * (/ q * q)); [rewrite Qcmult_inv_l by done; ring|].
  rewrite Qcmult_assoc, Qcmult_inv_l by done. ring.
Qed.
(** Every positive definite matrix has one factorisation for each order, and no other matrix has. *)
Theorem C90_factors (n : nat) (ord : list node) (P : mat) :
  ord ≡ₚ seq 0 n →
  (posdef n P ↔ ∃ U e, factors n ord P U e) ∧
  ∀ U e U' e', factors n ord P U e → factors n ord P U' e' →
    ∀ i j, (i < n)%nat → (j < n)%nat → U i j = U' i j ∧ e i = e' i.
Proof.
  intros Hord. split. { split; [by apply factors_exist|]. intros (U & e & H). by eapply factors_posdef. }
  intros U e U' e' H H'. pose proof (factors_ldl n ord Hord P U e H) as E. pose proof (factors_ldl n ord Hord P U' e' H') as E'.
  destruct (ldl _ n) as [L d]. intros i j Hi Hj. destruct (E i j Hi Hj) as [<- _]. destruct (E' i j Hi Hj) as [<- _]. destruct (E i i Hi Hi) as [_ <-]. destruct (E' i i Hi Hi) as [_ <-]. done.
Qed.

(** When nothing is rounded to zero the result has the weights and the variances of the factorisation; its arcs
    follow the order; it satisfies the hypotheses of the theorems above; and its precision matrix is the given one. *)
Theorem C90_from_precision (o : oracle) (n : nat) (ord : list node) (P U : mat) (e : nat → Qc) :
  ord ≡ₚ seq 0 n → factors n ord P U e → above_tol n U e →
  ∃ g, from_precision o n P (Some ord) = Ok g ∧ plain n g ∧
    (∀ i j, (i < n)%nat → (j < n)%nat → g_w g i j = if decide (i = j) then 0 else - U i j) ∧
    (∀ i, (i < n)%nat → vec_of (g_var g) i = / e i) ∧ g_bias g = replicate n 0 ∧
    topo_order (d_nodes (g_dag g)) (d_arcs (g_dag g)) ord ∧
    ∃ P', (read_precision g).2 = Ok P' ∧ meq n P' P.
Proof.
  intros Hord HF Htol. pose proof HF as (H1 & H2 & H3). pose proof (factors_posdef n ord P U e Hord HF) as Hpd.
  unfold from_precision. rewrite sym_ok by apply Hpd. cbn [negb default].
  rewrite decide_True by (split; [by apply rev_len|split; [by apply rev_range|by eapply rev_nodup]]).
  pose proof (factors_ldl n ord Hord P U e HF) as HL. destruct (ldl _ n) as [L d]. cbn iota.
  rewrite decide_True.
  2: { apply Forall_forall. intros k Hk. apply elem_of_seq in Hk. destruct (rev_at n ord Hord k ltac:(lia)) as [_ Rk].
    destruct (HL _ _ Rk Rk) as [_ E]. rewrite (pos_at n ord Hord) in E by lia. rewrite E, tol2_eq.
    pose proof (Htol _ _ Rk Rk) as T. destruct (H1 _ Rk) as [E1 _]. rewrite E1 in T. replace (1 * 1 * e (default O (reverse ord !! k))) with (e (default O (reverse ord !! k))) in T by ring. apply T. done. }
  set (W := λ i j, mid i j - chop L d (pos_in (reverse ord) i) (pos_in (reverse ord) j)). set (vs := (λ i, / d (pos_in (reverse ord) i)) <$> seq 0 n).
  destruct (C79_from_amat o n W None (Some vs)) as (g & Hg & Hwf & Hl & HW & HA & Hv & Hb & Hfr). change (g_var g = vs) in Hv. change (g_bias g = replicate n 0) in Hb.
  assert (∀ i j, (i < n)%nat → (j < n)%nat → W i j = if decide (i = j) then 0 else - U i j) as HWU.
  { intros i j Hi Hj. destruct (HL i j Hi Hj) as [E1 E2]. unfold W. rewrite chop_id.
    - rewrite E1. unfold mid. case_decide as D; [subst; rewrite (proj1 (H1 j Hj)); ring|ring].
    - rewrite E1, E2, tol2_eq. by apply Htol. }
  assert (∀ i, (i < n)%nat → vec_of (g_var g) i = / e i) as Hve.
  { intros i Hi. rewrite Hv. unfold vec_of, vs. rewrite list_lookup_fmap, lookup_seq_lt by done. cbn. by destruct (HL i i Hi Hi) as [_ ->]. }
  assert (topo_order (d_nodes (g_dag g)) (d_arcs (g_dag g)) ord) as Htopo.
  { split; [rewrite Hord; apply NoDup_seq|]. split. { intros x. rewrite (lab_node g n Hwf Hl), Hord, elem_of_seq. lia. }
    intros i j x y (Hx & Hy & Hne)%HA Hix Hjy. rewrite HWU in Hne by done. case_decide as D; [done|].
    destruct (H2 x y Hx Hy D) as (i' & j' & Hi' & Hj' & Hij). { intros E. apply Hne. rewrite E. ring. }
    assert (NoDup ord) as Hnd by (rewrite Hord; apply NoDup_seq). rewrite (NoDup_lookup ord i i' x Hnd Hix Hi'), (NoDup_lookup ord j j' y Hnd Hjy Hj'). done. }
  assert (plain n g) as Hplain.
  { split; [done|]. split; [done|]. split. { eapply topo_order_acyclic; [|exact Htopo]. by destruct (lab_wf g Hwf). }
    split; [|done]. split. { rewrite Hv. unfold vs, g_dim. by rewrite fmap_length, Hl. }
    rewrite Hv. apply Forall_forall. intros v Hv'. apply elem_of_list_fmap in Hv' as (i & -> & Hi). apply elem_of_seq in Hi. destruct (HL i i ltac:(lia) ltac:(lia)) as [_ ->]. apply Qc_inv_pos, H1. lia. }
  exists g. split; [done|]. split; [done|].
  assert (∀ i j, (i < n)%nat → (j < n)%nat → g_w g i j = if decide (i = j) then 0 else - U i j) as HgU by (intros i j Hi Hj; rewrite HW by done; by apply HWU).
  split; [done|]. split; [done|]. split; [done|]. split; [done|].
  destruct (precision_formula g Hwf (variances_pos_ok g (proj1 (proj2 (proj2 (proj2 Hplain)))))) as (P' & HP' & HPf). rewrite (lab_dim g n Hl) in HPf.
  exists P'. split. { unfold read_precision. destruct Hfr as [-> _]. by rewrite HP'. }
  intros i j Hi Hj. rewrite HPf, H3 by done. unfold mmul, mT. apply qsum_ext. intros m Hm.
  assert (∀ x, (x < n)%nat → msub mid (g_w g) x m = U x m) as HU.
  { intros x Hx. unfold msub, mid. rewrite HgU by done. case_decide as D; [subst; rewrite (proj1 (H1 m Hm)); ring|ring]. }
  rewrite HU by done. f_equal. rewrite (qsum_one n _ m); [|done|].
  - rewrite HU by done. unfold mdiag. rewrite decide_True by done. rewrite Hve by done. f_equal. apply Qc_inv_inv. by apply H1.
  - intros k _ Hk. unfold mdiag. rewrite decide_False by done. ring.
Qed.

(** Without rounding the call succeeds exactly for positive definite matrices: the pivots must exceed 1e-16. *)
Theorem C90_raises (o : oracle) (n : nat) (ord : list node) (P : mat) :
  ord ≡ₚ seq 0 n → (∀ i j, (i < n)%nat → (j < n)%nat → P i j = P j i) →
  ((∃ g, from_precision o n P (Some ord) = Ok g) ↔ ∃ U e, factors n ord P U e ∧ ∀ i, (i < n)%nat → / qz 10000000000000000 < e i) ∧
  (¬ posdef n P → from_precision o n P (Some ord) = Raise ValueError).
Proof.
  intros Hord HP. pose proof (ldl_factors n ord Hord P HP) as HF. pose proof (factors_ldl n ord Hord P) as HL.
  assert (from_precision o n P (Some ord) = let '(L, d) := ldl (mix_ (reverse ord) (reverse ord) P) n in
    if decide (Forall (λ k, tol2 < d k) (seq 0 n)) then from_precision o n P (Some ord) else Raise ValueError) as E0.
  { unfold from_precision. rewrite sym_ok by done. cbn [negb default].
    rewrite decide_True by (split; [by apply rev_len|split; [by apply rev_range|by eapply rev_nodup]]). destruct (ldl _ n) as [L d]. by case_decide. }
  assert ((∃ g, from_precision o n P (Some ord) = Ok g) ↔ Forall (λ k, tol2 < (ldl (mix_ (reverse ord) (reverse ord) P) n).2 k) (seq 0 n)) as Hok.
  { split.
    - intros (g & Hg). rewrite Hg in E0. destruct (ldl _ n) as [L d]. by case_decide.
    - intros Hd. unfold from_precision. rewrite sym_ok by done. cbn [negb default].
      rewrite decide_True by (split; [by apply rev_len|split; [by apply rev_range|by eapply rev_nodup]]). destruct (ldl _ n) as [L d]. cbn in Hd. rewrite decide_True by done.
      match goal with |- context [gauss_from_amat o n ?W None None ?v] => destruct (C79_from_amat o n W None v) as (g & Hg & _) end. by exists g. }
  split.
  - rewrite Hok. destruct (ldl _ n) as [L d]. cbn [snd]. split.
    + intros Hd. rewrite Forall_forall in Hd. assert (∀ k, (k < n)%nat → tol2 < d k) as Hd' by (intros k Hk; apply Hd, elem_of_seq; lia).
      do 2 eexists. split; [apply HF; intros k Hk; eapply Qclt_trans; [exact tol2_pos|by apply Hd']|].
      intros i Hi. cbn. rewrite <-tol2_eq. apply Hd'. by eapply at_pos.
    + intros (U & e & HUe & He). specialize (HL U e HUe). apply Forall_forall. intros k Hk%elem_of_seq. destruct (rev_at n ord Hord k ltac:(lia)) as [_ Rk].
      destruct (HL _ _ Rk Rk) as [_ E]. rewrite (pos_at n ord Hord) in E by lia. rewrite E, tol2_eq. by apply He.
  - intros Hn. rewrite E0. destruct (ldl _ n) as [L d]. rewrite decide_False; [done|]. intros Hd. apply Hn. eapply factors_posdef; [exact Hord|]. apply HF.
    rewrite Forall_forall in Hd. intros k Hk. eapply Qclt_trans; [exact tol2_pos|apply Hd, elem_of_seq; lia].
Qed.

(** The factorisation of the precision matrix of a model. *)
Lemma plain_factors n g ord : plain n g → topo_order (d_nodes (g_dag g)) (d_arcs (g_dag g)) ord →
  ord ≡ₚ seq 0 n ∧ ∃ P, read_precision g = (with_prec (Some P) g, Ok P) ∧ factors n ord P (msub mid (g_w g)) (λ i, / vec_of (g_var g) i).
Proof.
  intros (Hwf & Hl & Hac & Hv & Hfr) (Hnd & Hin & Hto). pose proof (lab_dim g n Hl) as Hdim.
  assert (∀ x, x ∈ ord ↔ (x < n)%nat) as Hin' by (intros x; by rewrite Hin, (lab_node g n Hwf Hl)).
  split. { apply NoDup_Permutation; [done|apply NoDup_seq|]. intros x. rewrite Hin', elem_of_seq. lia. }
  destruct (precision_formula g Hwf (variances_pos_ok g Hv)) as (P & HP & HPf). rewrite Hdim in HPf.
  exists P. split. { unfold read_precision. destruct Hfr as [-> _]. by rewrite HP. }
  assert (∀ i j, (i < n)%nat → (j < n)%nat → g_w g i j ≠ 0 → (i, j) ∈ d_arcs (g_dag g)) as HA.
  { intros i j Hi Hj H. apply Hwf. by rewrite (lab_weight g n Hwf Hl). }
  split; [|split].
  - intros i Hi. split.
    + unfold msub, mid. rewrite decide_True by done. destruct (decide (g_w g i i = 0)) as [->|Hne]; [ring|]. apply HA in Hne; [|done..]. destruct (Hac i). by apply tc_once.
    + apply Qc_inv_pos. destruct Hv as [Hlen Hpos]. rewrite <-Hdim, <-Hlen in Hi. apply lookup_lt_is_Some in Hi as [x Hx]. unfold vec_of. rewrite Hx. cbn. rewrite Forall_lookup in Hpos. by eapply Hpos.
  - intros i j Hi Hj Hij Hne. assert ((i, j) ∈ d_arcs (g_dag g)) as Ha.
    { apply HA; [done..|]. intros E. apply Hne. unfold msub, mid. rewrite decide_False by done. rewrite E. ring. }
    pose proof Hi as Hi'. pose proof Hj as Hj'. apply Hin', elem_of_list_lookup in Hi' as [a Hia]. apply Hin', elem_of_list_lookup in Hj' as [b Hjb].
    exists a, b. split; [done|]. split; [done|]. by eapply Hto.
  - intros i j Hi Hj. rewrite HPf by done. unfold mmul, mT. apply qsum_ext. intros m Hm. f_equal.
    rewrite (qsum_one n _ m); [unfold mdiag; by rewrite decide_True|done|]. intros k _ Hk. unfold mdiag. rewrite decide_False by done. ring.
Qed.
Lemma factors_meq n ord P P' U e : meq n P P' → factors n ord P U e → factors n ord P' U e.
Proof. intros E (H1 & H2 & H3). split; [done|]. split; [done|]. intros i j Hi Hj. rewrite <-E by done. by apply H3. Qed.

(** A model is recovered from its precision matrix, or its covariance matrix, and a topological order. *)
Theorem C90_roundtrip (o : oracle) (inv : nat → mat → mat) (n : nat) (g : gauss) (ord : list node) :
  inverts inv → plain n g → topo_order (d_nodes (g_dag g)) (d_arcs (g_dag g)) ord →
  above_tol n (msub mid (g_w g)) (λ i, / vec_of (g_var g) i) →
  ∃ P C g' g'', (read_precision g).2 = Ok P ∧ (read_covariance inv g).2 = Ok C ∧
    from_precision o n P (Some ord) = Ok g' ∧ from_covariance o inv n C (Some ord) = Ok g'' ∧
    ∀ h, h = g' ∨ h = g'' → d_arcs (g_dag h) = d_arcs (g_dag g) ∧ d_nodes (g_dag h) = d_nodes (g_dag g) ∧
      meq n (g_w h) (g_w g) ∧ g_var h = g_var g.
Proof.
  intros Hinv Hg Hto Htol. destruct (plain_factors n g ord Hg Hto) as (Hord & P & HP & HF).
  destruct (plain_sem inv n g Hinv Hg) as (V & C & HV & HC & Hd & Hs & Hn & HE). pose proof Hg as (Hwf & Hl & Hac & Hv & Hfr).
  assert (is_inverse n P C) as Hi.
  { destruct (C46_inverse inv g Hwf (variances_pos_ok g Hv) Hfr) as (P' & C' & HP' & HC' & Hi & _). { rewrite (lab_dim g n Hl). apply Hinv. by exists V. }
    rewrite (lab_dim g n Hl) in Hi. rewrite HP in HP'. rewrite HC in HC'. cbn in HP', HC'. by injection HP' as <-; injection HC' as <-. }
  assert (meq n P (inv n C)) as HPC.
  { apply (inverse_unique n C); [by destruct Hi|]. apply Hinv. exists P. by destruct Hi. }
  destruct (C90_from_precision o n ord P _ _ Hord HF Htol) as (g' & Hg' & Hp' & Hw' & Hv' & _).
  destruct (C90_from_precision o n ord (inv n C) _ _ Hord (factors_meq n ord P _ _ _ HPC HF) Htol) as (g'' & Hg'' & Hp'' & Hw'' & Hv'' & _).
  exists P, C, g', g''. split; [by rewrite HP|]. split; [by rewrite HC|]. split; [done|]. split. { unfold from_covariance. by rewrite (sym_ok n C Hs). }
  assert (∀ h, plain n h → (∀ i j, (i < n)%nat → (j < n)%nat → g_w h i j = (if decide (i = j) then 0 else - msub mid (g_w g) i j)) →
    (∀ i, (i < n)%nat → vec_of (g_var h) i = / / vec_of (g_var g) i) →
    d_arcs (g_dag h) = d_arcs (g_dag g) ∧ d_nodes (g_dag h) = d_nodes (g_dag g) ∧ meq n (g_w h) (g_w g) ∧ g_var h = g_var g) as Hkey.
  { intros h Hh Hwh Hvh. assert (meq n (g_w h) (g_w g)) as Hm.
    { intros i j Hi' Hj'. rewrite Hwh by done. case_decide as D.
      - subst j. destruct (decide (g_w g i i = 0)) as [->|Hne]; [done|]. assert ((i, i) ∈ d_arcs (g_dag g)) as Ha by (by apply HE). destruct (Hac i). by apply tc_once.
      - unfold msub, mid. rewrite decide_False by done. ring. }
    pose proof Hh as (Hwfh & Hlh & _ & Hvph & _).
    assert (∀ a, a ∈ d_arcs (g_dag h) ↔ a ∈ d_arcs (g_dag g)) as HEq.
    { intros [i j]. rewrite HE. destruct (plain_sem inv n h Hinv Hh) as (_ & _ & _ & _ & _ & _ & _ & HEh). rewrite HEh. split; intros (Hi' & Hj' & H); (split; [done|split; [done|]]); [by rewrite <-Hm|by rewrite Hm]. }
    split; [by apply set_eq|]. split. { apply set_eq. intros x. by rewrite (lab_node h n Hwfh Hlh), (lab_node g n Hwf Hl). }
    split; [done|]. destruct Hvph as [Lh _], Hv as [Lg _]. rewrite (lab_dim h n Hlh) in Lh. rewrite (lab_dim g n Hl) in Lg.
    apply list_eq. intros i. destruct (decide (i < n)%nat) as [Hin|Hin]; [|by rewrite !lookup_ge_None_2 by lia].
    specialize (Hvh i Hin). rewrite Qc_inv_inv in Hvh by by apply Hd.
    assert (i < length (g_var h))%nat as [x Hx]%lookup_lt_is_Some by lia. assert (i < length (g_var g))%nat as [y Hy]%lookup_lt_is_Some by lia.
    unfold vec_of in Hvh. rewrite Hx, Hy in *. cbn in Hvh. by subst. }
  intros h [->| ->]; by apply Hkey.
Qed.

(** The arcs of the result are the dependences: [i] is a parent of a later [j] if and only if they are correlated given the
    other nodes before [j]. *)
Theorem C90_arcs (o : oracle) (inv : nat → mat → mat) (n : nat) (ord : list node) (P U : mat) (e : nat → Qc) :
  inverts inv → ord ≡ₚ seq 0 n → factors n ord P U e → above_tol n U e →
  ∃ g C, from_precision o n P (Some ord) = Ok g ∧ (read_covariance inv g).2 = Ok C ∧ is_inverse n P C ∧
    ∀ i j (W : nset), (i < n)%nat → (j < n)%nat → before ord i j → (∀ x, x ∈ W ↔ before ord x j ∧ x ≠ i) →
      ((i, j) ∈ d_arcs (g_dag g) ↔ ¬ uncorrelated n C W j i).
Proof.
  intros Hinv Hord HF Htol. destruct (C90_from_precision o n ord P U e Hord HF Htol) as (g & Hg & Hp & _ & _ & _ & Hto & P' & HP' & HPP).
  destruct (plain_sem inv n g Hinv Hp) as (V & C & HV & HC & Hd & Hs & Hn & HE). pose proof (sem_posdef n _ V C _ HV Hd Hs Hn) as Hpd. pose proof Hp as (Hwf & Hl & Hac & Hv & Hfr).
  exists g, C. split; [done|]. split; [by rewrite HC|]. split.
  { destruct (C46_inverse inv g Hwf (variances_pos_ok g Hv) Hfr) as (P'' & C' & HP'' & HC' & Hi & _). { rewrite (lab_dim g n Hl). apply Hinv. by exists V. }
    rewrite (lab_dim g n Hl) in Hi. rewrite HP' in HP''. rewrite HC in HC'. cbn in HC'. injection HP'' as <-. injection HC' as <-. eapply inverse_proper; [exact HPP|reflexivity|done]. }
  intros i j W Hi Hj Hij HW. destruct Hto as (Hnd & Hin & Hto).
  assert (∀ x y, before ord x y → before ord y x → False) as Has.
  { intros x y (a & b & Ha & Hb & Hab) (b' & a' & Hb' & Ha' & Hab'). rewrite (NoDup_lookup ord a a' x), (NoDup_lookup ord b b' y) in Hab by done. lia. }
  assert (∀ x y, (x, y) ∈ d_arcs (g_dag g) → before ord x y) as Hfw.
  { intros x y Hxy. pose proof (lab_wf g Hwf) as [Hov _ _ _]. destruct (Hov _ _ Hxy) as [Hx Hy]. apply Hin, elem_of_list_lookup in Hx as [a Ha]. apply Hin, elem_of_list_lookup in Hy as [b Hb].
    exists a, b. split; [done|]. split; [done|]. by eapply Hto. }
  assert (∀ x y z, before ord x y → before ord y z → before ord x z) as Htr.
  { intros x y z (a & b & Ha & Hb & Hab) (b' & c & Hb' & Hc & Hbc). rewrite (NoDup_lookup ord b b' y) in Hab by done. exists a, c. split; [done|]. split; [done|]. lia. }
  set (B := W ∪ {[i]}). assert (∀ x, x ∈ B ↔ before ord x j) as HB.
  { intros x. unfold B. rewrite elem_of_union, HW, elem_of_singleton. destruct (decide (x = i)) as [->|]; tauto. }
  assert (residual n C B j (noise (g_w g) j)) as Hres.
  { apply (noise_residual n _ V C _ _ HV Hn Hac HE); [done| | |].
    - rewrite HB. intros H. by apply (Has j j).
    - intros p Hp'. apply HB. by apply Hfw.
    - intros z Hz%HB Hjz. assert (j = z ∨ before ord j z) as [->|Hb].
      { clear -Hjz Hfw Htr. induction Hjz as [|x y z Hxy _ IH]; [by left|]. right. apply Hfw in Hxy. destruct IH as [->|IH]; [done|by eapply Htr]. }
      + by apply (Has z z).
      + by apply (Has j z). }
  assert (i ≠ j) as Hne. { intros ->. by apply (Has j j). }
  assert (i ∈ B) as HiB by by apply HB. pose proof (unc_coef n C Hpd B j i _ Hres Hi HiB Hne) as Hiff.
  replace (B ∖ {[i]}) with W in Hiff.
  2: { apply set_eq. intros x. rewrite elem_of_difference, HB, HW, elem_of_singleton. done. }
  rewrite <-Hiff, HE. unfold noise. assert (eunit j i = 0) as -> by (unfold eunit; by rewrite decide_False). split.
  - intros (_ & _ & H) H0. apply H. transitivity (- (0 - g_w g i j)); [ring|]. rewrite H0. ring.
  - intros H. split; [done|]. split; [done|]. intros H0. apply H. rewrite H0. ring.
Qed.

Example C90_example : inverts exact_inv ∧ ∃ g, tri_make 1 2 1 = Ok g ∧ plain 3 g ∧ topo_order (d_nodes (g_dag g)) (d_arcs (g_dag g)) [0; 1; 2]%nat ∧
  above_tol 3 (msub mid (g_w g)) (λ i, / vec_of (g_var g) i) ∧
  (∃ P, factors 3 [0; 1; 2]%nat P (msub mid (g_w g)) (λ i, / vec_of (g_var g) i)) ∧
  match (read_precision g).2 with
  | Ok P => match from_precision oracle0 3 P (Some [2; 0; 1]%nat) with Ok g' => d_arcs (g_dag g') = {[(2, 0); (2, 1); (0, 1)]}%nat ∧ weight g' 2%nat 0%nat = qz 3 / qz 20 | Raise _ => False end
  | Raise _ => False end.
Proof.
  split; [apply exact_inv_ok|]. destruct (tri_plain 1 2 1) as (g & Hg & Hp & Hb & Hinc & Hw & Hv). exists g. split; [done|]. split; [done|].
  pose proof Hp as (Hwf & Hl & _).
  assert (topo_order (d_nodes (g_dag g)) (d_arcs (g_dag g)) [0; 1; 2]%nat) as Hto.
  { split; [by apply (bool_decide_unpack _)|]. split. { intros x. rewrite (lab_node g 3 Hwf Hl). change [0; 1; 2]%nat with (seq 0 3). rewrite elem_of_seq. lia. }
    intros i j x y Hxy%Hinc Hix Hjy. change [0; 1; 2]%nat with (seq 0 3) in *. apply lookup_seq in Hix, Hjy. lia. }
  split; [done|]. split.
  { intros i j Hi Hj Hne. unfold msub in *. rewrite Hw, Hv in * by done. clear -Hi Hj Hne.
    destruct i as [|[|[|?]]]; [..|lia]; (destruct j as [|[|[|?]]]; [..|lia]); first [by vm_compute|exfalso; apply Hne; by vm_compute]. }
  split. { destruct (plain_factors 3 g _ Hp Hto) as (_ & P & _ & HF). by exists P. }
  assert (match tri_make 1 2 1 with Ok g => match (read_precision g).2 with
  | Ok P => match from_precision oracle0 3 P (Some [2; 0; 1]%nat) with Ok g' => bool_decide (d_arcs (g_dag g') = {[(2, 0); (2, 1); (0, 1)]}%nat ∧ weight g' 2%nat 0%nat = qz 3 / qz 20) | Raise _ => false end
  | Raise _ => false end | Raise _ => false end = true) as H by (vm_compute; reflexivity).
  rewrite Hg in H. destruct (read_precision g).2 as [P|]; [|done]. destruct (from_precision _ _ _ _); [|done]. by apply bool_decide_eq_true in H.
Qed.

(** Small weights are lost: a model with the weight 1e-9 is not recovered. *)
Theorem C90_small_refuted : ∃ g P g', plain 2 g ∧ topo_order (d_nodes (g_dag g)) (d_arcs (g_dag g)) [0; 1]%nat ∧
  (read_precision g).2 = Ok P ∧ from_precision oracle0 2 P (Some [0; 1]%nat) = Ok g' ∧ d_arcs (g_dag g) = {[(0, 1)%nat]} ∧ d_arcs (g_dag g') = ∅.
Proof.
  set (W := mupd mzero 0%nat 1%nat (/ qz 1000000000)).
  destruct (C79_from_amat oracle0 2 W None None) as (g & Hg & Hwf & Hl & HW & HA & Hv & Hb & Hfr).
  assert (d_arcs (g_dag g) = {[(0, 1)%nat]}) as HE.
  { apply set_eq. intros [i j]. rewrite HA, elem_of_singleton. unfold W, mupd, mzero. split.
    - intros (_ & _ & H). case_decide as D; [destruct D; by subst|done].
    - intros [= -> ->]. split; [lia|]. split; [lia|]. rewrite decide_True by done. done. }
  assert (match gauss_from_amat oracle0 2 W None None None with Ok g => match (read_precision g).2 with
  | Ok P => match from_precision oracle0 2 P (Some [0; 1]%nat) with Ok g' => bool_decide (d_arcs (g_dag g') = ∅) | Raise _ => false end
  | Raise _ => false end | Raise _ => false end = true) as H by (vm_compute; reflexivity).
  rewrite Hg in H. destruct (read_precision g).2 as [P|] eqn:EP; [|done]. destruct (from_precision _ _ _ _) as [g'|] eqn:Eg; [|done]. apply bool_decide_eq_true in H.
  exists g, P, g'. split.
  { split; [done|]. split; [done|]. split; [rewrite HE; by_vm|]. split; [|done]. split; [by rewrite Hv; unfold g_dim; rewrite Hl|]. rewrite Hv. repeat constructor. }
  split; [|done]. split; [by apply (bool_decide_unpack _)|]. split. { intros x. rewrite (lab_node g 2 Hwf Hl). change [0; 1]%nat with (seq 0 2). rewrite elem_of_seq. lia. }
  intros i j x y Hxy Hix Hjy. rewrite HE in Hxy. apply elem_of_singleton in Hxy as [= -> ->]. change [0; 1]%nat with (seq 0 2) in *. apply lookup_seq in Hix, Hjy. lia.
Qed.

(** ** C93: undirected Gaussian models *)

(** The graph joins [i] and [j] if and only if they are correlated given all other variables. *)
Theorem C93_edges (o : oracle) (flip : arc → bool) (inv : nat → mat → mat) (n : nat) (P : mat) :
  inverts inv → posdef n P →
  let g := ggm_make o flip n P in let C := ggm_covariance inv g in
  is_inverse n P C ∧ posdef n C ∧ (∀ x, x ∈ u_nodes (gg_graph g) ↔ (x < n)%nat) ∧
  (∀ i j, upair i j ∈ u_edges (gg_graph g) → i ≠ j ∧ (i < n)%nat ∧ (j < n)%nat) ∧
  ∀ i j (W : nset), (i < n)%nat → (j < n)%nat → i ≠ j → (∀ z, z ∈ W ↔ (z < n)%nat ∧ z ≠ i ∧ z ≠ j) →
    (upair i j ∈ u_edges (gg_graph g) ↔ ¬ uncorrelated n C W i j).
Proof.
  intros Hinv Hpd g C. assert (is_inverse n P C) as HC by exact (inverts_pd inv n P Hinv Hpd). assert (is_inverse n C P) as HC' by by destruct HC.
  pose proof (posdef_inverse n P C Hpd HC) as Hpc. split; [done|]. split; [done|]. split; [|split].
  - intros x. unfold g, ggm_make. cbn [gg_graph]. match goal with |- context [ug_make o flip ?N ?E] => destruct (ug_make_ok o flip N E) as (_ & Hov & HE & ->) end.
    rewrite elem_of_list_to_set, elem_of_seq. split; [|lia]. intros [?|(y & Hxy & H)]; [lia|].
    assert (upair x y ∈ u_edges (gg_graph g)) as Hu. { unfold g, ggm_make. cbn [gg_graph]. apply HE. done. }
    apply (ggm_edges o flip n P (proj1 Hpd)) in Hu. apply Hu.
  - intros i j Hu. apply (ggm_edges o flip n P (proj1 Hpd)) in Hu. destruct Hu as (? & ? & ? & _). done.
  - intros i j W Hi Hj Hij HW. unfold g. rewrite (ggm_edges o flip n P (proj1 Hpd)), <-(inverse_unc n C P i j W Hpc HC' Hi Hj Hij HW). tauto.
Qed.
(** Separated nodes have partial correlation 0 (the global Markov property of the graph). *)
Theorem C93_separated (o o' : oracle) (flip : arc → bool) (inv : nat → mat → mat) (n : nat) (P : mat) (i j : node) (cond : nset) :
  inverts inv → posdef n P → (i < n)%nat → (j < n)%nat → i ≠ j → i ∉ cond → j ∉ cond → (∀ v, v ∈ cond → (v < n)%nat) →
  let g := ggm_make o flip n P in
  useparated (λ a b, upair a b ∈ u_edges (gg_graph g)) cond i j →
  ∃ b, ggm_partial_correlation o' inv g i j cond = Ok (0, b) ∧ 0 < b.
Proof.
  intros Hinv Hpd Hi Hj Hij HiC HjC HC g Hsep. destruct (C93_edges o flip inv n P Hinv Hpd) as (HI & Hpc & _ & _ & HE). fold g in HI, Hpc, HE.
  set (C := ggm_covariance inv g) in *.
  assert (uncorrelated n C cond i j) as (r & s & Hr & Hs & H0).
  { apply (unc_global n C Hpc (λ a b, upair a b ∈ u_edges (gg_graph g))); [|..|done]; try done.
    - intros a b. unfold upair. by rewrite Nat.min_comm, Nat.max_comm.
    - intros x y W Hx Hy Hxy Hn HW. apply (unc_stable n C Hpc). intros Hu. apply Hn. by apply (HE x y W). }
  destruct (partial_spec o' inv n C i j cond Hinv Hpc Hi Hj Hij HiC HjC HC) as (a & b & H1 & H2 & H3). destruct (H3 r s Hr Hs) as (k & _ & Ha & _).
  exists b. split; [|done]. unfold ggm_partial_correlation. change (gg_dim g) with n. fold C. rewrite H1, Ha, H0. do 2 f_equal. ring.
Qed.
(** [from_covariance] keeps the given matrix and has the same graph as its inverse. *)
Theorem C93_from_covariance (o : oracle) (flip : arc → bool) (inv : nat → mat → mat) (n : nat) (C : mat) :
  inverts inv → posdef n C →
  let g := ggm_from_covariance o flip inv n C in
  ggm_covariance inv g = C ∧ posdef n (gg_prec g) ∧ is_inverse n C (gg_prec g) ∧ gg_graph g = gg_graph (ggm_make o flip n (gg_prec g)).
Proof.
  intros Hinv Hpd g. pose proof (inverts_pd inv n C Hinv Hpd) as HI. split; [done|]. split; [by eapply posdef_inverse|]. done.
Qed.
(** [from_adjacency] with the weights and variances of a [GaussDAG] has its precision matrix, and edges only where the moral
    graph has. *)
Theorem C93_from_adjacency (o o' : oracle) (flip flip' : arc → bool) (n : nat) (g : gauss) :
  plain n g →
  ∃ P h, (read_precision g).2 = Ok P ∧ ggm_from_adjacency o flip n (g_w g) (Some (g_var g)) = Ok h ∧ meq n (gg_prec h) P ∧
    ∀ i j, upair i j ∈ u_edges (gg_graph h) → upair i j ∈ u_edges (moral_graph (g_dag g) o' flip').
Proof.
  intros (Hwf & Hl & Hac & Hv & Hfr). pose proof (lab_dim g n Hl) as Hdim.
  assert (∃ P h, precision_of g = Ok P ∧ ggm_from_adjacency o flip n (g_w g) (Some (g_var g)) = Ok h ∧ gg_prec h = P ∧ h = ggm_make o flip n P) as (P & h & HP & Hh & HhP & Ehm).
  { destruct (precision_formula g Hwf (variances_pos_ok g Hv)) as (P & HP & _). exists P. pose proof HP as HP2. unfold precision_of in HP2. rewrite Hdim in HP2.
    unfold ggm_from_adjacency. change (default (replicate n 1) (Some (g_var g))) with (g_var g).
    destruct (decide (size (d_nodes (g_dag g)) = n)) as [_|]; [|done].
    destruct (decide (all_one (g_var g))) as [_|]; [injection HP2 as <-; by eexists|]. destruct (decide (length (g_var g) = n)) as [_|]; [injection HP2 as <-; by eexists|done]. }
  exists P, h. split. { unfold read_precision. destruct Hfr as [-> _]. by rewrite HP. } split; [done|]. split; [by rewrite HhP|].
  destruct (precision_formula g Hwf (variances_pos_ok g Hv)) as (P' & HP' & HPf). rewrite HP in HP'. injection HP' as <-. rewrite Hdim in HPf.
  assert (∀ i j, (i < n)%nat → (j < n)%nat → P i j = qsum n (λ m, msub mid (g_w g) i m * / vec_of (g_var g) m * msub mid (g_w g) j m)) as HPe.
  { intros i j Hi Hj. rewrite HPf by done. unfold mmul, mT. apply qsum_ext. intros m Hm. f_equal.
    rewrite (qsum_one n _ m); [unfold mdiag; by rewrite decide_True|done|]. intros k _ Hk. unfold mdiag. rewrite decide_False by done. ring. }
  intros i j Hu. rewrite Ehm in Hu. apply ggm_edges in Hu as (Hij & Hi & Hj & Hne).
  2: { intros a b Ha Hb. rewrite !HPe by done. apply qsum_ext. intros m _. ring. }
  rewrite HPe in Hne by done. apply qsum_nonzero in Hne as (m & Hm & Hne).
  assert (∀ x, (x < n)%nat → msub mid (g_w g) x m ≠ 0 → x = m ∨ (x, m) ∈ d_arcs (g_dag g)) as Hx.
  { intros x Hx H. destruct (decide (x = m)) as [|Hxm]; [by left|]. right. apply Hwf. rewrite (lab_weight g n Hwf Hl) by done. intros E. apply H. unfold msub, mid. rewrite decide_False by done. rewrite E. ring. }
  assert (msub mid (g_w g) i m ≠ 0) as H1 by (intros E; apply Hne; rewrite E; ring).
  assert (msub mid (g_w g) j m ≠ 0) as H2 by (intros E; apply Hne; rewrite E; ring).
  destruct Hwf as (Hva & _). apply C32_moral_graph; [done|]. split; [done|]. unfold adjacent.
  destruct (Hx i Hi H1) as [->|Ha], (Hx j Hj H2) as [->|Hb]; [done|left; by right|left; by left|right; by exists m].
Qed.
(** The moral graph can have more edges, when weights cancel. *)
Theorem C93_moral_refuted : ∃ g h, plain 3 g ∧ ggm_from_adjacency oracle0 (λ _, false) 3 (g_w g) (Some (g_var g)) = Ok h ∧
  (0, 1)%nat ∈ d_arcs (g_dag g) ∧ upair 0 1 ∉ u_edges (gg_graph h).
Proof.
  destruct (tri_plain 2 3 1) as (g & Hg & Hp & _). exists g.
  assert (match tri_make 2 3 1 with Ok g => match ggm_from_adjacency oracle0 (λ _, false) 3 (g_w g) (Some (g_var g)) with
    | Ok h => bool_decide ((0, 1)%nat ∈ d_arcs (g_dag g) ∧ upair 0 1 ∉ u_edges (gg_graph h)) | Raise _ => false end | Raise _ => false end = true) as H by (vm_compute; reflexivity).
  rewrite Hg in H. destruct (ggm_from_adjacency _ _ _ _ _) as [h|]; [|done]. apply bool_decide_eq_true in H. exists h. split; [done|]. split; [done|]. done.
Qed.
(** The chain 0 - 1 - 2. *)
Definition chain_prec : mat := λ i j, if decide (i = j) then qz 2 else if decide (i + j = 2)%nat then 0 else 1.
Example C93_example : inverts exact_inv ∧ posdef 3 chain_prec ∧
  let g := ggm_make oracle0 (λ _, false) 3 chain_prec in
  useparated (λ a b, upair a b ∈ u_edges (gg_graph g)) {[1%nat]} 0%nat 2%nat ∧
  u_edges (gg_graph g) = {[(0, 1); (1, 2)]}%nat ∧
  ggm_partial_correlation oracle0 exact_inv g 0%nat 2%nat ∅ = Ok (/ qz 4, qz 9 / qz 16).
Proof.
  split; [apply exact_inv_ok|]. split.
  { apply (factors_posdef 3 [0; 1; 2]%nat _ (λ i j, if decide (i = j) then 1 else if decide (i = 0 ∧ j = 1)%nat then qz 2 / qz 3 else if decide (i = 1 ∧ j = 2)%nat then / qz 2 else 0)
      (λ i, if decide (i = 0)%nat then qz 4 / qz 3 else if decide (i = 1)%nat then qz 3 / qz 2 else qz 2)); [done|].
    split; [|split].
    - intros i Hi. rewrite decide_True by done. split; [done|]. destruct i as [|[|[|?]]]; [..|lia]; done.
    - intros i j Hi Hj Hij Hne. rewrite decide_False in Hne by done. destruct (decide (i = 0 ∧ j = 1)%nat) as [[-> ->]|]; [exists 0%nat, 1%nat; split_and!; [done|done|lia]|].
      destruct (decide (i = 1 ∧ j = 2)%nat) as [[-> ->]|]; [exists 1%nat, 2%nat; split_and!; [done|done|lia]|done].
    - intros i j Hi Hj. destruct i as [|[|[|?]]]; [..|lia]; (destruct j as [|[|[|?]]]; [..|lia]); apply Qc_is_canon; vm_compute; reflexivity. }
  intros g. assert (u_edges (gg_graph g) = {[(0, 1); (1, 2)]}%nat) as HE by by_vm. split; [|split; [done|]].
  - intros Hr. assert (∀ x, rtc (λ a b, upair a b ∈ u_edges (gg_graph g) ∧ b ∉ ({[1%nat]} : nset)) 0%nat x → x = 0%nat) as H; [|by apply H in Hr].
    apply (rtc_ind_r (λ x, x = 0%nat)); [done|]. intros y z _ [Hyz Hz] ->. rewrite HE in Hyz. unfold upair in Hyz. apply elem_of_union in Hyz as [Hyz|Hyz]; apply elem_of_singleton in Hyz; injection Hyz; intros; [|lia].
    destruct Hz. apply elem_of_singleton. lia.
  - assert (match ggm_partial_correlation oracle0 exact_inv g 0%nat 2%nat ∅ with Ok p => bool_decide (p = (/ qz 4, qz 9 / qz 16)) | Raise _ => false end = true) as H by (vm_compute; reflexivity).
    destruct (ggm_partial_correlation _ _ _ _ _ _); [|done]. apply bool_decide_eq_true in H. by subst.
Qed.

Print Assumptions C89_residuals.
Print Assumptions C89_residuals_exist.
Print Assumptions C89_dsep.
Print Assumptions C89_converse_refuted.
Print Assumptions C91_marginal_precision.
Print Assumptions C92_residuals.
Print Assumptions C92_parents.
Print Assumptions C92_bias_refuted.
Print Assumptions C90_factors.
Print Assumptions C90_from_precision.
Print Assumptions C90_raises.
Print Assumptions C90_roundtrip.
Print Assumptions C90_arcs.
Print Assumptions C90_small_refuted.
Print Assumptions C93_edges.
Print Assumptions C93_separated.
Print Assumptions C93_from_covariance.
Print Assumptions C93_from_adjacency.
Print Assumptions C93_moral_refuted.
