(** Final theorems about subset enumeration and possible parent sets: C51. *)
From Verif Require Import Py Spec SpecDsep SpecMec DagModel UGraphModel PdagModel InterveneModel UtilModel
  TopoProofs StateProofs ReachProofs OrderProofs QueryProofs UGraphProofs MarkovProofs ImapProofs PdagProofs ProtProofs EquivProofs MeekProofs MecProofs
  InterveneProofs UtilProofs PropertiesDag PropertiesMec PropertiesEnum.
#[local] Open Scope nat_scope.

(** ** C51: [powerset] *)

(** [l] is the iterable: a set in some order, or a list without repetitions. *)
Theorem C51_powerset (l : list node) (r_min : Z) (r_max : option Z) :
  NoDup l → (0 ≤ r_min)%Z →
  ∃ k, py_powerset l r_min r_max = Ok k ∧ NoDup k ∧
    ∀ X : nset, X ∈ k ↔ X ⊆ list_to_set l ∧ (r_min ≤ Z.of_nat (size X))%Z ∧
      match r_max with Some r => (Z.of_nat (size X) ≤ r)%Z | None => True end.
Proof.
  intros Hl Hr. unfold py_powerset. set (hi := match r_max with Some r => r | None => _ end).
  assert (∀ r, r ∈ py_range r_min (hi + 1) → (0 ≤ r)%Z) as Hpos by (intros r ?%elem_of_py_range; lia).
  rewrite powerset_loop by done. cbn [res_bind app].
  destruct (bind_sets l (py_range r_min (hi + 1)) Hl (NoDup_py_range _ _) Hpos) as [H1 H2].
  eexists. split; [done|]. split; [done|]. intros X. rewrite H2, elem_of_py_range. unfold hi. destruct r_max as [r|].
  - split; intros [? ?]; (split; [done|]); lia.
  - split; intros [HX ?]; (split; [done|]); [lia|]. apply subseteq_size in HX. rewrite size_list_to_set in HX by done. lia.
Qed.

(** A negative [r_min] is an error as soon as the range of sizes is not empty. *)
Theorem C51_powerset_negative (l : list node) (r_min : Z) (r_max : option Z) :
  (r_min < 0)%Z →
  let hi := match r_max with Some r => r | None => Z.of_nat (length l) end in
  (hi < r_min → py_powerset l r_min r_max = Ok [])%Z ∧
  (r_min ≤ hi → py_powerset l r_min r_max = Raise ValueError)%Z.
Proof.
  intros Hr hi. unfold py_powerset. fold hi. unfold py_range. split; intros H.
  - by replace (Z.to_nat (hi + 1 - r_min)) with 0 by lia.
  - destruct (Z.to_nat (hi + 1 - r_min)) as [|n] eqn:Hn; [lia|]. cbn [seq fmap list_fmap loopR]. rewrite Z.add_0_r.
    unfold py_combinations. by rewrite decide_True by lia.
Qed.

(** With a repeated element some subset comes twice. *)
Theorem C51_powerset_repeats_refuted :
  ∃ (l : list node) k, py_powerset l 0 None = Ok k ∧ ¬ NoDup k.
Proof. exists [1; 1], [∅; {[1]}; {[1]}; {[1]}]. split; [by_vm|]. by_vm. Qed.

Example C51_powerset_example :
  py_powerset [3; 1; 2] 1 (Some 2%Z) = Ok [{[3]}; {[1]}; {[2]}; {[1; 3]}; {[2; 3]}; {[1; 2]}] ∧
  py_powerset [3; 1] (-1) (Some (-2)%Z) = Ok [] ∧ py_powerset [3; 1] (-1) None = Raise ValueError.
Proof. split_and!; by_vm. Qed.

(** ** C51: [powerset_predicate] *)

(** For a predicate that is preserved by dropping elements, the subsets that
    satisfy it, each once. *)
Theorem C51_powerset_predicate (P : list node → bool) (Q : nset → Prop) (l : list node) :
  NoDup l → (∀ s, NoDup s → P s = true ↔ Q (list_to_set s)) → (∀ X Y, X ⊆ Y → Q Y → Q X) →
  NoDup (powerset_predicate P l) ∧ ∀ X : nset, X ∈ powerset_predicate P l ↔ X ⊆ list_to_set l ∧ Q X.
Proof.
  intros Hl HPQ Hmono. destruct (powerset_predicate_spec P l Hl) as [H1 H2]. split; [done|]. intros X. rewrite H2. split.
  - intros [(s & Hs & <- & HP) _]. split; [intros x; rewrite !elem_of_list_to_set; by apply sublist_in|].
    apply HPQ; [by eapply sublist_nodup|done].
  - intros [HX HQ]. destruct (subset_sublist l X Hl HX) as (s & Hs & <- & Hlen). pose proof (sublist_nodup _ _ Hs Hl) as Hsn.
    split; [exists s; split; [done|]; split; [done|]; by apply HPQ|].
    intros r Hr. exists (take r s). split; [etrans; [apply sublist_take|done]|]. split; [rewrite take_length; lia|].
    apply HPQ; [eapply sublist_nodup; [apply sublist_take|done]|]. eapply Hmono; [|exact HQ].
    intros x. rewrite !elem_of_list_to_set. apply sublist_in, sublist_take.
Qed.

(** For any predicate: what is yielded satisfies it, but the search stops at the
    first size without a satisfying subset. *)
Theorem C51_powerset_predicate_any (P : list node → bool) (l : list node) :
  NoDup l → NoDup (powerset_predicate P l) ∧ ∀ X : nset, X ∈ powerset_predicate P l ↔
    (∃ s, s `sublist_of` l ∧ list_to_set s = X ∧ P s = true) ∧
    ∀ r, r < size X → ∃ s, s `sublist_of` l ∧ length s = r ∧ P s = true.
Proof. apply powerset_predicate_spec. Qed.

Theorem C51_powerset_predicate_refuted :
  ∃ (P : list node → bool) l X, NoDup l ∧ X ⊆ list_to_set l ∧ P (elements X) = true ∧ X ∉ powerset_predicate P l.
Proof.
  exists (λ s, bool_decide (length s = 2)), [1; 2], {[1; 2]}. split_and!; [by_vm..|]. by_vm.
Qed.

Example C51_predicate_example :
  powerset_predicate (λ s, bool_decide (sum_list s ≤ 4)) [1; 2; 3] = [∅; {[1]}; {[2]}; {[3]}; {[1; 2]}; {[1; 3]}].
Proof. by_vm. Qed.

(** ** C51: [possible_parents] *)

Theorem C51_possible_parents g o v :
  pdag_wf g →
  NoDup (possible_parents g o v) ∧
  ∀ X : nset, X ∈ possible_parents g o v ↔
    (∀ x, x ∈ X → x ≠ v ∧ has_edge g x v = true) ∧ ∀ x y, x ∈ X → y ∈ X → x ≠ y → has_edge g x y = true.
Proof.
  rewrite <-pok_pdag_wf. intros Hg. destruct (possible_parents_spec g o v) as [H1 H2]. split; [done|].
  intros X. rewrite H2. setoid_rewrite has_edge_true. assert (∀ x, x ∈ p_unbrs g v ↔ x ≠ v ∧ upair x v ∈ p_edges g) as Hu.
  { intros x. rewrite (pok_unb g Hg), upair_comm. naive_solver. }
  split; intros [HX Hcl]; (split; [|done]); intros x Hx; by apply Hu, HX.
Qed.

(** In the graph [g] of a class, they are the parents that [v] can have in a member
    of the class, beyond those that all members share. *)
Lemma realised_parents N E K0 K Is v (X : nset) :
  acyclic E → over N E → known_spec E Is K0 → (∀ i j, (i, j) ∈ K ↔ prot E K0 i j) → v ∈ N →
  (∀ x, x ∈ X → und E K x v) ∧ (∀ x y, x ∈ X → y ∈ X → x ≠ y → und E K x y) ↔
  ∃ E', acyclic E' ∧ i_equivalent Is E E' ∧ ∀ x, x ∈ X ↔ (x, v) ∈ E' ∧ (x, v) ∉ K.
Proof.
  intros Hac Ho HKS HK HvN. pose proof (known_sub _ _ _ HKS) as HK0. pose proof (known_vs _ _ _ HKS) as HV.
  pose proof (known_closed _ _ _ Hac HKS K HK) as HL0.
  split.
  - intros [HX Hcl]. destruct (exists_topo N E Hac Ho) as [l0 Hl0].
    pose proof (und_good N E K0 K Hac Ho HK0 HV HK HL0 l0 Hl0) as Hg. destruct Hl0 as (Hnd0 & HN0 & _).
    assert (v ∉ X) as HvX by (intros H; by apply (und_ne E K Hac v v); [apply HX|]).
    destruct (good_reorder (und E K) (und_sym E K) l0 Hnd0 Hg (elements X ++ [v])) as (l' & Hp & Hg').
    { apply NoDup_app. split; [apply NoDup_elements|]. split; [|apply NoDup_singleton]. intros x Hx%elem_of_elements ->%elem_of_list_singleton. done. }
    { intros x [Hx%elem_of_elements| ->%elem_of_list_singleton]%elem_of_app; apply HN0; [|done].
      destruct (HX x Hx) as ([H|H] & _); by apply Ho in H as [??]. }
    { intros a b [Ha%elem_of_elements| ->%elem_of_list_singleton]%elem_of_app [Hb%elem_of_elements| ->%elem_of_list_singleton]%elem_of_app Hne;
        [by apply Hcl|by apply HX|by apply und_sym, HX|done]. }
    set (l := (elements X ++ [v]) ++ l') in *.
    assert (NoDup l) as Hnd by by rewrite Hp. assert (∀ x, x ∈ l ↔ x ∈ N) as HN by (intros x; by rewrite Hp, HN0).
    assert (acyclic (reorient E K l)) as Hac' by by apply (reorient_acyclic E K0 K).
    assert (equivalent E (reorient E K l)) as Heq by by apply (reorient_equivalent N E K0 K).
    assert (K ⊆ reorient E K l) as HKsub by (unfold reorient; clear; set_solver).
    exists (reorient E K l). split; [done|]. split; [split; [done|]|].
    + assert (∀ I i j, I ∈ Is → cut I i j → (i, j) ∈ E → (i, j) ∈ K) as Hcut.
      { intros I i j HI Hcut Hij. apply HK, prot_known, HKS. split; [done|]. right. by exists I. }
      intros I i j HI Hcij. split; intros Hij; [apply HKsub; by apply (Hcut I)|].
      assert (adjacent E i j) as [?|Hji] by (apply Heq; by left); [done|].
      exfalso. apply (acyclic_asym (reorient E K l) i j Hac' Hij). apply HKsub. apply (Hcut I); [done|by apply cut_sym|done].
    + assert (∀ x, x ∈ X → pos_of l x < length (elements X)) as Hpos1.
      { intros x Hx%elem_of_elements. unfold pos_of, l. rewrite <-app_assoc.
        destruct (list_find (x =.) (elements X)) as [[k z]|] eqn:Hf.
        - rewrite (list_find_app_l _ _ _ _ _ Hf). cbn. apply list_find_Some in Hf as (Hf & _ & _). by apply lookup_lt_Some in Hf.
        - apply list_find_None in Hf. rewrite Forall_forall in Hf. by destruct (Hf x Hx). }
      assert (∀ x, x ∈ l → x ∉ X → x ≠ v → length (elements X) < pos_of l x) as Hpos2.
      { intros x Hx HxX Hxv. assert (elements X ++ v :: l' = l) as Hleq by (unfold l; by rewrite <-app_assoc).
        assert ((elements X ++ v :: l') !! pos_of l x = Some x) as Hlk by (rewrite Hleq; by apply pos_lookup).
        destruct (decide (length (elements X) < pos_of l x)) as [|Hge]; [done|exfalso].
        destruct (decide (pos_of l x < length (elements X))) as [Hlt|Hlt].
        - rewrite lookup_app_l in Hlk by done. apply HxX, elem_of_elements. by eapply elem_of_list_lookup_2.
        - replace (pos_of l x) with (length (elements X) + 0) in Hlk by lia. rewrite lookup_app_r in Hlk by lia.
          replace (length (elements X) + 0 - length (elements X)) with 0 in Hlk by lia. cbn in Hlk. congruence. }
      assert (pos_of l v = length (elements X)) as Hposv.
      { assert (v ∈ l) as Hvl by by apply HN. pose proof (pos_lookup l v Hvl) as Hlk.
        eapply NoDup_lookup; [exact Hnd|exact Hlk|]. unfold l. rewrite <-app_assoc, lookup_app_r by lia. by rewrite Nat.sub_diag. }
      intros x. split.
      * intros Hx. pose proof (HX x Hx) as Hu. split; [|by destruct Hu as (_ & ? & _)]. unfold reorient. apply elem_of_union. right.
        apply elem_of_uord. split; [done|]. rewrite Hposv. by apply Hpos1.
      * intros [Hx HxK]. unfold reorient in Hx. apply elem_of_union in Hx as [?|[Hu Hlt]%elem_of_uord]; [done|].
        destruct (decide (x ∈ X)) as [|HxX]; [done|exfalso]. pose proof (und_ne E K Hac x v Hu) as Hne.
        assert (x ∈ l) as Hxl. { apply HN. destruct Hu as ([H|H] & _); by apply Ho in H as [??]. }
        specialize (Hpos2 x Hxl HxX Hne). lia.
  - intros (E' & Hac' & [Heq Hc] & HX).
    assert (K ⊆ E') as HKE.
    { assert (K0 ⊆ E') as HKE0.
      { intros [x z] Hxz. apply HKS in Hxz as [HxzE [(y & Hy)|(I & HI & Hxz)]]; [by apply Heq in Hy as []|]. by apply (Hc I). }
      intros [i j] Hij. apply (prot_sub E' K0 i j HKE0). apply (prot_equiv E E' K0); [done..|]. by apply HK. }
    assert (∀ x, x ∈ X → und E K x v) as Hund.
    { intros x [H1 H2]%HX. split; [apply Heq; by left|]. split; [done|]. intros H3. by apply (acyclic_asym E' x v Hac' H1), HKE. }
    split; [done|]. intros x y Hx Hy Hne. pose proof (proj1 (HX x) Hx) as [HxE HxK]. pose proof (proj1 (HX y) Hy) as [HyE HyK].
    split; [|split].
    + destruct (decide ((x, y) ∈ E')) as [|H1]; [apply Heq; by left|]. destruct (decide ((y, x) ∈ E')) as [|H2]; [apply Heq; by right|].
      exfalso. assert (vstruct E' x v y) as Hv. { split_and!; [done..|]. intros [?|?]; done. }
      apply Heq in Hv. apply (K_v E K0 K HV HK) in Hv as [? _]. done.
    + intros H. apply HxK. eapply (K_und E K0 K Hac HK0 HV HK HL0); [exact H|by apply Hund].
    + intros H. apply HyK. eapply (K_und E K0 K Hac HK0 HV HK HL0); [exact H|by apply Hund].
Qed.

Lemma shown_parents N E K0 g Is o v (X : nset) :
  acyclic E → over N E → known_spec E Is K0 → closed_form N E K0 g → v ∈ N →
  X ∈ possible_parents g o v ↔
  ∃ E', acyclic E' ∧ i_equivalent Is E E' ∧ ∀ x, x ∈ X ↔ (x, v) ∈ E' ∧ (x, v) ∉ p_arcs g.
Proof.
  intros Hac Ho HKS Hcf HvN.
  destruct (closed_form_directs _ _ _ _ Hac Hcf) as (_ & _ & _ & He).
  rewrite <-(realised_parents N E K0 (p_arcs g) Is v X Hac Ho HKS (cf_arcs _ _ _ _ Hcf) HvN).
  assert (pok g) as Hg by apply (cf_shows _ _ _ _ Hcf). rewrite (proj2 (possible_parents_spec g o v)).
  assert (∀ x y, upair x y ∈ p_edges g ↔ und E (p_arcs g) x y) as Hu by (intros x y; rewrite <-has_edge_true; apply He).
  assert (∀ x, x ∈ p_unbrs g v ↔ und E (p_arcs g) x v) as Hn.
  { intros x. rewrite (pok_unb g Hg), upair_comm, Hu. split; [tauto|]. intros H. split; [|done]. pose proof (und_ne _ _ Hac _ _ H). done. }
  split; intros [HX Hcl]; (split; [intros x Hx; by apply Hn, HX|]); intros x y Hx Hy Hne; apply Hu; by apply Hcl.
Qed.

Theorem C51_possible_parents_realised d o o' c v (X : nset) :
  views_agree d → acyclic (d_arcs d) → cpdag d o = Ok c → v ∈ d_nodes d →
  X ∈ possible_parents c o' v ↔
  ∃ E', acyclic E' ∧ same_skeleton (d_arcs d) E' ∧ same_vstructs (d_arcs d) E' ∧
    ∀ x, x ∈ X ↔ (x, v) ∈ E' ∧ (x, v) ∉ p_arcs c.
Proof.
  rewrite <-wf_views_agree. intros Hwf Hac Hc Hv.
  destruct (cpdag_spec d Hwf Hac o) as (c' & Hc' & Hcf & _). rewrite Hc in Hc'. injection Hc' as <-.
  rewrite (shown_parents (d_nodes d) (d_arcs d) (arcs_in_vstructures d) c [] o' v X); [|done|apply Hwf|by apply vs_known_spec|done|done].
  setoid_rewrite equivalent_nil. split; intros (E' & ? & H & ?); exists E'; [destruct H; split_and!; done|]. split; [done|]. unfold equivalent. tauto.
Qed.

Theorem C51_possible_parents_intervened d o o' o'' Is c g v (X : nset) :
  views_agree d → acyclic (d_arcs d) → cpdag d o' = Ok c → interventional_cpdag d o Is c = Ok g → v ∈ d_nodes d →
  X ∈ possible_parents g o'' v ↔
  ∃ E', acyclic E' ∧ i_equivalent Is (d_arcs d) E' ∧ ∀ x, x ∈ X ↔ (x, v) ∈ E' ∧ (x, v) ∉ p_arcs g.
Proof.
  rewrite <-wf_views_agree. intros Hwf Hac Hc Hg Hv.
  destruct (interventional_cpdag_spec d Hwf Hac o o' Is c Hc) as (g' & Hg' & Hgf). rewrite Hg in Hg'. injection Hg' as <-.
  apply (shown_parents (d_nodes d) (d_arcs d) (cut_arcs d Is ∪ arcs_in_vstructures d)); [done|apply Hwf|by apply icut_known_spec|done|done].
Qed.

(** 1 - 2 and the triangle 2 - 3 - 4; after an intervention on 1 none of the
    others can be a parent of 2. *)
Example C51_possible_parents_example :
  let d := dag_of ∅ {[(1, 2); (2, 3); (2, 4); (3, 4)]} in
  views_agree d ∧ acyclic (d_arcs d) ∧
  res_bind (cpdag d oracle0) (λ c, res_bind (interventional_cpdag d oracle0 [{[1]}] c) (λ g,
    Ok (possible_parents c oracle0 2, possible_parents g oracle0 2))) =
  Ok ([∅; {[1]}; {[3]}; {[4]}; {[3; 4]}], [∅]).
Proof. cbn zeta. split; [apply wf_views_agree, dag_of_wf|]. split; by_vm. Qed.

Print Assumptions C51_powerset.
Print Assumptions C51_powerset_negative.
Print Assumptions C51_powerset_repeats_refuted.
Print Assumptions C51_powerset_predicate.
Print Assumptions C51_powerset_predicate_any.
Print Assumptions C51_powerset_predicate_refuted.
Print Assumptions C51_possible_parents.
Print Assumptions C51_possible_parents_realised.
Print Assumptions C51_possible_parents_intervened.
