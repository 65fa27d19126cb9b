(** [optimal_fully_orienting_single_node_interventions] with [new=True], for clique trees without edges in both directions. *)
From Verif Require Import Py Spec SpecMec SpecDct SpecIntervene DagModel StateProofs TopoProofs CoreProofs QueryProofs PropertiesDag DctModel DctUf DctGraph DctTree DctProofs DctResid DctRegModel DctReg DctNewModel.

(** ** Every second element *)
Lemma two_ind (P : list node → Prop) : P [] → (∀ a, P [a]) → (∀ a b l, P l → P (a :: b :: l)) → ∀ l, P l.
Proof. intros H0 H1 H2. fix IH 1. intros l. destruct l as [|a [|b l]]; [exact H0|exact (H1 a)|]. exact (H2 a b l (IH l)). Qed.
Lemma es_elem l x : x ∈ every_second l → x ∈ l.
Proof.
  induction l as [|a|a b l IH] using two_ind; cbn [every_second]; [by intros ?%elem_of_nil|by intros ?%elem_of_nil|].
  rewrite !elem_of_cons. intros [->|H]; [by right; left|]. right. right. by apply IH.
Qed.
Lemma es_cover l i x y : l !! i = Some x → l !! S i = Some y → x ∈ every_second l ∨ y ∈ every_second l.
Proof.
  revert i x y. induction l as [|a|a b l IH] using two_ind; intros i x y Hx Hy; [done|by destruct i|]. cbn [every_second]. rewrite !elem_of_cons.
  destruct i as [|[|i]]; cbn in Hx, Hy.
  - right. left. congruence.
  - left. left. congruence.
  - destruct (IH i x y Hx Hy); [left|right]; by right.
Qed.
(** A set that has one of any two neighbours in the list is at least as large. *)
Lemma es_min (X : nset) l : NoDup l → (∀ i x y, l !! i = Some x → l !! S i = Some y → x ∈ X ∨ y ∈ X) →
  size (list_to_set (every_second l) : nset) ≤ size (X ∩ list_to_set l).
Proof.
  induction l as [|a|a b l IH] using two_ind; intros Hnd H; [cbn; rewrite size_empty; lia|cbn; rewrite size_empty; lia|]. cbn [every_second].
  apply NoDup_cons in Hnd as [Ha Hnd]. apply NoDup_cons in Hnd as [Hb Hnd].
  assert (size (list_to_set (every_second l) : nset) ≤ size (X ∩ list_to_set l)) as IHl by (apply IH; [done|intros i x y Hx Hy; by apply (H (S (S i)))]).
  rewrite list_to_set_cons. assert (size ({[b]} ∪ list_to_set (every_second l) : nset) ≤ 1 + size (list_to_set (every_second l) : nset)) as H1.
  { pose proof (size_singleton (C := nset) b) as H1. rewrite size_union_alt, H1.
    assert (list_to_set (every_second l) ∖ {[b]} ⊆ (list_to_set (every_second l) : nset)) as Hs by (clear; set_solver). apply subseteq_size in Hs. lia. }
  assert (∃ u, u ∈ X ∧ u ∉ l ∧ u ∈ a :: b :: l) as (u & Hu & Hul & Hul').
  { destruct (H 0 a b eq_refl eq_refl) as [Hx|Hx]; [exists a|exists b]; (split; [done|]); set_solver. }
  assert ({[u]} ∪ X ∩ list_to_set l ⊆ X ∩ list_to_set (a :: b :: l)) as Hs.
  { intros z [->%elem_of_singleton|Hz]%elem_of_union; [apply elem_of_intersection; split; [done|by apply elem_of_list_to_set]|]. rewrite !list_to_set_cons. clear -Hz. set_solver. }
  apply subseteq_size in Hs. rewrite size_union in Hs; [|intros z ->%elem_of_singleton [_ Hz]%elem_of_intersection; by apply elem_of_list_to_set in Hz].
  pose proof (size_singleton (C := nset) u). lia.
Qed.

Section one.
  Context (d : dag) (ct : list cedge) (cl : list nset) (h : nset → nat) (ord : list (list nset) → list (list nset)) (r : node → nat).
  Notation A := (d_arcs d).
  Notation N := (d_nodes d).
  Context (Hac : acyclic A) (Hov : over N A) (Hr : ∀ x y, (x, y) ∈ A → r x < r y).
  Context (Hcl : cliques_of N A cl).
  Context (Hct : ∀ X Y, (X, Y) ∈ ct → X ∈ cl ∧ Y ∈ cl) (Hh : heights ct h).
  Context (Hord : ∀ l, ord l ≡ₚ l).
  Notation comp := (comp_of ct cl).
  Notation g := (contracted ct cl).
  Context (Huniq : ∀ a b c, (a, c) ∈ g.2 → (b, c) ∈ g.2 → a = b).
  Context (Hforest : forest ct).
  Context (Hconn : ∀ v X Y, X ∈ cl → Y ∈ cl → v ∈ X → v ∈ Y → connected_over ct {[v]} X Y).
  Context (Hpoint : ∀ X Y, (X, Y) ∈ ct → points_to A X Y ∧ ((Y, X) ∈ ct ↔ points_to A Y X)).
  Context (Hone : ∀ X Y, (X, Y) ∈ ct → (Y, X) ∉ ct).

  Lemma comp_single X : X ∈ cl → comp X = [X].
  Proof using Hcl Hone.
    intros HX. assert (∀ Y, Y ∈ comp X ↔ Y ∈ [X]) as H.
    { intros Y. rewrite elem_of_comp, elem_of_list_singleton. split; [|intros ->; split; [done|reflexivity]].
      intros [_ H]. apply rtc_inv in H as [->|(Z & [[H1 H2]|[H1 H2]] & _)]; [done|exfalso; by apply Hone in H1..]. }
    apply Permutation_singleton_r. apply NoDup_Permutation; [|apply NoDup_singleton|done].
    unfold comp_of. apply NoDup_filter, Hcl.
  Qed.
  Lemma cclique X : X ∈ cl → clique A X ∧ X ⊆ N.
  Proof using Hcl. intros HX. apply Hcl in HX as (_ & H1 & H2 & _). done. Qed.
  Lemma components_single c : c ∈ g.1 → ∃ V, V ∈ cl ∧ c = [V].
  Proof using Hcl Hone. intros (V & HV & ->)%elem_of_components. exists V. split; [done|]. by apply comp_single. Qed.
  Lemma residual_in V y : y ∈ residual ord g [V] → y ∈ V.
  Proof using Hord. intros H. apply elem_of_residual in H as [(X & ->%elem_of_list_singleton & H) _]; done. Qed.
  Lemma in_residual y : y ∈ N → ∃ V, V ∈ cl ∧ [V] ∈ g.1 ∧ y ∈ residual ord g [V].
  Proof using All.
    intros Hy. destruct (residual_cover ct cl h Hct Hh ord y Hord) as (c & Hc & Hyc).
    - destruct (extend N A {[y]}) as (C & HyC & HC); [clear; set_solver|clear -Hy; set_solver| |].
      + intros a b ->%elem_of_singleton ->%elem_of_singleton ?. done.
      + exists C. split; [by apply Hcl|]. clear -HyC. set_solver.
    - destruct (components_single c Hc) as (V & HV & ->). by exists V.
  Qed.
  (** The parents of a node are in the clique of its residual. *)
  Lemma res_parents V y z : [V] ∈ g.1 → y ∈ residual ord g [V] → (z, y) ∈ A → z ∈ V ∧ (z ∈ residual ord g [V] ∨ ∃ U, (U, V) ∈ ct ∧ z ∈ U).
  Proof using All.
    intros HV Hy Hzy. destruct (Hov z y Hzy) as [Hz _]. destruct (in_residual z Hz) as (W & HW & HWg & Hzr).
    destruct (extend N A {[z; y]}) as (C & HC & HCm); [clear; set_solver|destruct (Hov z y Hzy) as [H1 H2]; clear -H1 H2; set_solver| |].
    { intros a b Ha Hb Hab. apply elem_of_union in Ha, Hb. destruct Ha as [Ha%elem_of_singleton|Ha%elem_of_singleton], Hb as [Hb%elem_of_singleton|Hb%elem_of_singleton]; subst; first [done|by left|by right]. }
    destruct (reg_spec A ct cl h ord Hct Hh Hord Huniq Hforest Hconn (λ X Y H, proj1 (Hpoint X Y H)) z y C [W] [V]) as [_ H2]; [done..|by apply Hcl|clear -HC; set_solver|clear -HC; set_solver|].
    destruct (decide ([W] = [V])) as [[= ->]|Hne]; [split; [by apply residual_in|by left]|].
    destruct (H2 Hne) as [[H _]|[_ Hyz]]; [|apply Hr in Hzy, Hyz; lia].
    apply (elem_of_reg ct cl ord Hord Huniq) in H as (c & p & Hc & Hp & (X & HX & HzX) & (X' & HX' & HzX') & Hyc).
    assert (c = [V]) as -> by (apply (residual_disjoint ct cl h Hct Hh ord y); [done|done|apply Hconn|done..]).
    apply elem_of_list_singleton in HX' as ->. split; [done|]. right.
    apply elem_of_arcs in Hp as (_ & U & V' & HUV & -> & E). destruct (Hct _ _ HUV) as [HU HV']. rewrite comp_single in HX, E; [|done..]. injection E as ->.
    apply elem_of_list_singleton in HX as ->. by exists U.
  Qed.
  (** Covered arcs are within the residuals. *)
  Lemma covered_residual x y : covered A x y → ∃ V, V ∈ cl ∧ [V] ∈ g.1 ∧ x ∈ residual ord g [V] ∧ y ∈ residual ord g [V].
  Proof using All.
    intros [Hxy Hcov]. destruct (Hov x y Hxy) as [_ Hy]. destruct (in_residual y Hy) as (V & HV & HVg & Hyr). exists V. do 2 (split; [done|]). split; [|done].
    destruct (res_parents V y x HVg Hyr Hxy) as [HxV [|(U & HUV & HxU)]]; [done|exfalso].
    assert (comp U ≠ comp V) as Hne. { destruct (Hct _ _ HUV) as [HU _]. rewrite !comp_single by done. intros [= ->]. by apply (Hone V V HUV). }
    assert (y ∉ U) as HyU.
    { destruct (Hct _ _ HUV) as [HU _]. apply (residual_parents ct cl ord y [V] Hord Huniq Hyr [U]); [|by left]. apply elem_of_arcs. rewrite !comp_single in Hne by done. split; [done|]. exists U, V. by rewrite !comp_single. }
    destruct (Hct _ _ HUV) as [HU _]. destruct (cclique U HU) as [HUc HUN]. destruct (Hpoint U V HUV) as [Hpt Hback].
    assert (∃ s z, s ∈ U ∧ s ∈ V ∧ z ∈ U ∧ z ∉ V ∧ (s, z) ∉ A) as (s & z & HsU & HsV & HzU & HzV & Hsz).
    { destruct (decide (set_Exists (λ s, set_Exists (λ z, (s, z) ∉ A) (U ∖ V)) (U ∩ V))) as [(s & Hs & z & Hz & H)|Hn].
      - exists s, z. clear -Hs Hz H. set_solver.
      - exfalso. apply (Hone U V HUV). apply Hback. intros s z HsV HsU HzU HzV. destruct (decide ((s, z) ∈ A)) as [|H]; [done|]. exfalso. apply Hn.
        exists s. split; [clear -HsU HsV; set_solver|]. exists z. split; [clear -HzU HzV; set_solver|done]. }
    assert ((z, s) ∈ A) as Hzs. { destruct (HUc s z HsU HzU) as [H|H]; [intros ->; done|done|done]. }
    assert (s = x ∨ (s, x) ∈ A) as Hsx. { assert ((s, y) ∈ A) as Hsy by (apply Hpt; [done|done|by apply residual_in|done]). destruct (decide (s = x)) as [|Hn]; [by left|]. right. apply Hcov. by split. }
    assert ((z, x) ∈ A) as Hzx.
    { destruct Hsx as [->|Hsx]; [done|]. destruct (HUc z x HzU HxU) as [H|H]; [intros ->; done|done|]. apply Hr in Hzs, Hsx, H. lia. }
    assert ((z, y) ∈ A) as Hzy by (by apply Hcov).
    apply HzV. by apply (res_parents V y z HVg Hyr).
  Qed.

  (** ** One component *)
  Lemma residual_eq V : residual ord g [V] = V ∖ parent_nodes ord g [V].
  Proof using Type. unfold residual, parent_nodes. f_equal. cbn. by rewrite union_empty_r_L. Qed.
  Lemma helper_spec V o : V ∈ cl → ∃ l, verification_helper d o [V] (parent_nodes ord g [V]) = Ok (list_to_set (every_second l)) ∧ NoDup l ∧
    (∀ x, x ∈ l ↔ x ∈ residual ord g [V]) ∧ ∀ i j x y, l !! i = Some x → l !! j = Some y → (i < j ↔ (x, y) ∈ A).
  Proof using Hac Hcl Hr.
    intros HV. unfold verification_helper. destruct (induced_subgraph_spec d o Hac (V ∖ parent_nodes ord g [V])) as (i & -> & Hi1 & Hi2 & Hi3 & Hi4). cbn [res_bind].
    destruct (proj1 (C05_topological_sort i o (proj1 (wf_views_agree i) Hi1)) Hi2) as (l & -> & Hnd & Hl & Hlo). cbn [res_bind]. exists l. split; [done|]. split; [done|].
    assert (∀ x, x ∈ l ↔ x ∈ residual ord g [V]) as Hl' by (intros x; by rewrite Hl, Hi3, residual_eq). split; [done|].
    assert (∀ a b x y, l !! a = Some x → l !! b = Some y → (x, y) ∈ A → a < b) as Hfw.
    { intros a b x y Ha Hb Hxy. apply (Hlo a b x y); [|done|done]. apply Hi4. split; [done|]. split; rewrite <-Hi3; apply Hl; by eapply elem_of_list_lookup_2. }
    intros a b x y Ha Hb. split; [|by apply Hfw]. intros Hab.
    assert (x ∈ V ∧ y ∈ V) as [HxV HyV]. { split; (eapply (elem_of_difference V (parent_nodes ord g [V])); rewrite <-Hi3; apply Hl; by eapply elem_of_list_lookup_2). }
    destruct (proj1 (cclique V HV) x y HxV HyV) as [H|H]; [|done|].
    - intros ->. assert (a = b) by (by eapply NoDup_lookup). lia.
    - pose proof (Hfw b a y x Hb Ha H). lia.
  Qed.
  Lemma neighbours_covered V l i x y : V ∈ cl → [V] ∈ g.1 → NoDup l → (∀ x, x ∈ l ↔ x ∈ residual ord g [V]) → (∀ i j x y, l !! i = Some x → l !! j = Some y → (i < j ↔ (x, y) ∈ A)) →
    l !! i = Some x → l !! S i = Some y → covered A x y.
  Proof using All.
    intros HV HVg Hnd Hl Hlo Hi Hj. assert ((x, y) ∈ A) as Hxy by (apply (Hlo i (S i)); [done|done|lia]). split; [done|].
    assert (x ∈ residual ord g [V]) as Hx by (apply Hl; by eapply elem_of_list_lookup_2). assert (y ∈ residual ord g [V]) as Hy by (apply Hl; by eapply elem_of_list_lookup_2).
    destruct (cclique V HV) as [HVc _]. intros z. split.
    - intros Hzx. assert (z ≠ x) as Hne by (intros ->; apply Hr in Hzx; lia). split; [|done].
      destruct (res_parents V x z HVg Hx Hzx) as [HzV _]. destruct (HVc z y HzV (residual_in V y Hy)) as [H|H]; [intros ->; apply Hr in Hzx, Hxy; lia|done|].
      apply Hr in H, Hzx, Hxy. lia.
    - intros [Hzy Hne]. destruct (res_parents V y z HVg Hy Hzy) as [HzV [Hz|(U & HUV & HzU)]].
      + apply Hl in Hz. apply elem_of_list_lookup in Hz as [k Hk]. pose proof (proj2 (Hlo k (S i) z y Hk Hj) Hzy). apply (Hlo k i z x Hk Hi). assert (k ≠ i) by (intros ->; congruence). lia.
      + apply (proj1 (Hpoint U V HUV)); [done|done|by apply residual_in|].
        destruct (Hct _ _ HUV) as [HU _]. apply (residual_parents ct cl ord x [V] Hord Huniq Hx [U]); [|by left]. apply elem_of_arcs.
        split; [intros [= ->]; by apply (Hone V V HUV)|]. exists U, V. by rewrite !comp_single.
  Qed.
  Lemma covered_neighbours V l x y : V ∈ cl → NoDup l → (∀ x, x ∈ l ↔ x ∈ residual ord g [V]) → (∀ i j x y, l !! i = Some x → l !! j = Some y → (i < j ↔ (x, y) ∈ A)) →
    covered A x y → x ∈ residual ord g [V] → y ∈ residual ord g [V] → ∃ i, l !! i = Some x ∧ l !! S i = Some y.
  Proof using Hr.
    intros HV Hnd Hl Hlo [Hxy Hcov] Hx Hy. apply Hl in Hx, Hy. apply elem_of_list_lookup in Hx as [i Hi], Hy as [j Hj]. exists i. split; [done|].
    pose proof (proj2 (Hlo i j x y Hi Hj) Hxy) as Hij. destruct (decide (j = S i)) as [->|Hne]; [done|exfalso].
    destruct (lookup_lt_is_Some_2 l (S i)) as [w Hw]; [apply lookup_lt_Some in Hj; lia|].
    pose proof (proj1 (Hlo i (S i) x w Hi Hw) ltac:(lia)) as Hxw. pose proof (proj1 (Hlo (S i) j w y Hw Hj) ltac:(lia)) as Hwy.
    assert ((w, x) ∈ A) as Hwx by (apply Hcov; split; [done|intros ->; apply Hr in Hxw; lia]). apply Hr in Hxw, Hwx. lia.
  Qed.

  (** ** All components *)
  Context (os : list nset → oracle).
  Lemma loop_new cs acc : (∀ c, c ∈ cs → c ∈ g.1) → NoDup cs →
    ∃ X, loopR (λ c acc, res_bind (verification_helper d (os c) c (parent_nodes ord g c)) (λ X, Ok (acc ∪ X))) cs acc = Ok X ∧ acc ⊆ X ∧
      (∀ c x y, c ∈ cs → covered A x y → x ∈ residual ord g c → y ∈ residual ord g c → x ∈ X ∨ y ∈ X) ∧
      ∀ Y : nset, (∀ x y, covered A x y → x ∈ Y ∨ y ∈ Y) → ∀ D : nset, (∀ c, c ∈ cs → D ## residual ord g c) → size acc ≤ size (Y ∩ D) → size X ≤ size Y.
  Proof using All.
    revert acc. induction cs as [|c cs IH]; intros acc Hcs Hnd; cbn [loopR].
    - exists acc. split; [done|]. split; [done|]. split; [intros c x y []%elem_of_nil|]. intros Y _ D _ Hs. assert (size (Y ∩ D) ≤ size Y) by (apply subseteq_size; clear; set_solver). lia.
    - apply NoDup_cons in Hnd as [Hc Hnd]. pose proof (Hcs c (elem_of_list_here _ _)) as Hcg. destruct (components_single c Hcg) as (V & HV & ->).
      destruct (helper_spec V (os [V]) HV) as (l & -> & Hndl & Hl & Hlo). cbn [res_bind].
      destruct (IH (acc ∪ list_to_set (every_second l))) as (X & E & Hacc & Hcover & Hmin); [intros c' Hc'; apply Hcs; by right|done|]. exists X. split; [done|].
      split; [clear -Hacc; set_solver|]. split.
      + intros c x y [->|Hin]%elem_of_cons Hcov Hx Hy; [|by apply (Hcover c)].
        destruct (covered_neighbours V l x y HV Hndl Hl Hlo Hcov Hx Hy) as (i & Hi & Hj). destruct (es_cover l i x y Hi Hj) as [H|H]; [left|right]; apply Hacc, elem_of_union_r; by apply elem_of_list_to_set.
      + intros Y HY D HD Hs. apply (Hmin Y HY (D ∪ list_to_set l)).
        * intros c' Hc' z [Hz|Hz]%elem_of_union Hz'; [apply (HD c') with z; [by right|done|done]|].
          apply elem_of_list_to_set, Hl in Hz. apply Hc. replace [V] with c'; [done|]. apply (residual_disjoint ct cl h Hct Hh ord z); [done|done|apply Hconn|apply Hcs; by right|done..].
        * pose proof (es_min Y l Hndl) as Hes. assert (∀ i x y, l !! i = Some x → l !! S i = Some y → x ∈ Y ∨ y ∈ Y) as Hlc by (intros i x y Hi Hj; by apply HY, (neighbours_covered V l i)).
          specialize (Hes Hlc). assert (size (acc ∪ list_to_set (every_second l)) ≤ size acc + size (list_to_set (every_second l) : nset)) as H1.
          { rewrite size_union_alt. assert (list_to_set (every_second l) ∖ acc ⊆ (list_to_set (every_second l) : nset)) as H' by (clear; set_solver). apply subseteq_size in H'. lia. }
          assert (Y ∩ (D ∪ list_to_set l) = (Y ∩ D) ∪ (Y ∩ list_to_set l)) as -> by (clear; set_solver). rewrite (size_union (Y ∩ D)); [lia|].
          intros z [_ Hz]%elem_of_intersection [_ Hz']%elem_of_intersection. apply elem_of_list_to_set, Hl in Hz'. by apply (HD [V] (elem_of_list_here _ _) z).
  Qed.
End one.
