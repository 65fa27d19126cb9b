(** Final theorems about intervention design: C53, C62-C66. *)
From Coq Require Import Reals Lra.
From Verif Require Import Py Spec SpecMec SpecIntervene DagModel DsepModel UGraphModel PdagModel InterveneModel TopoProofs StateProofs ReachProofs
  OrderProofs QueryProofs UGraphProofs PdagProofs ProtProofs CpdagProofs EquivProofs MecProofs InterveneProofs PropertiesDag PropertiesDsep PropertiesMec.
#[local] Open Scope nat_scope.

(** [g] shows exactly the orientations that observations and the interventions [Is] fix. *)
Definition essential (Is : list nset) (d : dag) (g : pdag) : Prop :=
  partially_directs (d_nodes d) (d_arcs d) g ∧ ∀ i j : node, (i, j) ∈ p_arcs g ↔ determined Is (d_arcs d) i j.

Lemma icp_essential d Is g : wf d → acyclic (d_arcs d) → icp d Is g → essential Is d g.
Proof.
  intros Hwf Hac Hg. split; [apply (closed_form_directs _ _ (p_known g)); [done|apply Hg]|]. intros i j. by apply icp_determined.
Qed.
Lemma essential_icp d Is g h : wf d → acyclic (d_arcs d) → essential Is d g → icp d Is h → p_arcs g = p_arcs h.
Proof. intros Hwf Hac [_ Hg] Hh. apply set_eq. intros [i j]. by rewrite Hg, (icp_determined d Hwf Hac Is h). Qed.
Lemma singles_app l k : singles (l ++ k) = singles l ++ singles k.
Proof. apply fmap_app. Qed.
Lemma icp_perm d Is Js g : icp d Is g → (∀ I, I ∈ Is ↔ I ∈ Js) → icp d Js g.
Proof. apply icp_ext. Qed.

(** ** C62: orientations fixed by several interventions *)
Theorem C62_union d Is Js i j :
  views_agree d → acyclic (d_arcs d) →
  determined (Is ++ Js) (d_arcs d) i j ↔ determined Is (d_arcs d) i j ∨ determined Js (d_arcs d) i j.
Proof.
  rewrite <-wf_views_agree. intros Hwf Hac. destruct (icp_exists d Hwf Hac Is) as [x Hx]. destruct (icp_exists d Hwf Hac Js) as [c Hc].
  destruct (icp_exists d Hwf Hac (Is ++ Js)) as [y Hy]. rewrite <-(icp_determined d Hwf Hac _ _ _ _ Hx), <-(icp_determined d Hwf Hac _ _ _ _ Hc), <-(icp_determined d Hwf Hac _ _ _ _ Hy).
  rewrite (icp_union d Hwf Hac Js Is c x y Hc Hx Hy), elem_of_union. tauto.
Qed.
(** In terms of the code: the arcs of the graph for several interventions are those
    of the graphs for each of them. *)
Theorem C62_interventional_cpdag_union d o o1 o2 o3 Is Js c :
  views_agree d → acyclic (d_arcs d) → cpdag d o = Ok c →
  ∃ x y z, interventional_cpdag d o1 Is c = Ok x ∧ interventional_cpdag d o2 Js c = Ok y ∧ interventional_cpdag d o3 (Is ++ Js) c = Ok z ∧
    p_arcs z = p_arcs x ∪ p_arcs y.
Proof.
  rewrite <-wf_views_agree. intros Hwf Hac Hc. destruct (icp_cpdag d Hwf Hac o) as (c' & Hc' & Hi). rewrite Hc in Hc'. injection Hc' as <-.
  destruct (icp_step d Hwf Hac o1 [] Is c Hi) as (x & Hx & Hxi). destruct (icp_step d Hwf Hac o2 [] Js c Hi) as (y & Hy & Hyi).
  destruct (icp_step d Hwf Hac o3 [] (Is ++ Js) c Hi) as (z & Hz & Hzi). rewrite app_nil_r in *. exists x, y, z. split_and!; [done..|].
  rewrite (icp_union d Hwf Hac Js Is y x z Hyi Hxi Hzi). clear. set_solver.
Qed.

Definition iv_arcs : arcset := {[(0, 1); (0, 2); (0, 3); (1, 2); (1, 3); (2, 3); (3, 4)]}.
Definition iv_dag : dag := dag_of {[5]} iv_arcs.
Lemma iv_ok : views_agree iv_dag ∧ acyclic (d_arcs iv_dag).
Proof. split; [apply wf_views_agree, dag_of_wf|by_vm]. Qed.
Example C62_example :
  match cpdag iv_dag oracle0 with
  | Ok c => match interventional_cpdag iv_dag oracle0 [{[1]}] c, interventional_cpdag iv_dag oracle0 [{[3]}] c with
            | Ok x, Ok y => bool_decide (size (p_arcs c) = 0 ∧ size (p_arcs x) = 6 ∧ size (p_arcs y) = 4 ∧ size (p_arcs x ∪ p_arcs y) = 7)
            | _, _ => false end
  | _ => false end = true.
Proof. vm_compute. reflexivity. Qed.

(** ** C53: greedy intervention design *)

(** [gs !! k] is the essential graph after the first [k + 1] interventions of [ns];
    every intervention orients an edge, and no other node would have oriented more. *)
Definition greedy_trace (d : dag) (ns : list node) (gs : list pdag) : Prop :=
  length ns = length gs ∧ (∀ n, n ∈ ns → n ∈ d_nodes d) ∧
  ∀ k g, gs !! k = Some g → essential (singles (take (S k) ns)) d g ∧
    (∀ x, essential (singles (take k ns)) d x → size (p_arcs x) < size (p_arcs g)) ∧
    (∀ v x, essential (singles (take k ns) ++ [{[v]}]) d x → size (p_arcs x) ≤ size (p_arcs g)).

Lemma run_trace d c ns gs : wf d → acyclic (d_arcs d) → icp d [] c → greedy_run d [] c ns gs → greedy_trace d ns gs.
Proof.
  intros Hwf Hac Hc Hrun. split; [by eapply run_length|]. split.
  { clear -Hrun. induction Hrun as [|? ? n g ns gs Hn ? ? ? ? IH]; intros x Hx; [by apply elem_of_nil in Hx|]. apply elem_of_cons in Hx as [->|?]; auto. }
  intros k g Hk. pose proof (run_length d _ _ _ _ Hrun) as Hlen.
  pose proof (run_drop d _ _ _ _ k Hrun) as Hd. rewrite app_nil_r in Hd.
  assert (is_Some (ns !! k)) as [n Hn] by (apply lookup_lt_is_Some; rewrite Hlen; by eapply lookup_lt_Some).
  rewrite (drop_S _ _ _ Hn), (drop_S _ _ _ Hk) in Hd.
  pose proof (run_final d _ _ _ _ Hc (run_take d _ _ _ _ k Hrun)) as Hf. rewrite app_nil_r in Hf.
  inversion Hd as [|? ? ? ? ? ? Hnn Hg Hsub Hbest Hrest]; subst.
  assert (∀ l I, I ∈ reverse (singles l) ↔ I ∈ singles l) as Hrev by (intros; apply elem_of_reverse).
  split; [|split].
  - apply icp_essential; [done..|]. eapply icp_perm; [exact Hg|]. intros I. rewrite (take_S_r _ _ _ Hn), singles_app, elem_of_cons, elem_of_app, Hrev.
    cbn. rewrite elem_of_list_singleton. tauto.
  - intros x Hx. rewrite (essential_icp d _ x _ Hwf Hac Hx (icp_perm _ _ _ _ Hf (Hrev _))). by apply subset_size.
  - intros v x Hx. destruct (icp_exists d Hwf Hac ({[v]} :: reverse (singles (take k ns)))) as [y Hy].
    rewrite (essential_icp d _ x y Hwf Hac Hx); [by eapply Hbest|]. eapply icp_perm; [exact Hy|]. intros I.
    rewrite elem_of_cons, elem_of_app, Hrev, elem_of_list_singleton. tauto.
Qed.

Lemma run_arcs d c ns gs x : wf d → acyclic (d_arcs d) → icp d [] c → greedy_run d [] c ns gs → essential (singles ns) d x → p_arcs (final c gs) = p_arcs x.
Proof.
  intros Hwf Hac Hc Hrun Hx. pose proof (run_final d _ _ _ _ Hc Hrun) as Hf. rewrite app_nil_r in Hf. symmetry.
  apply (essential_icp d _ _ _ Hwf Hac Hx). eapply icp_perm; [exact Hf|]. intros I. apply elem_of_reverse.
Qed.

Theorem C53_fully_orienting d o :
  views_agree d → acyclic (d_arcs d) →
  ∃ ns gs, greedy_fully_orienting d o = Ok (Some <$> ns, gs) ∧ greedy_trace d ns gs ∧ verifies (singles ns) (d_arcs d) ∧
    (∀ g, last gs = Some g → p_arcs g = d_arcs d ∧ p_edges g = ∅).
Proof.
  rewrite <-wf_views_agree. intros Hwf Hac. unfold greedy_fully_orienting. destruct (icp_cpdag d Hwf Hac o) as (c & -> & Hc). cbn [res_bind].
  destruct (greedy_loop_ok d Hwf Hac o (S (size (p_edges c))) [] c Hc) as (ns & gs & Heq & Hrun & Hend); [lia|]. exists ns, gs. split; [done|].
  split; [by eapply run_trace|]. pose proof (run_final d _ _ _ _ Hc Hrun) as Hf. rewrite app_nil_r in Hf.
  assert (icp d (singles ns) (final c gs)) as Hf' by (eapply icp_perm; [exact Hf|]; intros I; apply elem_of_reverse).
  assert (p_arcs (final c gs) = d_arcs d) as Harcs by by apply (icp_done d Hac _ _ Hf').
  split; [by apply (verifies_icp d Hwf Hac _ _ Hf')|]. intros g Hg. unfold final in *. rewrite Hg in *. done.
Qed.

(** [num_interventions=num]: [num] results; once everything is oriented they are
    [None] and the final graph. *)
Theorem C53_single_node d o (num : nat) :
  views_agree d → acyclic (d_arcs d) → 1 ≤ num →
  ∃ c ns gs m, cpdag d o = Ok c ∧
    greedy_single_node d o (Z.of_nat num) = Ok ((Some <$> ns) ++ replicate m None, gs ++ replicate m (default c (last gs))) ∧
    greedy_trace d ns gs ∧ length ns + m = num ∧ (0 < m → verifies (singles ns) (d_arcs d)).
Proof.
  rewrite <-wf_views_agree. intros Hwf Hac Hnum. unfold greedy_single_node. destruct (icp_cpdag d Hwf Hac o) as (c & Hcp & Hc). rewrite Hcp. cbn [res_bind].
  destruct (greedy_single_ok d Hwf Hac o (S (size (p_edges c))) [] c (Z.of_nat num) Hc) as (ns & gs & m & Heq & Hrun & H1 & _ & H3); [lia|].
  exists c, ns, gs, m. split; [done|]. split; [done|]. split; [by eapply run_trace|]. split; [lia|]. intros Hm.
  pose proof (run_final d _ _ _ _ Hc Hrun) as Hf. rewrite app_nil_r in Hf.
  assert (icp d (singles ns) (final c gs)) as Hf' by (eapply icp_perm; [exact Hf|]; intros I; apply elem_of_reverse).
  apply (verifies_icp d Hwf Hac _ _ Hf'). apply (icp_done d Hac _ _ Hf'). apply H3. by right.
Qed.

(** With [num_interventions=0] (or less) the recursion only stops when everything is oriented. *)
Theorem C53_zero_interventions_refuted :
  ∃ d o ivs gs, views_agree d ∧ acyclic (d_arcs d) ∧ greedy_single_node d o 0 = Ok (ivs, gs) ∧ length ivs = 2.
Proof.
  exists iv_dag, oracle0. destruct iv_ok as [H1 H2].
  destruct (greedy_single_node iv_dag oracle0 0) as [[ivs gs]|] eqn:Heq.
  - exists ivs, gs. split; [done|]. split; [done|]. split; [done|].
    assert (match greedy_single_node iv_dag oracle0 0 with Ok r => length r.1 | _ => 0 end = 2) as H by (vm_compute; reflexivity). by rewrite Heq in H.
  - exfalso. assert (match greedy_single_node iv_dag oracle0 0 with Ok r => true | _ => false end = true) as H by (vm_compute; reflexivity). by rewrite Heq in H.
Qed.

Example C53_example :
  match greedy_fully_orienting iv_dag oracle0 with
  | Ok (ivs, gs) => bool_decide (length ivs = 2 ∧ (λ g, size (p_edges g)) <$> gs = [1; 0]) | _ => false end = true.
Proof. vm_compute. reflexivity. Qed.

(** ** C63: [compute_covered_edges] and [atomic_verification] *)

(** Interventions leave no other graph exactly if they cut every covered arc. *)
Theorem C63_verifying d Is :
  views_agree d → acyclic (d_arcs d) →
  verifies Is (d_arcs d) ↔ ∀ x y, covered (d_arcs d) x y → ∃ I, I ∈ Is ∧ cut I x y.
Proof. rewrite <-wf_views_agree. intros Hwf Hac. by apply verifies_covered. Qed.

Theorem C63_covered_edges d :
  views_agree d → acyclic (d_arcs d) →
  (∀ x y, (x, y) ∈ compute_covered_edges d ↔ covered (d_arcs d) x y) ∧ bipartite (compute_covered_edges d) ∧
  ∀ o c x y, cpdag d o = Ok c → (x, y) ∈ compute_covered_edges d → has_edge c x y = true.
Proof.
  rewrite <-wf_views_agree. intros Hwf Hac. split; [intros; by apply elem_of_covered_edges|]. split; [by apply covered_bipartite|].
  intros o c x y Hc Hxy. destruct (icp_cpdag d Hwf Hac o) as (c' & Hc' & Hi). rewrite Hc in Hc'. injection Hc' as <-.
  apply (covered_undirected d Hwf Hac [] c); [|done|by apply elem_of_covered_edges]. intros I HI. by apply elem_of_nil in HI.
Qed.

(** If the vertex covers computed for bipartite graphs are minimum ones, then
    [atomic_verification] returns a smallest verifying set. *)
Theorem C63_atomic_verification_partial mvc d o :
  (∀ H, bipartite H → min_vertex_cover H (mvc H)) →
  views_agree d → acyclic (d_arcs d) →
  ∃ X, atomic_verification mvc d None o = Ok X ∧ verifies (singles (elements X)) (d_arcs d) ∧
    ∀ l, verifies (singles l) (d_arcs d) → size X ≤ length l.
Proof.
  intros Hmvc. rewrite <-wf_views_agree. intros Hwf Hac. unfold atomic_verification. destruct (icp_cpdag d Hwf Hac o) as (c & -> & Hc). cbn [res_bind].
  eexists. split; [done|]. destruct (Hmvc _ (covered_bipartite d Hac)) as [H1 H2]. split.
  - apply verifies_cover; [done|]. intros i j Hij. rewrite list_to_set_elements_L. by apply H1.
  - intros l Hl. apply verifies_cover in Hl; [|done]. transitivity (size (list_to_set l : nset)); [by apply H2|].
    clear. induction l as [|x l IH]; [rewrite list_to_set_nil, size_empty; lia|]. rewrite list_to_set_cons.
    assert (size ({[x]} ∪ list_to_set l : nset) ≤ 1 + size (list_to_set l : nset)) as H.
    { pose proof (size_singleton (C := nset) x) as H1. rewrite size_union_alt, H1. assert (list_to_set l ∖ {[x]} ⊆ (list_to_set l : nset)) as Hs by (clear; set_solver). apply subseteq_size in Hs. lia. }
    cbn [length]. lia.
Qed.

(** A vertex cover by exhaustive search, to show that the hypothesis can be met. *)
Definition ends (H : arcset) : nset := set_map fst H ∪ set_map snd H.
Definition search_cover (H : arcset) : nset :=
  list_to_set (default [] (head (filter (λ s : list node, set_Forall (λ a : arc, a.1 ∈ s ∨ a.2 ∈ s) H) (powerset (elements (ends H)) 0)))).
Lemma search_cover_ok H : min_vertex_cover H (search_cover H).
Proof.
  unfold search_cover. set (P := λ s : list node, set_Forall (λ a : arc, a.1 ∈ s ∨ a.2 ∈ s) H). set (L := elements (ends H)).
  assert (∀ i j : node, (i, j) ∈ H → i ∈ L ∧ j ∈ L) as HL.
  { intros i j Hij. unfold L, ends. rewrite !elem_of_elements, !elem_of_union, !elem_of_map. split; [left|right]; by exists (i, j). }
  assert (∀ Y, vertex_cover H Y → ∃ s, s ∈ powerset L 0 ∧ P s ∧ length s ≤ size Y) as Hex.
  { intros Y HY. exists (filter (λ n, n ∈ Y) L). split_and!.
    - apply elem_of_powerset. split; [apply filter_sublist|lia].
    - intros [i j] Hij. cbn. rewrite !elem_of_list_filter. destruct (HL _ _ Hij). destruct (HY _ _ Hij); tauto.
    - replace (size Y) with (length (elements Y)) by done. apply submseteq_length, NoDup_submseteq; [apply NoDup_filter, NoDup_elements|].
      intros x. rewrite elem_of_list_filter, elem_of_elements. tauto. }
  destruct (Hex (list_to_set L)) as (s & Hs & HPs & _). { intros i j Hij. rewrite !elem_of_list_to_set. left. by apply (HL i j). }
  destruct (head_filter_some P (powerset L 0) s Hs HPs) as [y Hy]. fold P. replace (head (filter _ _)) with (Some y) by (rewrite <-Hy; reflexivity).
  unfold powerset in Hy. destruct (head_filter_min P L 0 _ y Hy) as (H1 & H2 & H3). cbn [default]. split.
  - intros i j Hij. rewrite !elem_of_list_to_set. apply (H1 _ Hij).
  - intros Y HY. destruct (Hex Y HY) as (s' & H4 & H5 & H6). specialize (H3 _ H4 H5).
    rewrite size_list_to_set; [cbn; lia|]. fold (powerset L 0) in H2. apply elem_of_powerset in H2 as [Hsub _]. eapply sublist_nodup; [done|]. apply NoDup_elements.
Qed.
Example C63_example :
  (∀ H, bipartite H → min_vertex_cover H (search_cover H)) ∧
  match atomic_verification search_cover iv_dag None oracle0 with Ok X => bool_decide (size X = 2) | _ => false end = true.
Proof. split; [intros; apply search_cover_ok|]. vm_compute. reflexivity. Qed.

(** With a starting CPDAG in which everything is known, interventions are still returned. *)
Theorem C63_given_cpdag_refuted :
  ∃ d c Is, views_agree d ∧ acyclic (d_arcs d) ∧ essential Is d c ∧ p_edges c = ∅ ∧
    ∀ mvc o, (∀ H, bipartite H → min_vertex_cover H (mvc H)) → ∃ X, atomic_verification mvc d (Some c) o = Ok X ∧ X ≠ ∅.
Proof.
  pose (d := dag_of ∅ {[(0, 1)]}). assert (wf d) as Hwf by apply dag_of_wf. assert (acyclic (d_arcs d)) as Hac by by_vm.
  assert (d_arcs d = {[(0, 1)]}) as Harcs by by_vm.
  destruct (icp_exists d Hwf Hac [{[0]}]) as [c Hc].
  assert (p_arcs c = d_arcs d) as Hfull.
  { rewrite <-(verifies_icp d Hwf Hac _ _ Hc). rewrite (verifies_covered d Hac). intros x y [Hxy _]. exists {[0]}. split; [left|].
    rewrite Harcs, elem_of_singleton in Hxy. injection Hxy as -> ->. apply cut_single. left. done. }
  exists d, c, [{[0]}]. split; [by apply wf_views_agree|]. split; [done|]. split; [by apply icp_essential|]. split; [by apply (icp_done d Hac _ _ Hc)|].
  intros mvc o Hmvc. eexists. split; [done|]. destruct (Hmvc _ (covered_bipartite d Hac)) as [H1 _]. intros Hem.
  destruct (H1 0 1) as [H|H]; [|rewrite Hem in H; by apply not_elem_of_empty in H..].
  apply elem_of_covered_edges. unfold covered. rewrite Harcs. split; [by apply elem_of_singleton|]. intros z. rewrite !elem_of_singleton. naive_solver.
Qed.

(** ** C64: [optimal_fully_orienting_single_node_interventions] *)
(** Missing: if nothing is left to orient the result is [None] instead of the empty set. *)
Theorem C64_optimal_partial d o :
  views_agree d → acyclic (d_arcs d) →
  ∃ r, optimal_single_node d o = Ok r ∧
    match r with
    | None => verifies [] (d_arcs d)
    | Some ss => ¬ verifies [] (d_arcs d) ∧ NoDup ss ∧ (∀ n, n ∈ ss → n ∈ d_nodes d) ∧ verifies (singles ss) (d_arcs d) ∧
        ∀ l, verifies (singles l) (d_arcs d) → length ss ≤ length l
    end.
Proof. rewrite <-wf_views_agree. intros Hwf Hac. by apply optimal_spec. Qed.
Theorem C64_none_refuted :
  ∃ d o, views_agree d ∧ acyclic (d_arcs d) ∧ d_arcs d ≠ ∅ ∧ optimal_single_node d o = Ok None.
Proof.
  exists (dag_of ∅ {[(0, 2); (1, 2)]}), oracle0. split; [apply wf_views_agree, dag_of_wf|]. split; [by_vm|]. split; [by_vm|]. vm_compute. reflexivity.
Qed.
Example C64_example :
  match optimal_single_node iv_dag oracle0 with Ok (Some ss) => bool_decide (length ss = 2) | _ => false end = true.
Proof. vm_compute. reflexivity. Qed.

(** ** C65: quality of greedy choices *)

(** [k] greedy interventions against any [k] interventions [X]: with [R] the number
    of edges oriented by [X] and [r] the number by which the greedy choice
    stays behind, [r <= (1 - 1/k)^k R]. *)
Theorem C65_greedy_against_best d o X c ivs gs g x :
  views_agree d → acyclic (d_arcs d) → 1 ≤ length X → cpdag d o = Ok c →
  greedy_single_node d o (Z.of_nat (length X)) = Ok (ivs, gs) → last gs = Some g → essential (singles X) d x →
  let k := Z.of_nat (length X) in let n (h : pdag) := Z.of_nat (size (p_arcs h)) in
  (k ^ k * (n x - n g) ≤ (k - 1) ^ k * (n x - n c))%Z ∧ (n c ≤ n x)%Z.
Proof.
  rewrite <-wf_views_agree. intros Hwf Hac HX Hc Hgr Hlast Hx k n. destruct (icp_cpdag d Hwf Hac o) as (c' & Hc' & Hi). rewrite Hc in Hc'. injection Hc' as <-.
  unfold greedy_single_node in Hgr. rewrite Hc in Hgr. cbn [res_bind] in Hgr.
  destruct (greedy_single_ok d Hwf Hac o (S (size (p_edges c))) [] c k Hi) as (ns & gs' & m & Heq & Hrun & H1 & _ & H3); [lia|].
  fold k in Hgr. rewrite Heq in Hgr. injection Hgr as <- <-.
  destruct (icp_exists d Hwf Hac (singles X)) as [x' Hx']. assert (p_arcs x = p_arcs x') as Hxx by by eapply essential_icp.
  assert (p_arcs c ⊆ p_arcs x') as Hcx by (apply (icp_sup d Hwf Hac [] (singles X)); [done|done|apply list_subseteq_nil]).
  assert (n c ≤ n x)%Z as Hle by (unfold n; rewrite Hxx; apply subseteq_size in Hcx; lia). split; [|done].
  assert (p_arcs g = p_arcs (final c gs')) as Hg.
  { destruct m as [|m]; [rewrite app_nil_r in Hlast; unfold final; by rewrite Hlast|].
    rewrite last_app in Hlast. replace (last (replicate (S m) (final c gs'))) with (Some (final c gs')) in Hlast; [by injection Hlast as <-|].
    symmetry. clear. generalize (final c gs'). intros a. induction m as [|m IH]; [done|]. change (replicate (S (S m)) a) with (a :: replicate (S m) a). by rewrite last_cons, IH. }
  unfold n at 2. rewrite Hg. pose proof (run_final d _ _ _ _ Hi Hrun) as Hf.
  destruct m as [|m].
  - pose proof (run_bound d Hwf Hac [] c ns gs' X (n x) Hi Hrun HX) as Hb. rewrite app_nil_r in Hb. cbn zeta in Hb. fold k in Hb.
    replace (Z.of_nat (length ns)) with k in Hb by (unfold k in *; lia). apply Hb. intros y Hy. unfold n. rewrite Hxx. by rewrite (icp_unique d Hwf Hac _ _ _ Hx' Hy).
  - assert (p_arcs (final c gs') = d_arcs d) as Hall by (apply (icp_done d Hac _ _ Hf), H3; right; lia). rewrite Hall.
    assert (n x ≤ Z.of_nat (size (d_arcs d)))%Z as Hx2. { unfold n. rewrite Hxx. pose proof (icp_sub d _ _ Hx') as Hs. apply subseteq_size in Hs. lia. }
    assert (0 ≤ k ^ k)%Z by (apply Z.pow_nonneg; lia). assert (0 ≤ (k - 1) ^ k)%Z by (apply Z.pow_nonneg; unfold k; lia). unfold n in *. nia.
Qed.

Lemma exp_power (x : R) (n : nat) : (exp x ^ n = exp (INR n * x))%R.
Proof.
  induction n as [|n IH]; [cbn; rewrite Rmult_0_l; symmetry; apply exp_0|]. rewrite S_INR. change (exp x ^ S n)%R with (exp x * exp x ^ n)%R. rewrite IH, <-exp_plus. f_equal. lra.
Qed.
Lemma below_e (k : nat) : 1 ≤ k → ((INR k - 1) ^ k <= exp (-1) * INR k ^ k)%R.
Proof.
  intros Hk. assert (1 <= INR k)%R as Hk' by (apply (le_INR 1 k); lia).
  assert (INR k - 1 <= exp (- / INR k) * INR k)%R as H1.
  { pose proof (exp_ineq1_le (- / INR k)) as H. apply (Rmult_le_compat_r (INR k)) in H; [|lra]. rewrite Rmult_plus_distr_r in H.
    replace (- / INR k * INR k)%R with (-1)%R in H by (field; lra). lra. }
  assert (exp (-1) = exp (- / INR k) ^ k)%R as ->.
  { rewrite exp_power. f_equal. field. lra. }
  rewrite <-Rpow_mult_distr. apply pow_incr. lra.
Qed.
(** The bound of the docstring: at least [1 - 1/e] of what is possible. *)
Theorem C65_greedy_e d o X c ivs gs g x :
  views_agree d → acyclic (d_arcs d) → 1 ≤ length X → cpdag d o = Ok c →
  greedy_single_node d o (Z.of_nat (length X)) = Ok (ivs, gs) → last gs = Some g → essential (singles X) d x →
  ((1 - exp (-1)) * (INR (size (p_arcs x)) - INR (size (p_arcs c))) <= INR (size (p_arcs g)) - INR (size (p_arcs c)))%R.
Proof.
  intros H1 H2 H3 H4 H5 H6 H7. destruct (C65_greedy_against_best d o X c ivs gs g x H1 H2 H3 H4 H5 H6 H7) as [Hb Hle]. cbn zeta in Hb, Hle.
  pose proof (below_e (length X) H3) as He. assert (1 <= INR (length X))%R as Hk' by (apply (le_INR 1); lia).
  apply IZR_le in Hb, Hle. rewrite !mult_IZR, !minus_IZR, <-!pow_IZR, minus_IZR, <-!INR_IZR_INZ in Hb. rewrite <-!INR_IZR_INZ in Hle.
  set (k := INR (length X)) in *. set (P := (k ^ length X)%R) in *. set (Q := ((k - 1) ^ length X)%R) in *.
  assert (0 < P)%R as HP by (apply pow_lt; lra).
  set (a := INR (size (p_arcs x))) in *. set (b := INR (size (p_arcs g))) in *. set (z := INR (size (p_arcs c))) in *.
  change (IZR 1) with 1%R in Hb. fold Q in Hb.
  assert (P * (a - b) <= P * (exp (-1) * (a - z)))%R as Hfin.
  { eapply Rle_trans; [exact Hb|]. apply Rle_trans with (exp (-1) * P * (a - z))%R; [apply Rmult_le_compat_r; [lra|done]|]. right. ring. }
  apply Rmult_le_reg_l in Hfin; [|done]. lra.
Qed.
Example C65_example :
  match cpdag iv_dag oracle0, greedy_single_node iv_dag oracle0 1 with
  | Ok c, Ok (ivs, [g]) => bool_decide (size (p_arcs c) = 0 ∧ size (p_arcs g) = 6) | _, _ => false end = true.
Proof. vm_compute. reflexivity. Qed.

(** ** C66: number of greedy interventions *)
Lemma ln_below (x : R) : (0 < x → ln x <= x - 1)%R.
Proof.
  intros Hx. rewrite <-(ln_exp (x - 1)). destruct (Rle_lt_or_eq_dec (1 + (x - 1)) (exp (x - 1)) (exp_ineq1_le _)) as [H|H].
  - left. apply ln_increasing; [done|]. lra.
  - right. f_equal. lra.
Qed.
(** Pays for a step that leaves [m] of [n] edges. *)
Lemma ln_step (k m n : nat) : m < n → n ≤ k * (n - m) → 1 ≤ m → (1 <= INR k * (ln (INR n) - ln (INR m)))%R.
Proof.
  intros H1 H2 H3. assert (1 <= INR m)%R as Hm by (apply (le_INR 1); lia). apply lt_INR in H1 as Hmn.
  apply le_INR in H2. rewrite mult_INR, minus_INR in H2 by lia. pose proof (pos_INR k) as Hk.
  pose proof (ln_below (INR m / INR n)) as Hl. unfold Rdiv in Hl. rewrite ln_mult, ln_Rinv in Hl; [|lra|lra|apply Rinv_0_lt_compat; lra].
  assert (1 - INR m * / INR n <= ln (INR n) - ln (INR m))%R as Hd.
  { assert (0 < INR m * / INR n)%R as Hp by (apply Rmult_lt_0_compat; [lra|apply Rinv_0_lt_compat; lra]). specialize (Hl Hp). lra. }
  apply (Rmult_le_compat_l (INR k)) in Hd; [|done]. eapply Rle_trans; [|exact Hd].
  apply (Rmult_le_reg_r (INR n)); [lra|]. replace (INR k * (1 - INR m * / INR n) * INR n)%R with (INR k * (INR n - INR m))%R by (field; lra). lra.
Qed.
Lemma run_ln d Is c ns gs X : wf d → acyclic (d_arcs d) → icp d Is c → greedy_run d Is c ns gs → 1 ≤ length X → verifies (singles X) (d_arcs d) →
  0 < length ns → (INR (length ns) <= (1 + ln (INR (size (p_edges c)))) * INR (length X))%R.
Proof.
  intros Hwf Hac Hc Hrun HX Hv. revert Hc. induction Hrun as [Is c|Is c n g ns gs Hn Hg Hsub Hbest Hrun IH]; intros Hc Hpos; [cbn in Hpos; lia|].
  specialize (IH Hg). set (k := length X) in *. assert (1 <= INR k)%R as Hk by (apply (le_INR 1); lia).
  pose proof (icp_edges d Hac _ _ Hc) as E1. pose proof (icp_edges d Hac _ _ Hg) as E2. apply subset_size in Hsub as Hlt.
  destruct (icp_exists d Hwf Hac (singles X ++ Is)) as [x Hx]. pose proof (cover_step d Hwf Hac Is c X x _ Hc Hx Hbest) as Hst.
  assert (p_arcs x = d_arcs d) as Hfull.
  { destruct (icp_exists d Hwf Hac (singles X)) as [x' Hx']. rewrite (verifies_icp d Hwf Hac _ _ Hx') in Hv.
    assert (p_arcs x' ⊆ p_arcs x) as H by (apply (icp_sup d Hwf Hac _ _ _ _ Hx' Hx); clear; set_solver).
    pose proof (icp_sub d _ _ Hx). rewrite Hv in H. apply set_eq. intros a. split; auto. }
  rewrite Hfull in Hst. fold k in Hst.
  assert (size (p_edges c) ≤ k * (size (p_edges c) - size (p_edges g))) as Hst'.
  { replace (size (p_edges c) - size (p_edges g)) with (size (p_arcs g) - size (p_arcs c)) by lia. lia. }
  cbn [length]. rewrite S_INR. destruct (decide (size (p_edges g) = 0)) as [H0|H0].
  - assert (ns = []) as ->.
    { destruct Hrun as [|Is' g' n' h ns gs Hn' Hh Hsub' _ _]; [done|]. exfalso. pose proof (icp_edges d Hac _ _ Hh). apply subset_size in Hsub'. lia. }
    cbn. assert (0 <= ln (INR (size (p_edges c))))%R.
    { rewrite <-ln_1. destruct (decide (size (p_edges c) = 1)) as [->|Hne]; [right; done|]. left. apply ln_increasing; [lra|]. apply (lt_INR 1). lia. }
    nra.
  - pose proof (ln_step k (size (p_edges g)) (size (p_edges c)) ltac:(lia) Hst' ltac:(lia)) as Hl.
    assert (INR (length ns) <= (1 + ln (INR (size (p_edges g)))) * INR k)%R as Hrec.
    { destruct ns as [|n' ns]; [|apply IH; cbn; lia]. cbn.
      assert (0 <= ln (INR (size (p_edges g))))%R.
      { rewrite <-ln_1. destruct (decide (size (p_edges g) = 1)) as [->|Hne]; [right; done|]. left. apply ln_increasing; [lra|]. apply (lt_INR 1). lia. }
      nra. }
    lra.
Qed.
(** The bound of the docstring: at most [1 + ln K] times the size of the smallest set,
    where [K] is the number of undirected edges of the CPDAG. *)
Theorem C66_greedy_number d o X c ivs gs :
  views_agree d → acyclic (d_arcs d) → cpdag d o = Ok c → p_edges c ≠ ∅ →
  greedy_fully_orienting d o = Ok (ivs, gs) → verifies (singles X) (d_arcs d) →
  (INR (length ivs) <= (1 + ln (INR (size (p_edges c)))) * INR (length X))%R.
Proof.
  rewrite <-wf_views_agree. intros Hwf Hac Hc He Hgr Hv. destruct (icp_cpdag d Hwf Hac o) as (c' & Hc' & Hi). rewrite Hc in Hc'. injection Hc' as <-.
  unfold greedy_fully_orienting in Hgr. rewrite Hc in Hgr. cbn [res_bind] in Hgr.
  destruct (greedy_loop_ok d Hwf Hac o (S (size (p_edges c))) [] c Hi) as (ns & gs' & Heq & Hrun & Hend); [lia|].
  rewrite Heq in Hgr. injection Hgr as <- <-. rewrite fmap_length.
  apply (run_ln d [] c ns gs' X); [done..| | |].
  - destruct X as [|v X]; [|cbn; lia]. exfalso. apply He. apply (icp_done d Hac _ _ Hi). exact (proj1 (verifies_icp d Hwf Hac _ _ Hi) Hv).
  - done.
  - destruct Hrun; [|cbn; lia]. exfalso. by apply He.
Qed.
Example C66_example :
  match cpdag iv_dag oracle0, greedy_fully_orienting iv_dag oracle0, optimal_single_node iv_dag oracle0 with
  | Ok c, Ok (ivs, _), Ok (Some X) => bool_decide (size (p_edges c) = 7 ∧ length ivs = 2 ∧ length X = 2) | _, _, _ => false end = true.
Proof. vm_compute. reflexivity. Qed.

Print Assumptions C53_fully_orienting.
Print Assumptions C53_single_node.
Print Assumptions C53_zero_interventions_refuted.
Print Assumptions C62_union.
Print Assumptions C62_interventional_cpdag_union.
Print Assumptions C63_verifying.
Print Assumptions C63_covered_edges.
Print Assumptions C63_atomic_verification_partial.
Print Assumptions C63_given_cpdag_refuted.
Print Assumptions C64_optimal_partial.
Print Assumptions C64_none_refuted.
Print Assumptions C65_greedy_against_best.
Print Assumptions C65_greedy_e.
Print Assumptions C66_greedy_number.
