(** Final theorems about separation: C09-C16, C32, the renaming part of C31. *)
From Verif Require Import Py Spec SpecDsep DagModel DsepModel UGraphModel TopoProofs StateProofs ReachProofs OrderProofs QueryProofs
  WalkProofs DsepProofs MarkovProofs ImapProofs UGraphProofs MoralProofs PropertiesDag.

(** Graph used in the examples: a collider with a descendant and a fork. *)
Definition ex_arcs : arcset := {[(1, 3); (2, 3); (3, 4); (2, 5)]}.
Definition ex_dag : dag := dag_of ∅ ex_arcs.
Lemma ex_acyclic : acyclic ex_arcs. Proof. by_vm. Qed.
Lemma ex_ok : views_agree ex_dag ∧ acyclic (d_arcs ex_dag).
Proof. split; [apply wf_views_agree, dag_of_wf|]. unfold ex_dag. rewrite dag_of_arcs by apply ex_acyclic. apply ex_acyclic. Qed.

(** ** C09: [dsep] decides d-separation *)

(** Stated for [A] disjoint from [C]; no assumption on [B]. *)
Theorem C09_dsep_decides d o p A B C :
  views_agree d → acyclic (d_arcs d) → A ## C →
  ∃ b, dsep d o p A B C = Ok b ∧ (b = true ↔ dsepd (d_arcs d) A B C).
Proof. rewrite <-wf_views_agree. intros. by apply dsep_spec. Qed.

(** The answer does not depend on the pop order (nor on any other iteration
    order), for arbitrary, also overlapping, arguments. *)
Theorem C09_pop_order d o p o' p' A B C :
  views_agree d → acyclic (d_arcs d) → dsep d o p A B C = dsep d o' p' A B C.
Proof.
  rewrite <-wf_views_agree. intros Hwf Hac. unfold dsep.
  destruct (shaded_spec d Hwf o C) as (sh & -> & Hsh). destruct (shaded_spec d Hwf o' C) as (sh' & -> & Hsh').
  replace sh' with sh by (apply set_eq; intros x; by rewrite Hsh, Hsh'). cbn [res_bind].
  destruct (ball_run d Hwf Hac p (λ s, bool_decide (s.1 ∈ B)) sh A C Hsh) as (b & -> & Hb).
  destruct (ball_run d Hwf Hac p' (λ s, bool_decide (s.1 ∈ B)) sh A C Hsh) as (b' & -> & Hb').
  f_equal. apply eq_true_iff_eq. by rewrite Hb, Hb'.
Qed.

Example C09_example :
  views_agree ex_dag ∧ acyclic (d_arcs ex_dag) ∧
  dsep ex_dag oracle0 popper0 {[1]} {[5]} ∅ = Ok true ∧
  dsep ex_dag oracle_rev popper_last {[1]} {[5]} {[4]} = Ok false ∧
  dsep ex_dag oracle0 popper0 {[1]} {[5]} {[4; 2]} = Ok true.
Proof. split; [apply ex_ok|]. split; [apply ex_ok|]. split_and!; by_vm. Qed.

(** ** C10: symmetry *)

Theorem C10_dsep_symmetric d o p o' p' A B C :
  views_agree d → acyclic (d_arcs d) → A ## C → B ## C → dsep d o p A B C = dsep d o' p' B A C.
Proof.
  intros Hv Hac HA HB. destruct (C09_dsep_decides d o p A B C Hv Hac HA) as (b & -> & Hb).
  destruct (C09_dsep_decides d o' p' B A C Hv Hac HB) as (b' & -> & Hb').
  f_equal. apply eq_true_iff_eq. rewrite Hb, Hb'. split; apply dsepd_sym.
Qed.

Example C10_example :
  dsep ex_dag oracle0 popper0 {[1]} {[5]} {[3]} = Ok false ∧ dsep ex_dag oracle0 popper0 {[5]} {[1]} {[3]} = Ok false.
Proof. split_and!; by_vm. Qed.

(** Without disjointness symmetry fails: 1 -> 2 with 2 conditioned on. *)
Theorem C10_overlap_refuted :
  ∃ d o p A B C, views_agree d ∧ acyclic (d_arcs d) ∧ dsep d o p A B C ≠ dsep d o p B A C.
Proof.
  exists (dag_of ∅ {[(1, 2)]}), oracle0, popper0, {[1]}, {[2]}, {[2]}.
  assert (acyclic {[(1, 2)]}) as Hac by by_vm.
  split; [apply wf_views_agree, dag_of_wf|]. split; [by rewrite dag_of_arcs|]. by_vm.
Qed.

(** ** C11: [dsep_from_given] *)

(** All node sets [A] and [C], overlapping or not. *)
Theorem C11_dsep_from_given_partial d o o' p A C :
  views_agree d → acyclic (d_arcs d) →
  ∃ S, dsep_from_given d o A C = Ok S ∧
    ∀ v, v ∈ S ↔ v ∈ d_nodes d ∧ v ∉ A ∧ v ∉ C ∧ dsep d o' p A {[v]} C = Ok true.
Proof.
  rewrite <-wf_views_agree. intros Hwf Hac. destruct (dsep_from_given_spec d Hwf Hac o A C) as (S & -> & HS).
  exists S. split; [done|]. intros v. rewrite HS. split.
  - intros (H1 & H2 & H3 & H4). split_and!; [done..|].
    destruct (dsep_overlap d Hwf o' Hac p A {[v]} C) as (b & -> & Hb); [set_solver|]. f_equal. by apply Hb.
  - intros (H1 & H2 & H3 & H4). split_and!; [done..|].
    destruct (dsep_overlap d Hwf o' Hac p A {[v]} C) as (b & Hb1 & Hb); [set_solver|]. apply Hb. congruence.
Qed.

Theorem C11_dsep_from_given_graph d o A C :
  views_agree d → acyclic (d_arcs d) → A ## C →
  ∃ S, dsep_from_given d o A C = Ok S ∧
    ∀ v, v ∈ S ↔ v ∈ d_nodes d ∧ v ∉ A ∧ v ∉ C ∧ dsepd (d_arcs d) A {[v]} C.
Proof.
  rewrite <-wf_views_agree. intros Hwf Hac HAC. destruct (dsep_from_given_spec d Hwf Hac o A C) as (S & HS1 & HS).
  exists S. split; [done|]. intros v. rewrite HS. by replace (A ∖ C) with A by set_solver.
Qed.

Example C11_example :
  dsep_from_given ex_dag oracle0 {[1]} ∅ = Ok {[2; 5]} ∧ dsep_from_given ex_dag oracle0 {[1]} {[4]} = Ok ∅ ∧
  dsep_from_given ex_dag oracle0 {[4]} {[2; 3]} = Ok {[1; 5]}.
Proof. split_and!; by_vm. Qed.

(** The reported adjacency does change: the call reads [self._children[None]],
    which creates the key [None], and the property [children] reports it. *)
Theorem C11_adjacency_unchanged_refuted :
  ∃ d o A C r, views_agree d ∧ acyclic (d_arcs d) ∧ A ⊆ d_nodes d ∧
    dsep_from_given_keys d o A C = Ok r ∧ None ∈ r.2.
Proof.
  exists (dag_of ∅ {[(1, 2)]}), oracle0, {[1]}, ∅, (∅, {[None]}).
  assert (acyclic {[(1, 2)]}) as Hac by by_vm.
  split; [apply wf_views_agree, dag_of_wf|]. split; [by rewrite dag_of_arcs|]. split_and!; by_vm.
Qed.

(** ** C12: [is_invariant] *)

Theorem C12_is_invariant d o p F A I C :
  views_agree d → acyclic (d_arcs d) → F ∉ d_nodes d → F ∉ A → F ∉ I → F ∉ C → A ## C →
  ∃ b, is_invariant d o p A I C = Ok b ∧
    (b = true ↔ dsepd (with_intervention (d_arcs d) F I) A {[F]} C).
Proof. rewrite <-wf_views_agree. intros. by apply is_invariant_spec. Qed.

Example C12_example :
  99 ∉ d_nodes ex_dag ∧
  is_invariant ex_dag oracle0 popper0 {[4]} {[3]} ∅ = Ok false ∧
  is_invariant ex_dag oracle0 popper0 {[4]} {[2]} {[3; 2]} = Ok true ∧
  is_invariant ex_dag oracle0 popper0 {[4]} {[3]} {[3]} = Ok true ∧
  is_invariant ex_dag oracle0 popper0 {[2]} {[3]} {[4]} = Ok false.
Proof. split_and!; by_vm. Qed.

(** ** C13: local Markov statements *)

Theorem C13_local_markov d o :
  views_agree d → acyclic (d_arcs d) →
  ∃ S, local_markov_statements d o = Ok S ∧
    (∀ v B C, (v, B, C) ∈ S ↔
       v ∈ d_nodes d ∧ (∀ x, x ∈ C ↔ (x, v) ∈ d_arcs d) ∧
       ∀ x, x ∈ B ↔ x ∈ d_nodes d ∧ x ≠ v ∧ (x, v) ∉ d_arcs d ∧ ¬ ancestor (d_arcs d) v x) ∧
    ∀ v B C, (v, B, C) ∈ S → dsepd (d_arcs d) {[v]} B C.
Proof.
  rewrite <-wf_views_agree. intros Hwf Hac. destruct (local_markov_statements_spec d d Hwf Hac Hwf Hac eq_refl o) as (S & -> & HS).
  exists S. split; [done|]. split.
  - intros v B C. rewrite HS. split.
    + intros (Hv & -> & ->). split; [done|]. split; [intros x; apply elem_of_pa|]. intros x.
      rewrite elem_of_nondesc_rest, elem_of_pa. done.
    + intros (Hv & HC & HB). split; [done|]. split; apply set_eq; intros x.
      * rewrite HB, elem_of_nondesc_rest, elem_of_pa. done.
      * by rewrite HC, elem_of_pa.
  - intros v B C (Hv & -> & ->)%HS. apply local_markov; [done|]. intros x. rewrite elem_of_nondesc_rest. naive_solver.
Qed.

Theorem C13_self_imap d o p ord :
  views_agree d → acyclic (d_arcs d) → (∀ S, ord S ≡ₚ elements S) → is_imap d d o p ord = Ok true.
Proof.
  rewrite <-wf_views_agree. intros Hwf Hac Hord. destruct (is_imap_spec d d Hwf Hac Hwf Hac eq_refl o p ord Hord) as (b & -> & Hb).
  f_equal. apply Hb. intros ????????. done.
Qed.

Example C13_example :
  match local_markov_statements ex_dag oracle0 with
  | Ok st => bool_decide ((3, {[5]}, {[1; 2]}) ∈ st) && bool_decide ((1, {[2; 5]}, ∅) ∈ st)
  | Raise _ => false
  end = true.
Proof. by_vm. Qed.

(** ** C14: [is_imap] *)

Theorem C14_is_imap d other o p ord :
  views_agree d → acyclic (d_arcs d) → views_agree other → acyclic (d_arcs other) →
  d_nodes d = d_nodes other → (∀ S, ord S ≡ₚ elements S) →
  ∃ b, is_imap d other o p ord = Ok b ∧
    (b = true ↔ ∀ A B C, A ⊆ d_nodes d → B ⊆ d_nodes d → C ⊆ d_nodes d → disjoint3 A B C →
       dsepd (d_arcs d) A B C → dsepd (d_arcs other) A B C).
Proof. rewrite <-!wf_views_agree. intros. by apply is_imap_spec. Qed.

Example C14_example :
  let chain := dag_of ∅ {[(1, 2); (2, 3)]} in let coll := dag_of ∅ {[(1, 2); (3, 2)]} in
  let full := dag_of ∅ {[(1, 2); (2, 3); (1, 3)]} in
  d_nodes chain = d_nodes coll ∧ d_nodes full = d_nodes chain ∧
  is_imap chain coll oracle0 popper0 elements = Ok false ∧ is_imap coll chain oracle0 popper0 elements = Ok false ∧
  is_imap full chain oracle0 popper0 elements = Ok true.
Proof. split_and!; by_vm. Qed.

(** ** C15: [is_minimal_imap] *)

(** [check_imap=False] is only meaningful when the caller knows that [d] is an
    IMAP; the certificate is an arc that can be deleted. *)
Theorem C15_is_minimal_imap d other o p ord ci :
  views_agree d → acyclic (d_arcs d) → views_agree other → acyclic (d_arcs other) →
  d_nodes d = d_nodes other → (∀ S, ord S ≡ₚ elements S) →
  (ci = false → imap (d_nodes d) (d_arcs d) (d_arcs other)) →
  ∃ b c, is_minimal_imap d other o p ord ci = Ok (b, c) ∧
    (b = true ↔ minimal_imap (d_nodes d) (d_arcs d) (d_arcs other)) ∧
    (∀ i j, c = Some (i, j) → (i, j) ∈ d_arcs d ∧ imap (d_nodes d) (d_arcs d ∖ {[(i, j)]}) (d_arcs other)).
Proof. rewrite <-!wf_views_agree. intros. by apply is_minimal_imap_spec. Qed.

Example C15_example :
  let chain := dag_of ∅ {[(1, 2); (2, 3)]} in let full := dag_of ∅ {[(1, 2); (2, 3); (1, 3)]} in
  let coll := dag_of ∅ {[(1, 2); (3, 2)]} in
  d_nodes full = d_nodes chain ∧
  is_minimal_imap full chain oracle0 popper0 elements true = Ok (false, Some (1, 3)) ∧
  is_minimal_imap chain chain oracle0 popper0 elements true = Ok (true, None) ∧
  is_minimal_imap coll chain oracle0 popper0 elements true = Ok (false, None).
Proof. split_and!; by_vm. Qed.

(** ** C16: Markov blanket *)

Theorem C16_markov_blanket d o p v :
  views_agree d → acyclic (d_arcs d) →
  v ∉ markov_blanket_of d v ∧
  (∀ x, x ∈ markov_blanket_of d v ↔
     x ≠ v ∧ (adjacent (d_arcs d) x v ∨ ∃ c, (v, c) ∈ d_arcs d ∧ (x, c) ∈ d_arcs d)) ∧
  dsep d o p {[v]} (d_nodes d ∖ markov_blanket_of d v ∖ {[v]}) (markov_blanket_of d v) = Ok true.
Proof.
  rewrite <-wf_views_agree. intros Hwf Hac.
  assert (∀ x, x ∈ markov_blanket_of d v ↔
     x ≠ v ∧ (adjacent (d_arcs d) x v ∨ ∃ c, (v, c) ∈ d_arcs d ∧ (x, c) ∈ d_arcs d)) as HM by by apply markov_blanket_elem.
  assert (v ∉ markov_blanket_of d v) as Hv by (rewrite HM; naive_solver).
  split_and!; [done|done|].
  destruct (dsep_spec d Hwf o Hac p {[v]} (d_nodes d ∖ markov_blanket_of d v ∖ {[v]}) (markov_blanket_of d v)) as (b & -> & Hb); [set_solver|].
  f_equal. apply Hb. by apply markov_blanket_sep.
Qed.

Example C16_example : markov_blanket_of ex_dag 1 = {[2; 3]} ∧ d_nodes ex_dag = {[1; 2; 3; 4; 5]}.
Proof. split_and!; by_vm. Qed.

(** ** C32: separation in the moral graph of the ancestral subgraph *)

Theorem C32_moral d o p o' flip A B C :
  views_agree d → acyclic (d_arcs d) → A ## C → B ## C →
  ∃ d' b, ancestral_subgraph d o' (A ∪ B ∪ C) = Ok d' ∧ dsep d o p A B C = Ok b ∧
    let g := moral_graph d' o' flip in
    (b = true ↔ useparated (u_nodes g) (λ x y, upair x y ∈ u_edges g) A B C).
Proof.
  rewrite <-wf_views_agree. intros Hwf Hac HA HB.
  destruct (dsep_moral d Hwf Hac o' flip A B C HA HB) as (d' & -> & Hd').
  destruct (dsep_spec d Hwf o Hac p A B C HA) as (b & -> & Hb). exists d', b. split; [done|]. split; [done|].
  cbn zeta. by rewrite Hb, Hd'.
Qed.

(** The moral graph: arcs without direction, and the parents of every node joined. *)
Theorem C32_moral_graph d o flip :
  views_agree d →
  u_nodes (moral_graph d o flip) = d_nodes d ∧
  ∀ x y, upair x y ∈ u_edges (moral_graph d o flip) ↔
    x ≠ y ∧ (adjacent (d_arcs d) x y ∨ ∃ z, (x, z) ∈ d_arcs d ∧ (y, z) ∈ d_arcs d).
Proof. rewrite <-wf_views_agree. intros Hwf. split; [by apply moral_graph_nodes|]. intros. by apply moral_graph_edges. Qed.

Example C32_example :
  u_edges (moral_graph ex_dag oracle0 (λ _, false)) = {[(1, 3); (2, 3); (3, 4); (2, 5); (1, 2)]}.
Proof. by_vm. Qed.

(** ** C31: subgraphs *)

Theorem C31_induced_subgraph d o X :
  views_agree d → acyclic (d_arcs d) →
  ∃ d', induced_subgraph d o X = Ok d' ∧ views_agree d' ∧ acyclic (d_arcs d') ∧ d_nodes d' = X ∧
    ∀ x y, (x, y) ∈ d_arcs d' ↔ (x, y) ∈ d_arcs d ∧ x ∈ X ∧ y ∈ X.
Proof.
  rewrite <-wf_views_agree. intros Hwf Hac. destruct (induced_subgraph_spec d o Hac X) as (d' & H1 & H2 & H3 & H4 & H5).
  exists d'. rewrite <-wf_views_agree. done.
Qed.

Theorem C31_ancestral_subgraph d o X :
  views_agree d → acyclic (d_arcs d) →
  ∃ d', ancestral_subgraph d o X = Ok d' ∧ views_agree d' ∧ acyclic (d_arcs d') ∧
    (∀ x, x ∈ d_nodes d' ↔ x ∈ X ∨ ∃ y, y ∈ X ∧ ancestor (d_arcs d) x y) ∧
    (∀ x y, (x, y) ∈ d_arcs d' ↔ (x, y) ∈ d_arcs d ∧ x ∈ d_nodes d' ∧ y ∈ d_nodes d') ∧
    ∀ x y, y ∈ d_nodes d' → ancestor (d_arcs d') x y ↔ ancestor (d_arcs d) x y.
Proof.
  rewrite <-wf_views_agree. intros Hwf Hac. destruct (ancestral_subgraph_spec d o Hwf Hac X) as (d' & H1 & H2 & H3 & H4 & H5).
  exists d'. rewrite <-wf_views_agree. split; [done|]. split; [done|]. split; [done|]. split; [|split].
  - intros x. rewrite H4. split.
    + intros (y & Hy & Hxy). apply rtc_tc in Hxy as [->|Hxy]; [by left|right; by exists y].
    + intros [Hx|(y & Hy & Hxy)]; [by exists x|exists y; split; [done|by apply tc_rtc]].
  - intros x y. rewrite H5. split; [|naive_solver]. intros [Hxy Hy]. split; [done|]. split; [|done].
    apply H4 in Hy as (z & Hz & Hyz). apply H4. exists z. split; [done|]. by eapply rtc_l.
  - intros x y Hy. by eapply ancestral_subgraph_ancestors.
Qed.

Example C31_subgraph_example :
  match induced_subgraph ex_dag oracle0 {[1; 3; 4]} with Ok d => d_arcs d | Raise _ => ∅ end = {[(1, 3); (3, 4)]} ∧
  match ancestral_subgraph ex_dag oracle0 {[3]} with Ok d => d_arcs d | Raise _ => ∅ end = {[(1, 3); (2, 3)]}.
Proof. split_and!; by_vm. Qed.

(** ** C31: renaming preserves and reflects d-separation *)

Theorem C31_rename_dsep d o f A B C :
  views_agree d → acyclic (d_arcs d) →
  (∀ x, x ∈ d_nodes d → is_Some (f !! x)) →
  (∀ x y, x ∈ d_nodes d → y ∈ d_nodes d → f !! x = f !! y → x = y) →
  A ⊆ d_nodes d → B ⊆ d_nodes d → C ⊆ d_nodes d → A ## C →
  let g := λ S : nset, set_map (λ x, default 0 (f !! x)) S : nset in
  ∃ d', rename_nodes d o f = Ok d' ∧ views_agree d' ∧ acyclic (d_arcs d') ∧ d_nodes d' = g (d_nodes d) ∧
    (∀ x y, x ∈ d_nodes d → y ∈ d_nodes d →
       (default 0 (f !! x), default 0 (f !! y)) ∈ d_arcs d' ↔ (x, y) ∈ d_arcs d) ∧
    (dsepd (d_arcs d') (g A) (g B) (g C) ↔ dsepd (d_arcs d) A B C).
Proof.
  rewrite <-wf_views_agree. intros Hwf Hac Htot Hinj HA HB HC HAC g.
  destruct (rename_nodes_spec d o Hwf Hac f Htot Hinj) as (d' & -> & Hwf' & Hac' & HN & HE).
  set (h := λ x, default 0 (f !! x)).
  assert (∀ x, x ∈ d_nodes d → f !! x = Some (h x)) as Hh by (intros x Hx; destruct (Htot x Hx) as [y Hy]; unfold h; by rewrite Hy).
  assert (∀ x y, x ∈ d_nodes d → y ∈ d_nodes d → h x = h y → x = y) as Hinj'.
  { intros x y Hx Hy Heq. apply Hinj; [done..|]. by rewrite !Hh, Heq. }
  assert (∀ b1 b2, (b1, b2) ∈ d_arcs d' ↔ ∃ a1 a2, (a1, a2) ∈ d_arcs d ∧ h a1 = b1 ∧ h a2 = b2) as HE'.
  { intros b1 b2. rewrite HE. split; intros (a1 & a2 & Ha & H1 & H2); exists a1, a2; pose proof (wf_over d Hwf _ _ Ha) as [? ?];
      rewrite !Hh in * by done; naive_solver. }
  exists d'. split; [done|]. split; [by apply wf_views_agree|]. split; [done|]. split; [|split].
  - apply set_eq. intros b. rewrite HN. unfold g. rewrite elem_of_map. fold h. split.
    + intros (a & Ha & Hab). exists a. split; [|done]. rewrite Hh in Hab by done. naive_solver.
    + intros (a & -> & Ha). exists a. split; [done|]. by apply Hh.
  - intros x y Hx Hy. apply (ren_edge (d_arcs d) (d_arcs d') h (d_nodes d) (wf_over d Hwf) Hinj' HE' x y Hx Hy).
  - by apply (ren_dsepd (d_arcs d) (d_arcs d') h (d_nodes d) (wf_over d Hwf) Hinj' HE').
Qed.

Example C31_rename_example :
  let f : gmap nat nat := {[1 := 2; 2 := 1; 3 := 7; 4 := 3; 5 := 9]} in
  (∀ x, x ∈ d_nodes ex_dag → is_Some (f !! x)) ∧
  (∀ x y, x ∈ d_nodes ex_dag → y ∈ d_nodes ex_dag → f !! x = f !! y → x = y) ∧
  d_arcs (match rename_nodes ex_dag oracle0 f with Ok d' => d' | Raise _ => ex_dag end) = {[(2, 7); (1, 7); (7, 3); (1, 9)]}.
Proof.
  cbn zeta. assert (d_nodes ex_dag = {[1; 2; 3; 4; 5]}) as HN by by_vm. split_and!.
  - change (set_Forall (λ x, is_Some (({[1 := 2; 2 := 1; 3 := 7; 4 := 3; 5 := 9]} : gmap nat nat) !! x)) (d_nodes ex_dag)). by_vm.
  - intros x y Hx Hy. revert y Hy. pattern x. revert x Hx.
    change (set_Forall (λ x, ∀ y, y ∈ d_nodes ex_dag → ({[1 := 2; 2 := 1; 3 := 7; 4 := 3; 5 := 9]} : gmap nat nat) !! x = ({[1 := 2; 2 := 1; 3 := 7; 4 := 3; 5 := 9]} : gmap nat nat) !! y → x = y) (d_nodes ex_dag)).
    change (set_Forall (λ x, set_Forall (λ y, ({[1 := 2; 2 := 1; 3 := 7; 4 := 3; 5 := 9]} : gmap nat nat) !! x = ({[1 := 2; 2 := 1; 3 := 7; 4 := 3; 5 := 9]} : gmap nat nat) !! y → x = y) (d_nodes ex_dag)) (d_nodes ex_dag)).
    by_vm.
  - by_vm.
Qed.

(** ** C43: [UndirectedGraph] views *)

(** Histories with no self-loop passed to [add_edge]. *)
Theorem C43_views_partial o flip N es h :
  Forall no_loop h →
  let g := urun h (ug_make o flip N es) in
  (∀ x y, y ∈ unbrs g x ↔ x ∈ unbrs g y) ∧
  (∀ x y, y ∈ unbrs g x ↔ x ≠ y ∧ upair x y ∈ u_edges g) ∧
  (∀ x, udeg g x = Z.of_nat (size (unbrs g x))).
Proof.
  intros Hh g. assert (uok g) as [H1 H2 H3].
  { unfold g. assert (uok (ug_make o flip N es)) as H by apply ug_make_ok. clear g. revert H.
    generalize (ug_make o flip N es). unfold urun. induction Hh as [|c h Hc Hh IH]; intros g Hg; [done|]. cbn. apply IH. by apply uexec_ok. }
  split_and!; [|done|done]. intros x y. rewrite !H2, upair_comm. split; intros [??]; split; congruence.
Qed.

(** Endpoints: additionally every edge is added between nodes present at the time. *)
Fixpoint all_inside (h : list ucall) (g : ug) : Prop :=
  match h with [] => True | c :: h' => adds_inside g c ∧ all_inside h' (uexec c g).1 end.
Theorem C43_endpoints_partial o flip N es h :
  Forall no_loop h → all_inside h (ug_make o flip N es) →
  let g := urun h (ug_make o flip N es) in
  ∀ i j, upair i j ∈ u_edges g → i ∈ u_nodes g ∧ j ∈ u_nodes g.
Proof.
  intros Hh Hin g. change (uover g). unfold g.
  assert (uok (ug_make o flip N es)) as H by apply ug_make_ok. assert (uover (ug_make o flip N es)) as H' by apply ug_make_ok.
  clear g. revert H H' Hin. generalize (ug_make o flip N es). unfold urun.
  induction Hh as [|c h Hc Hh IH]; intros g Hg Hg' Hin; [done|]. cbn in *. destruct Hin as [Hin1 Hin2].
  apply IH; [by apply uexec_ok|by apply uexec_over|done].
Qed.

Definition ex_hist : list ucall := [UAddEdge 1 4; UDelEdge 2 3; UDelEdge 2 3; UAddEdges [(4, 2); (2, 4)]; UDelNode oracle0 1].
Example C43_example :
  Forall no_loop ex_hist ∧ all_inside ex_hist (ug_make oracle0 (λ _, false) {[4]} {[(1, 2); (3, 2)]}) ∧
  u_edges (urun ex_hist (ug_make oracle0 (λ _, false) {[4]} {[(1, 2); (3, 2)]})) = {[(2, 4)]}.
Proof. split; [by repeat constructor|]. split; [|by_vm]. cbn [all_inside ex_hist adds_inside]. split_and!; try done; try by_vm. Qed.

(** [add_edge] does not add its endpoints to the nodes. *)
Theorem C43_endpoints_refuted :
  ∃ o flip N es h i j, let g := urun h (ug_make o flip N es) in upair i j ∈ u_edges g ∧ i ∉ u_nodes g.
Proof. exists oracle0, (λ _, false), ∅, ∅, [UAddEdge 1 2], 1, 2. split; by_vm. Qed.

(** A self-loop has degree two but one neighbour. *)
Theorem C43_degree_refuted :
  ∃ o flip N es h x, let g := urun h (ug_make o flip N es) in
    x ∈ u_nodes g ∧ udeg g x ≠ Z.of_nat (size (unbrs g x)).
Proof. exists oracle0, (λ _, false), {[1]}, ∅, [UAddEdge 1 1], 1. split; by_vm. Qed.

Print Assumptions C31_induced_subgraph.
Print Assumptions C31_ancestral_subgraph.
Print Assumptions C43_views_partial.
Print Assumptions C43_endpoints_partial.
Print Assumptions C43_endpoints_refuted.
Print Assumptions C43_degree_refuted.
Print Assumptions C09_dsep_decides.
Print Assumptions C09_pop_order.
Print Assumptions C10_dsep_symmetric.
Print Assumptions C10_overlap_refuted.
Print Assumptions C11_dsep_from_given_partial.
Print Assumptions C11_dsep_from_given_graph.
Print Assumptions C11_adjacency_unchanged_refuted.
Print Assumptions C12_is_invariant.
Print Assumptions C13_local_markov.
Print Assumptions C13_self_imap.
Print Assumptions C14_is_imap.
Print Assumptions C15_is_minimal_imap.
Print Assumptions C16_markov_blanket.
Print Assumptions C32_moral.
Print Assumptions C32_moral_graph.
Print Assumptions C31_rename_dsep.
