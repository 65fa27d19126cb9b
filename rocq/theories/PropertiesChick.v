(** Final theorems about Chickering sequences: C85, C86. *)
From Verif Require Import Py Spec SpecDsep SpecMec SpecEnum SpecChick DagModel DsepModel UGraphModel PdagModel EnumModel CompareModel ChickModel TopoProofs
  StateProofs ReachProofs CoreProofs OrderProofs QueryProofs WalkProofs DsepProofs MarkovProofs ImapProofs UGraphProofs PdagProofs ProtProofs CpdagProofs
  EquivProofs ImsetProofs ShdProofs ChickProofs ChickLift ChickOps PropertiesDag.

(** ** C85: the sequence from a DAG to an I-map of it *)

Lemma chick_step_imap N E E' : acyclic E → over N E → chick_step N E E' → imap N E' E ∧ acyclic E' ∧ over N E'.
Proof.
  intros Hac Ho [x y Hcov|x y Hx Hy Hadj Hac'].
  - split_and!; [by apply covered_flip_imap|by apply flip_acyclic|]. apply flip_over; [done|]. by destruct Hcov.
  - split_and!; [|done|].
    + intros A B C HA HB HC Hd. apply dsepd_sub; [done|clear; set_solver|by apply Hd].
    + intros u v [[= -> ->]%elem_of_singleton|Huv]%elem_of_union; [done|by apply Ho].
Qed.
Lemma imap_trans N E1 E2 E3 : imap N E1 E2 → imap N E2 E3 → imap N E1 E3.
Proof. intros H1 H2 A B C HA HB HC Hd Hs. apply H2; [done..|]. by apply H1. Qed.

(** [apply_edge_operation] turns around a covered arc or adds an arc; the target
    stays an I-map and gets closer.  The report says which, for a sink of what is
    left of the target, and for the given sink if it is one. *)
Theorem C85_apply_edge_operation (d imap' : dag) (os : nat → oracle) (seed : option node) :
  views_agree d → acyclic (d_arcs d) → views_agree imap' → acyclic (d_arcs imap') → d_nodes d = d_nodes imap' →
  imap (d_nodes d) (d_arcs imap') (d_arcs d) → d_arcs d ≠ d_arcs imap' →
  ∃ d' m, apply_edge_operation d imap' os seed = Ok (d', m) ∧
    views_agree d' ∧ acyclic (d_arcs d') ∧ d_nodes d' = d_nodes d ∧
    chick_step (d_nodes d) (d_arcs d) (d_arcs d') ∧ reports (d_arcs d) (d_arcs d') m ∧
    open_sink (d_nodes d) (d_arcs d) (d_arcs imap') (mv_sink m) ∧
    (∀ y, seed = Some y → open_sink (d_nodes d) (d_arcs d) (d_arcs imap') y → mv_sink m = y) ∧
    imap (d_nodes d) (d_arcs imap') (d_arcs d') ∧ imap (d_nodes d) (d_arcs d') (d_arcs d) ∧
    chickering_distance d' imap' < chickering_distance d imap'.
Proof.
  intros Hwf%wf_views_agree Hac Hwf'%wf_views_agree Hac' HN Hi Hne.
  destruct (apply_edge_operation_spec d imap' Hwf Hac Hwf' Hac' HN Hi os seed Hne) as (d' & m & Hr & H1 & H2 & H3 & H4 & H5 & H6 & H7 & H8).
  destruct (apply_edge_operation_step d imap' os seed (d', m) Hwf Hac Hwf' Hac' HN Hr) as (_ & _ & _ & Hst). cbn in Hst.
  exists d', m. split_and!; try done; [by apply wf_views_agree|]. by apply (chick_step_imap _ _ _ Hac (wf_over d Hwf)) in Hst as [].
Qed.

Lemma chickering_loop_spec (N : nset) (h : dag) os fuel i cur seq moves : views_agree h → acyclic (d_arcs h) → d_nodes h = N →
  views_agree cur → acyclic (d_arcs cur) → d_nodes cur = N →
  imap N (d_arcs h) (d_arcs cur) → chickering_distance cur h ≤ fuel →
  ∃ s ms, chickering_loop h os fuel i cur seq moves = Ok (seq ++ s, moves ++ ms) ∧
    length s = S (length ms) ∧ length ms ≤ chickering_distance cur h ∧
    (∃ first, head s = Some first ∧ d_arcs first = d_arcs cur ∧ (ms ≠ [] → first = cur)) ∧ last s = Some h ∧
    (∀ g, g ∈ s → views_agree g ∧ acyclic (d_arcs g) ∧ d_nodes g = N ∧ imap N (d_arcs h) (d_arcs g) ∧ imap N (d_arcs g) (d_arcs cur)) ∧
    (∀ j g g' m, s !! j = Some g → s !! S j = Some g' → ms !! j = Some m →
       chick_step N (d_arcs g) (d_arcs g') ∧ reports (d_arcs g) (d_arcs g') m ∧ chickering_distance g' h < chickering_distance g h).
Proof.
  intros Hh1 Hh2 Hh3. revert i cur seq moves. induction fuel as [|fuel IH]; intros i cur seq moves Hc1 Hc2 Hc3 Hi Hf; cbn [chickering_loop].
  all: unfold dag_eq; case_bool_decide as Heq.
  all: try (destruct Heq as [_ Heq]; exists [h], []; rewrite app_nil_r; split_and!; [done|done|cbn; lia|by exists h|done| |by intros [|j] ???];
    intros g ->%elem_of_list_singleton; split_and!; [done|done|done|by intros ?|rewrite Heq; by intros ?]).
  - exfalso. destruct (decide (d_arcs cur = d_arcs h)) as [He|He]; [apply Heq; split; [congruence|done]|].
    rewrite <-Hc3 in Hi. destruct (C85_apply_edge_operation cur h (os 0) None Hc1 Hc2 Hh1 Hh2) as (? & ? & ?); [congruence|done|done|].
    destruct_and!. lia.
  - assert (d_arcs cur ≠ d_arcs h) as He by (intros He; apply Heq; split; [congruence|done]).
    rewrite <-Hc3 in Hi. destruct (C85_apply_edge_operation cur h (os i) None Hc1 Hc2 Hh1 Hh2) as (d' & m & Hr & H1 & H2 & H3 & H4 & H5 & _ & _ & H6 & H7 & H8);
      [congruence|done|done|].
    rewrite Hr. cbn [res_bind fst snd]. rewrite Hc3 in *.
    destruct (IH (S i) d' (seq ++ [cur]) (moves ++ [m])) as (s & ms & Hl & Hlen & Hle & (f & Hhd & Hf1 & Hf2) & Hlast & Hall & Hst); [done|done|done|done|lia|].
    exists (cur :: s), (m :: ms). rewrite Hl, <-!(assoc_L (++)). split_and!; [done|cbn; lia|cbn; lia|by exists cur| | |].
    + destruct s; [done|]. done.
    + intros g [->|Hg]%elem_of_cons; [split_and!; [done..|]; by intros ?|]. destruct (Hall g Hg) as (?&?&?&?&?). split_and!; [done..|]. by eapply imap_trans.
    + intros [|j] g g' m'.
      * intros [= <-] Hg' [= <-]. cbn in Hg'. destruct s as [|f' s]; [done|]. cbn in Hhd, Hg'. injection Hhd as ->. injection Hg' as ->.
        rewrite Hf1. split_and!; [done..|]. rewrite !chickering_wdist, Hf1. by rewrite !chickering_wdist in H8.
      * apply Hst.
Qed.

(** The docstring of [chickering_sequence]: it returns DAGs from [self] to [imap],
    one operation apart, each an I-map of [self], of which [imap] is an I-map; one
    report per operation, and at most Chickering's distance many. *)
Theorem C85_chickering_sequence (d imap' : dag) (os : nat → nat → oracle) (fuel : nat) :
  views_agree d → acyclic (d_arcs d) → views_agree imap' → acyclic (d_arcs imap') → d_nodes d = d_nodes imap' →
  imap (d_nodes d) (d_arcs imap') (d_arcs d) → chickering_distance d imap' ≤ fuel →
  ∃ seq moves, chickering_sequence d imap' os fuel = Ok (seq, moves) ∧
    length seq = S (length moves) ∧ length moves ≤ chickering_distance d imap' ∧
    (∃ first, head seq = Some first ∧ d_arcs first = d_arcs d ∧ (moves ≠ [] → first = d)) ∧ last seq = Some imap' ∧
    (∀ g, g ∈ seq → views_agree g ∧ acyclic (d_arcs g) ∧ d_nodes g = d_nodes d ∧
       imap (d_nodes d) (d_arcs imap') (d_arcs g) ∧ imap (d_nodes d) (d_arcs g) (d_arcs d)) ∧
    (∀ j g g' m, seq !! j = Some g → seq !! S j = Some g' → moves !! j = Some m →
       chick_step (d_nodes d) (d_arcs g) (d_arcs g') ∧ reports (d_arcs g) (d_arcs g') m ∧
       chickering_distance g' imap' < chickering_distance g imap').
Proof.
  intros Hd1 Hd2 Hh1 Hh2 HN Hi Hf. unfold chickering_sequence.
  destruct (chickering_loop_spec (d_nodes d) imap' os fuel 0 d [] []) as (s & ms & Hr & H); [done..|]. exists s, ms. split; [exact Hr|exact H].
Qed.

(** ** C86: it returns only for I-maps, and operations characterise I-maps *)

Lemma chickering_loop_inv (N : nset) (h : dag) os fuel i cur seq moves r : views_agree h → acyclic (d_arcs h) → d_nodes h = N →
  views_agree cur → acyclic (d_arcs cur) → d_nodes cur = N →
  chickering_loop h os fuel i cur seq moves = Ok r → rtc (chick_step N) (d_arcs cur) (d_arcs h).
Proof.
  intros Hh1 Hh2 Hh3. revert i cur seq moves. induction fuel as [|fuel IH]; intros i cur seq moves Hc1 Hc2 Hc3; cbn [chickering_loop].
  all: unfold dag_eq; case_bool_decide as Heq; [destruct Heq as [_ ->]; intros _; apply rtc_refl|].
  { done. }
  intros ([d' m] & Hr & Hl)%res_bind_inv. cbn [fst snd] in Hl.
  destruct (apply_edge_operation_step cur h (os i) None (d', m)) as (H1 & H2 & H3 & H4); [by apply wf_views_agree|done|by apply wf_views_agree|done|congruence|done|].
  cbn in *. eapply rtc_l; [rewrite <-Hc3; exact H4|]. eapply IH; [by apply wf_views_agree|done|congruence|exact Hl].
Qed.
Lemma chick_steps_imap N E E' : acyclic E → over N E → rtc (chick_step N) E E' → imap N E' E.
Proof.
  intros Hac Ho Hr. revert Hac Ho. induction Hr as [E|E E1 E2 Hst _ IH]; intros Hac Ho; [by intros ?|].
  apply (chick_step_imap N) in Hst as (H1 & H2 & H3); [|done|done]. eapply imap_trans; [by apply IH|done].
Qed.

(** Whatever the target, a returned sequence proves that it is an I-map. *)
Theorem C86_returns_only_for_imaps (d imap' : dag) (os : nat → nat → oracle) (fuel : nat) r :
  views_agree d → acyclic (d_arcs d) → views_agree imap' → acyclic (d_arcs imap') → d_nodes d = d_nodes imap' →
  chickering_sequence d imap' os fuel = Ok r → imap (d_nodes d) (d_arcs imap') (d_arcs d).
Proof.
  intros Hd1 Hd2 Hh1 Hh2 HN Hr. apply chick_steps_imap; [done|apply wf_over; by apply wf_views_agree|].
  eapply (chickering_loop_inv (d_nodes d) imap' os fuel 0 d [] []); done.
Qed.

(** So on DAGs over the same nodes it decides the I-map relation. *)
Theorem C86_returns_iff_imap (d imap' : dag) (os : nat → nat → oracle) :
  views_agree d → acyclic (d_arcs d) → views_agree imap' → acyclic (d_arcs imap') → d_nodes d = d_nodes imap' →
  (∃ fuel r, chickering_sequence d imap' os fuel = Ok r) ↔ imap (d_nodes d) (d_arcs imap') (d_arcs d).
Proof.
  intros Hd1 Hd2 Hh1 Hh2 HN. split; [intros (fuel & r & Hr); by eapply C86_returns_only_for_imaps|]. intros Hi.
  destruct (C85_chickering_sequence d imap' os (chickering_distance d imap')) as (s & ms & Hr & _); [done..|]. by eexists _, _.
Qed.

(** Meek's conjecture, proved by Chickering: [H] is an I-map of [G] exactly when
    covered reversals and additions lead from [G] to [H]. *)
Theorem C86_meek (N : nset) (G H : arcset) : acyclic G → acyclic H → over N G → over N H →
  imap N H G ↔ rtc (chick_step N) G H.
Proof.
  intros HG HH HoG HoH. split; [|by apply chick_steps_imap]. intros Hi.
  destruct (C85_chickering_sequence (dag_of N G) (dag_of N H) (λ _ _, oracle0) (chickering_distance (dag_of N G) (dag_of N H))) as (s & ms & Hr & _).
  { apply wf_views_agree, dag_of_wf. } { by rewrite dag_of_arcs. } { apply wf_views_agree, dag_of_wf. } { by rewrite dag_of_arcs. }
  { by rewrite !dag_of_nodes. } { by rewrite !dag_of_arcs, dag_of_nodes. } { done. }
  rewrite <-(dag_of_arcs N G HG), <-(dag_of_arcs N H HH).
  eapply (chickering_loop_inv N (dag_of N H) _ _ 0 (dag_of N G) [] []); [..|exact Hr].
  { apply wf_views_agree, dag_of_wf. } { by rewrite dag_of_arcs. } { by rewrite dag_of_nodes. }
  { apply wf_views_agree, dag_of_wf. } { by rewrite dag_of_arcs. } { by rewrite dag_of_nodes. }
Qed.

(** ** Examples *)

(** The docstring of [chickering_sequence]: the chain [0 → 1 → 2] and a complete
    DAG; the graphs and reports are the documented ones. *)
Definition ch_d := dag_of {[0; 1; 2]} {[(0, 1); (1, 2)]}.
Definition ch_imap := dag_of {[0; 1; 2]} {[(2, 0); (2, 1); (1, 0)]}.
Example C85_docstring :
  match chickering_sequence ch_d ch_imap (λ _ _, oracle0) 4 with
  | Ok (seq, moves) => bool_decide (d_arcs <$> seq =
      [{[(0, 1); (1, 2)]}; {[(1, 0); (1, 2)]}; {[(1, 0); (1, 2); (2, 0)]}; {[(2, 0); (2, 1); (1, 0)]}]) &&
      bool_decide ((λ m, (mv_sink m, mv_step m, mv_d m)) <$> moves = [(0, 6, Some 2); (0, 4, None); (1, 6, Some 2)])
  | Raise _ => false
  end = true.
Proof. vm_compute. reflexivity. Qed.
Example C85_docstring_ok : views_agree ch_d ∧ acyclic (d_arcs ch_d) ∧ views_agree ch_imap ∧ acyclic (d_arcs ch_imap) ∧ d_nodes ch_d = d_nodes ch_imap ∧
  imap (d_nodes ch_d) (d_arcs ch_imap) (d_arcs ch_d) ∧ d_arcs ch_d ≠ d_arcs ch_imap.
Proof.
  assert (acyclic (d_arcs ch_d) ∧ acyclic (d_arcs ch_imap) ∧ d_nodes ch_d = d_nodes ch_imap ∧ d_arcs ch_d ≠ d_arcs ch_imap) as (H1 & H2 & H3 & H4).
  { split_and!; [apply acyclicb_spec; vm_compute; reflexivity..|by_vm|by_vm]. }
  split; [apply wf_views_agree, dag_of_wf|]. split; [exact H1|]. split; [apply wf_views_agree, dag_of_wf|]. split; [exact H2|]. split; [exact H3|]. split; [|exact H4].
  pose proof C85_docstring as H. destruct (chickering_sequence ch_d ch_imap (λ _ _, oracle0) 4) as [r|] eqn:E; [|done].
  eapply C86_returns_only_for_imaps; [apply wf_views_agree, dag_of_wf|done|apply wf_views_agree, dag_of_wf|done|done|exact E].
Qed.

(** Steps 7 and 8 occur: the sink [0] has the child [1] with another parent [2];
    the sink [1] has a parent [0] that its child [2] lacks. *)
Example C85_step7 :
  match apply_edge_operation (dag_of {[0; 1; 2]} {[(0, 1); (2, 1)]}) (dag_of {[0; 1; 2]} {[(1, 0); (2, 0); (2, 1)]}) (λ _, oracle0) None with
  | Ok (d', m) => bool_decide (d_arcs d' = {[(0, 1); (2, 1); (2, 0)]} ∧ mv_step m = 7 ∧ mv_sink m = 0)
  | Raise _ => false
  end = true.
Proof. vm_compute. reflexivity. Qed.
Example C85_step8 :
  match apply_edge_operation (dag_of {[0; 1; 2]} {[(0, 1); (1, 2)]}) (dag_of {[0; 1; 2]} {[(0, 1); (2, 1); (0, 2)]}) (λ _, oracle0) None with
  | Ok (d', m) => bool_decide (d_arcs d' = {[(0, 1); (1, 2); (0, 2)]} ∧ mv_step m = 8 ∧ mv_sink m = 1)
  | Raise _ => false
  end = true.
Proof. vm_compute. reflexivity. Qed.

(** A target that is not an I-map: removing the arc [0 → 1] is impossible, and
    [random.choice] fails on an empty list. *)
Example C86_not_imap :
  match chickering_sequence (dag_of {[0; 1]} {[(0, 1)]}) (dag_of {[0; 1]} ∅) (λ _ _, oracle_rev) 5 with
  | Raise IndexError => true
  | _ => false
  end = true.
Proof. vm_compute. reflexivity. Qed.
(** Meek's theorem on the example. *)
Example C86_meek_example : rtc (chick_step {[0; 1; 2]}) {[(0, 1); (1, 2)]} {[(2, 0); (2, 1); (1, 0)]}.
Proof.
  pose proof C85_docstring_ok as (V1 & H1 & V2 & H2 & HN & H3 & _).
  apply wf_views_agree in V1, V2. pose proof (wf_over _ V1) as O1. pose proof (wf_over _ V2) as O2. rewrite <-HN in O2.
  assert (d_nodes ch_d = {[0; 1; 2]} ∧ d_arcs ch_d = {[(0, 1); (1, 2)]} ∧ d_arcs ch_imap = {[(2, 0); (2, 1); (1, 0)]}) as (E1 & E2 & E3) by (split_and!; by_vm).
  rewrite E1, E2, E3 in *. by apply C86_meek.
Qed.

Print Assumptions C85_apply_edge_operation.
Print Assumptions C85_chickering_sequence.
Print Assumptions C86_returns_only_for_imaps.
Print Assumptions C86_returns_iff_imap.
Print Assumptions C86_meek.
