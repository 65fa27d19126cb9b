(** Markov equivalent maximal graphs have the same adjacencies, unshielded colliders and discriminated colliders. *)
From Verif Require Import Py Spec SpecDsep SpecMixed SpecMagMec TopoProofs StateProofs ReachProofs MWalkProofs InduceProofs MagMecProofs MagMecCore MagMecMain.

Lemma msepd_fwalk G C x y n v : simple G → separate G → msepd G {[x]} {[y]} C → v 0 = x → v n = y → ¬ fwalk G C n v.
Proof.
  intros Hsi Hse Hs <- <- Hw%fwalk_list. rewrite msepd_walk in Hs by done. by apply (Hs (v 0) (v n) (v <$> seq 0 (S n))); [set_solver..|].
Qed.
Lemma adj_not_msepd G C x y : simple G → separate G → madj G x y → ¬ msepd G {[x]} {[y]} C.
Proof.
  intros Hsi Hse Ha Hs. apply (msepd_fwalk G C x y 1 (λ k, if decide (k = 0) then x else y) Hsi Hse Hs); [done|done|]. split.
  - intros i Hi. by assert (i = 0) as -> by lia.
  - intros i Hi. lia.
Qed.
Lemma triple_msepd G C x z y : simple G → separate G → madj G x z → madj G z y → msepd G {[x]} {[y]} C → mcollider G x z y ↔ z ∉ C.
Proof.
  intros Hsi Hse H1 H2 Hs.
  assert (¬ mactive_at G C x z y) as Hn.
  { intros Ha. apply (msepd_fwalk G C x y 2 (λ k, match k with 0 => x | 1 => z | _ => y end) Hsi Hse Hs); [done|done|]. split.
    - intros i Hi. destruct i as [|[|i]]; [done|done|lia].
    - intros i Hi. by assert (i = 0) as -> by lia. }
  unfold mactive_at in Hn. split.
  - intros Hc Hz. apply Hn. split; [|done]. intros _. by apply opened_in.
  - intros Hz. destruct (decide (into G x z ∧ into G y z)) as [|Hc]; [done|]. exfalso. apply Hn. split; [done|done].
Qed.

(** A separating set of the ends contains the middle nodes of a discriminating path,
    and the discriminated node unless it is a collider. *)
Lemma disc_msepd G C x q m b y : simple G → separate G → discriminating G (x :: q :: m ++ [b; y]) → msepd G {[x]} {[y]} C →
  discr_collider G (x :: q :: m ++ [b; y]) ↔ b ∉ C.
Proof.
  intros Hsi Hse (Hnd & Htr & x' & q' & m' & b' & y' & E & Hna & Hq) Hs.
  assert (x' = x ∧ q' = q ∧ m' = m ∧ b' = b ∧ y' = y) as (-> & -> & -> & -> & ->).
  { injection E as <- <- E. apply app_inj_2 in E as [-> E]; [|done]. by injection E as -> ->. }
  clear E. set (l := x :: q :: m ++ [b; y]) in *. set (v := λ i, default 0 (l !! i)). set (L := S (S (length m))).
  assert (length l = S (S L)) as HL by (unfold l, L; cbn [length]; rewrite app_length; cbn [length]; lia).
  assert (∀ i, i < S (S L) → l !! i = Some (v i)) as Hv.
  { intros i Hi. rewrite <-HL in Hi. apply lookup_lt_is_Some_2 in Hi as [z Hz]. unfold v. by rewrite Hz. }
  assert (v 0 = x) as V0 by done.
  assert (v L = b) as Vb.
  { change (default 0 ((m ++ [b; y]) !! length m) = b). rewrite lookup_app_r by lia. by rewrite Nat.sub_diag. }
  assert (v (S L) = y) as Vy.
  { change (default 0 ((m ++ [b; y]) !! S (length m)) = y). rewrite lookup_app_r by lia. by replace (S (length m) - length m) with 1 by lia. }
  assert (∀ i, i < S L → madj G (v i) (v (S i))) as Hadj.
  { intros i Hi. apply (Htr (take i l) _ _ (drop (S (S i)) l)).
    rewrite <-(drop_S l _ (S i)) by (apply Hv; lia). rewrite <-drop_S by (apply Hv; lia). by rewrite take_drop. }
  assert (∀ i, S i < L → mcollider G (v i) (v (S i)) (v (S (S i))) ∧ (v (S i), y) ∈ mx_dir G) as Hcol.
  { intros i Hi. apply (Hq (take i l) _ _ _ (drop (S (S (S i))) l)).
    - rewrite <-(drop_S l _ (S (S i))) by (apply Hv; lia). rewrite <-(drop_S l _ (S i)) by (apply Hv; lia).
      rewrite <-drop_S by (apply Hv; lia). by rewrite take_drop.
    - intros E. apply (f_equal length) in E. rewrite drop_length, HL in E. cbn [length] in E. lia. }
  assert (∀ k, 0 < k → k < L → v k ∈ C) as HC.
  { intros k. induction (lt_wf k) as [k _ IH]. intros Hk1 Hk2. destruct (decide (v k ∈ C)) as [|Hn]; [done|]. exfalso.
    destruct k as [|k]; [lia|]. destruct (Hcol k) as [Hck Hpk]; [lia|].
    apply (msepd_fwalk G C x y (S (S k)) (λ i, if decide (i ≤ S k) then v i else y) Hsi Hse Hs); [by rewrite decide_True by lia|by rewrite decide_False by lia|]. split.
    - intros i Hi. rewrite decide_True by lia. destruct (decide (i = S k)) as [->|].
      + rewrite decide_False by lia. by apply dir_adj.
      + rewrite decide_True by lia. apply Hadj. lia.
    - intros i Hi. rewrite (decide_True (P := i ≤ S k)), (decide_True (P := S i ≤ S k)) by lia.
      destruct (decide (i = k)) as [->|].
      + rewrite decide_False by lia. split; [|done]. intros [_ Hbad]. exfalso. by apply (dir_not_into G Hsi _ _ Hpk).
      + rewrite decide_True by lia. destruct (Hcol i) as [Hci _]; [lia|]. split; [|done]. intros _. apply opened_in, IH; lia. }
  assert (¬ mactive_at G C (v (pred L)) b y) as Hn.
  { intros Ha. apply (msepd_fwalk G C x y (S L) v Hsi Hse Hs); [done|done|]. split; [done|].
    intros i Hi. destruct (decide (S i = L)) as [Ei|Hi'].
    - rewrite Ei, Vb, Vy. by replace i with (pred L) by lia.
    - destruct (Hcol i) as [Hci _]; [lia|]. split; [|done]. intros _. apply opened_in, HC; lia. }
  assert (discr_collider G l ↔ mcollider G (v (pred L)) b y) as Hdc.
  { assert (∃ p, l = p ++ [v (pred L); b; y]) as (p & Ep).
    { exists (take (pred L) l). rewrite <-Vb, <-Vy.
      assert ([v (pred L); v L; v (S L)] = drop (pred L) l) as ->; [|by rewrite take_drop].
      rewrite (drop_S l (v (pred L)) (pred L)) by (apply Hv; lia). f_equal. replace (S (pred L)) with L by lia.
      rewrite (drop_S l (v L) L) by (apply Hv; lia). f_equal. rewrite (drop_S l (v (S L)) (S L)) by (apply Hv; lia). f_equal.
      symmetry. apply drop_ge. lia. }
    rewrite Ep. split.
    - intros (p' & a' & b' & y' & E' & H). apply app_inj_2 in E' as [_ E']; [|done]. by injection E' as <- <- <-.
    - intros H. by eexists _, _, _, _. }
  rewrite Hdc. unfold mactive_at in Hn. split.
  - intros Hc Hb. apply Hn. split; [|done]. intros _. by apply opened_in.
  - intros Hb. destruct (decide (into G (v (pred L)) b ∧ into G y b)) as [|Hc]; [done|]. exfalso. apply Hn. split; [done|done].
Qed.

Section nec.
  Context (N : nset) (G H : mixed) (HsiG : simple G) (HseG : separate G) (HsiH : simple H) (HseH : separate H)
    (HNG : ∀ x y, madj G x y → x ∈ N ∧ y ∈ N) (HNH : ∀ x y, madj H x y → x ∈ N ∧ y ∈ N)
    (HmG : maximal N G) (HmH : maximal N H) (Heq : same_mseps N G H).

  Lemma sep_both x y : x ∈ N → y ∈ N → x ≠ y → ¬ madj G x y → ∃ C, msepd G {[x]} {[y]} C ∧ msepd H {[x]} {[y]} C.
  Proof using All.
    intros Hx Hy Hne Hna. destruct (HmG x y Hx Hy Hne Hna) as (C & HC & Hs). exists C. split; [done|].
    apply Heq; [..|done]; [set_solver|set_solver|set_solver|]. split_and!; set_solver.
  Qed.
  Lemma sep_both' x y : x ∈ N → y ∈ N → x ≠ y → ¬ madj H x y → ∃ C, msepd G {[x]} {[y]} C ∧ msepd H {[x]} {[y]} C.
  Proof using All.
    intros Hx Hy Hne Hna. destruct (HmH x y Hx Hy Hne Hna) as (C & HC & Hs). exists C. split; [|done].
    apply Heq; [..|done]; [set_solver|set_solver|set_solver|]. split_and!; set_solver.
  Qed.
  Lemma nec_adj x y : madj G x y ↔ madj H x y.
  Proof using All.
    split; intros Ha.
    - destruct (madj_dec H x y) as [|Hn]; [done|]. exfalso.
      destruct (sep_both' x y) as (C & Hs & _); [by apply (HNG x y)..|by apply (adj_ne G)|done|]. by apply (adj_not_msepd G C x y).
    - destruct (madj_dec G x y) as [|Hn]; [done|]. exfalso.
      destruct (sep_both x y) as (C & _ & Hs); [by apply (HNH x y)..|by apply (adj_ne H)|done|]. by apply (adj_not_msepd H C x y).
  Qed.
  Lemma agree_nec : agree G H.
  Proof using All.
    split; [apply nec_adj| |].
    - assert (∀ x z y, x ≠ y → ¬ madj G x y → madj G x z → madj G z y → mcollider G x z y ↔ mcollider H x z y) as Hgo.
      { intros x z y Hne Hna H1 H2. destruct (sep_both x y) as (C & S1 & S2); [by apply (HNG x z)|by apply (HNG z y)|done|done|].
        rewrite (triple_msepd G C), (triple_msepd H C); try done; by apply nec_adj. }
      intros x z y. unfold mvstruct. rewrite nec_adj. split; intros (Hc & Hne & Hna); (split; [|done]); apply Hgo; try done.
      + by rewrite nec_adj.
      + by apply into_adj, Hc.
      + by apply madj_sym, into_adj, Hc.
      + by rewrite nec_adj.
      + apply nec_adj. by apply into_adj, Hc.
      + apply nec_adj. by apply madj_sym, into_adj, Hc.
    - intros l HG HH. pose proof HG as (Hnd & Htr & x & q & m & b & y & -> & Hna & _).
      destruct (sep_both x y) as (C & S1 & S2); [| | |done|].
      + apply (HNG x q). by apply (Htr [] x q (m ++ [b; y])).
      + apply (HNG b y). apply (Htr (x :: q :: m) b y []). done.
      + intros ->. apply NoDup_cons in Hnd as [Hnd _]. apply Hnd. set_solver.
      + rewrite (disc_msepd G C) by done. by rewrite (disc_msepd H C) by done.
  Qed.
End nec.
