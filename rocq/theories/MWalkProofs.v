(** m-connecting walks and paths in mixed graphs. *)
From Verif Require Import Py Spec SpecDsep SpecMixed TopoProofs StateProofs ReachProofs.

Global Instance spouse_dec G x y : Decision (spouse G x y).
Proof. unfold spouse. apply _. Defined.
Global Instance neighbor_dec G x y : Decision (neighbor G x y).
Proof. unfold neighbor. apply _. Defined.
Global Instance into_dec G x y : Decision (into G x y).
Proof. unfold into. apply _. Defined.

(** Structural versions. *)
Fixpoint madjs (G : mixed) (l : list node) : Prop :=
  match l with
  | a :: (b :: _) as l' => madj G a b ∧ madjs G l'
  | _ => True
  end.
Fixpoint macts (G : mixed) (C : nset) (l : list node) : Prop :=
  match l with
  | a :: (b :: c :: _) as l' => mactive_at G C a b c ∧ macts G C l'
  | _ => True
  end.

Lemma madjs_cons G a b l : madjs G (a :: b :: l) ↔ madj G a b ∧ madjs G (b :: l).
Proof. done. Qed.
Lemma macts_cons G C a b c l : macts G C (a :: b :: c :: l) ↔ mactive_at G C a b c ∧ macts G C (b :: c :: l).
Proof. done. Qed.

Lemma madjs_mtrail G l : madjs G l ↔ mtrail G l.
Proof.
  split.
  - intros H p. revert l H. induction p as [|x p IH]; intros l H a b q ->.
    + cbn in H. naive_solver.
    + eapply (IH (p ++ a :: b :: q)); [|done]. destruct p; cbn in *; naive_solver.
  - induction l as [|a l IH]; intros H; [done|]. destruct l as [|b l]; [done|]. split.
    + by apply (H [] a b l).
    + apply IH. intros p x y q Hq. apply (H (a :: p) x y q). by rewrite Hq.
Qed.
Lemma macts_mactive G C l : macts G C l ↔ mactive G C l.
Proof.
  split.
  - intros H p. revert l H. induction p as [|x p IH]; intros l H a b c q ->.
    + cbn in H. naive_solver.
    + eapply (IH (p ++ a :: b :: c :: q)); [|done].
      destruct p as [|y [|z p]]; cbn in *; naive_solver.
  - induction l as [|a l IH]; intros H; [done|]. destruct l as [|b [|c l]]; [done|done|]. split.
    + by apply (H [] a b c l).
    + apply IH. intros p x y z q Hq. apply (H (a :: p) x y z q). by rewrite Hq.
Qed.

Lemma madjs_app G l1 x l2 : madjs G (l1 ++ x :: l2) ↔ madjs G (l1 ++ [x]) ∧ madjs G (x :: l2).
Proof.
  induction l1 as [|a l1 IH]; [by cbn; naive_solver|].
  destruct l1 as [|b l1]; cbn [app] in *.
  - rewrite !madjs_cons. cbn. naive_solver.
  - rewrite !madjs_cons. rewrite IH. naive_solver.
Qed.
Lemma macts_app G C l1 x y l2 : macts G C (l1 ++ x :: y :: l2) ↔ macts G C (l1 ++ [x; y]) ∧ macts G C (x :: y :: l2).
Proof.
  induction l1 as [|a l1 IH]; [by cbn; naive_solver|].
  destruct l1 as [|b [|c l1]]; cbn [app] in *; rewrite !macts_cons.
  - cbn. naive_solver.
  - rewrite IH. naive_solver.
  - rewrite IH. naive_solver.
Qed.
Lemma macts_app1_r G C l1 l2 : macts G C (l1 ++ l2) → macts G C l2.
Proof.
  induction l1 as [|a l1 IH]; [done|]. intros H. apply IH. cbn in H.
  destruct (l1 ++ l2) as [|b [|c l]]; [done|done|]. apply H.
Qed.
Lemma macts_app1_l G C l1 l2 : macts G C (l1 ++ l2) → macts G C l1.
Proof.
  intros H. destruct l2 as [|y l2]; [by rewrite app_nil_r in H|].
  induction l1 as [|a l1 IH]; [done|]. cbn [app] in H.
  destruct l1 as [|b [|c l1]]; [done|done|]. cbn [app] in *. rewrite macts_cons in *. naive_solver.
Qed.
Lemma madjs_app1_r G l1 l2 : madjs G (l1 ++ l2) → madjs G l2.
Proof.
  induction l1 as [|a l1 IH]; [done|]. intros H. apply IH. cbn in H.
  destruct (l1 ++ l2) as [|b l]; [done|]. apply H.
Qed.

Lemma spouse_sym G x y : spouse G x y → spouse G y x.
Proof. unfold spouse. tauto. Qed.
Lemma neighbor_sym G x y : neighbor G x y → neighbor G y x.
Proof. unfold neighbor. tauto. Qed.
Lemma madj_sym G x y : madj G x y → madj G y x.
Proof. unfold madj, spouse, neighbor. tauto. Qed.
Lemma mcollider_sym G a b c : mcollider G a b c ↔ mcollider G c b a.
Proof. unfold mcollider. tauto. Qed.
Lemma mactive_at_sym G C a b c : mactive_at G C a b c → mactive_at G C c b a.
Proof. unfold mactive_at. rewrite (mcollider_sym G c b a). done. Qed.

Lemma madjs_reverse G l : madjs G l → madjs G (reverse l).
Proof.
  induction l as [|a l IH]; [done|]. destruct l as [|b l]; [done|]. rewrite madjs_cons. intros [H1 H2].
  rewrite !reverse_cons in *. rewrite <-app_assoc. apply madjs_app. split; [by apply IH|].
  cbn. split; [by apply madj_sym|done].
Qed.
Lemma macts_reverse G C l : macts G C l → macts G C (reverse l).
Proof.
  induction l as [|a l IH]; [done|]. destruct l as [|b [|c l]]; [done|done|]. rewrite macts_cons. intros [H1 H2].
  rewrite !reverse_cons in *. rewrite <-!app_assoc in *. cbn [app]. apply macts_app. split; [by apply IH|].
  cbn. split; [by apply mactive_at_sym|done].
Qed.
Lemma mpath_sym G C x y l : mpath G C x y l → mpath G C y x (reverse l).
Proof.
  intros (H1 & H2 & H3 & H4 & H5). split; [by rewrite reverse_Permutation|].
  split; [by rewrite head_reverse|]. split; [by rewrite last_reverse|].
  split; [apply madjs_mtrail, madjs_reverse, madjs_mtrail, H4|apply macts_mactive, macts_reverse, macts_mactive, H5].
Qed.
Lemma msepd_sym G A B C : msepd G A B C → msepd G B A C.
Proof. intros H b a l Hb Ha Hl. apply (H a b (reverse l)); [done..|]. by apply mpath_sym. Qed.

(** Walks: repeated nodes allowed. *)
Definition mwalk (G : mixed) (C : nset) (x y : node) (l : list node) : Prop :=
  head l = Some x ∧ last l = Some y ∧ madjs G l ∧ macts G C l.
Lemma mwalk_sym G C x y l : mwalk G C x y l → mwalk G C y x (reverse l).
Proof.
  intros (H1 & H2 & H3 & H4). split; [by rewrite head_reverse|]. split; [by rewrite last_reverse|].
  split; [by apply madjs_reverse|by apply macts_reverse].
Qed.

Section splice.
  Context (G : mixed) (C : nset) (Hsi : simple G) (Hse : separate G).

  (** Follow a walk that starts along a directed edge: either an opened collider
      comes first, or the walk is directed up to its end. *)
  Lemma mfollow w z l y :
    madjs G (w :: z :: l) → macts G C (w :: z :: l) → (w, z) ∈ mx_dir G → last (z :: l) = Some y →
    opened (mx_dir G) C w ∨ ∃ q t, w :: z :: l = q ++ [t; y] ∧ (t, y) ∈ mx_dir G.
  Proof using Hsi Hse.
    revert w z. induction l as [|u l IH]; intros w z Hadj Hact Hwz Hy.
    - cbn in Hy. injection Hy as ->. right. by exists [], w.
    - rewrite madjs_cons in Hadj. destruct Hadj as [_ Hadj]. rewrite macts_cons in Hact. destruct Hact as [Hat Hact].
      pose proof Hadj as Hadj'. rewrite madjs_cons in Hadj'.
      assert (into G w z) as Hin by (by left).
      assert (into G u z → opened (mx_dir G) C w) as Hcol.
      { intros Huz. destruct Hat as [Hat _]. destruct Hat as (c & Hc & Hzc); [done|].
        exists c. split; [done|]. by eapply rtc_l. }
      destruct Hadj' as [[Hzu|[Huz|[Hs|Hn]]] _].
      + destruct (IH z u Hadj Hact Hzu) as [(c & Hc & Hzc)|(q & t & E & Ht)]; [by rewrite last_cons_cons in Hy|..].
        * left. exists c. split; [done|]. by eapply rtc_l.
        * right. exists (w :: q), t. by rewrite E.
      + left. apply Hcol. by left.
      + left. apply Hcol. right. by apply spouse_sym.
      + exfalso. by apply (Hse _ _ _ Hin Hn).
  Qed.

  Lemma msplice_at x v y l2 p :
    madjs G (x :: v :: l2 ++ v :: y :: p) → macts G C (x :: v :: l2 ++ v :: y :: p) →
    mactive_at G C x v y.
  Proof using Hsi Hse.
    intros Hadj Hact.
    assert (madj G v y) as Hvy.
    { change (x :: v :: l2 ++ v :: y :: p) with ((x :: v :: l2) ++ v :: y :: p) in Hadj.
      apply madjs_app in Hadj as [_ Hadj]. rewrite madjs_cons in Hadj. apply Hadj. }
    (* the triple at the first and at the last occurrence of [v] *)
    assert (∃ z, mactive_at G C x v z ∧ madj G v z ∧ (∃ l, v :: z :: l = v :: l2 ++ [v])) as (z & Hz & Hvz & l & Hl).
    { destruct l2 as [|z l2]; cbn [app] in *.
      - exfalso. rewrite !madjs_cons in Hadj. destruct Hadj as (_ & H & _). by apply (simple_irr _ Hsi) in H.
      - exists z. rewrite macts_cons in Hact. rewrite !madjs_cons in Hadj. split; [apply Hact|]. split; [apply Hadj|]. by exists (l2 ++ [v]). }
    assert (∀ q t, v :: l2 ++ [v] = q ++ [t; v] → mactive_at G C t v y) as Hlast.
    { intros q t Hq. replace (x :: v :: l2 ++ v :: y :: p) with ((x :: q) ++ t :: v :: y :: p) in Hact.
      - apply macts_app in Hact as [_ Hact]. rewrite macts_cons in Hact. apply Hact.
      - cbn. f_equal. replace (v :: l2 ++ v :: y :: p) with ((v :: l2 ++ [v]) ++ y :: p) by (cbn; by rewrite <-app_assoc).
        rewrite Hq, <-app_assoc. done. }
    assert (∃ t, mactive_at G C t v y) as (z' & Hz').
    { destruct l2 as [|t l2 _] using rev_ind.
      - exists v. by apply (Hlast []).
      - exists t. apply (Hlast (v :: l2)). cbn. by rewrite <-app_assoc. }
    split.
    - intros [Hxv Hyv]. destruct Hz as [Hz1 Hz2].
      assert (into G z v → opened (mx_dir G) C v) as Hcol by (intros; by apply Hz1).
      destruct Hvz as [Hvz|[Hzv|[Hs|Hn]]].
      + assert (madjs G (v :: z :: l) ∧ macts G C (v :: z :: l)) as [Ha1 Ha2].
        { rewrite Hl. change (x :: v :: l2 ++ v :: y :: p) with ([x] ++ v :: l2 ++ v :: y :: p) in Hadj, Hact. split.
          - apply madjs_app1_r in Hadj. change (v :: l2 ++ v :: y :: p) with ((v :: l2) ++ v :: y :: p) in Hadj.
            apply madjs_app in Hadj as [Hadj _]. done.
          - apply macts_app1_r in Hact.
            replace (v :: l2 ++ v :: y :: p) with ((v :: l2 ++ [v]) ++ y :: p) in Hact by (cbn; by rewrite <-app_assoc).
            by apply macts_app1_l in Hact. }
        destruct (mfollow v z l v Ha1 Ha2 Hvz) as [?|(q & t & E & Ht)]; [|done|].
        { injection Hl as Hl. rewrite Hl. by rewrite last_snoc. }
        rewrite Hl in E. apply (Hlast q t E). split; [by left|done].
      + apply Hcol. by left.
      + apply Hcol. right. by apply spouse_sym.
      + exfalso. by apply (Hse _ _ _ Hxv Hn).
    - intros Hnc Hv. apply Hnc. split.
      + destruct (decide (into G x v)) as [|Hn]; [done|]. destruct Hz as [_ Hz]. exfalso. apply Hz; [|done].
        intros [? _]. done.
      + destruct (decide (into G y v)) as [|Hn]; [done|]. destruct Hz' as [_ Hz']. exfalso. apply Hz'; [|done].
        intros [_ ?]. done.
  Qed.

  Lemma msplice l1 v l2 l3 :
    madjs G (l1 ++ v :: l2 ++ v :: l3) → macts G C (l1 ++ v :: l2 ++ v :: l3) →
    madjs G (l1 ++ v :: l3) ∧ macts G C (l1 ++ v :: l3).
  Proof using Hsi Hse.
    intros Hadj Hact.
    assert (madjs G (l1 ++ [v]) ∧ madjs G (v :: l3)) as [Ha1 Ha2].
    { apply madjs_app in Hadj as [H1 H2]. change (v :: l2 ++ v :: l3) with ((v :: l2) ++ v :: l3) in H2.
      apply madjs_app in H2 as [_ H2]. done. }
    split; [by apply madjs_app|].
    assert (macts G C (l1 ++ [v])) as Hc1.
    { replace (l1 ++ v :: l2 ++ v :: l3) with ((l1 ++ [v]) ++ l2 ++ v :: l3) in Hact by by rewrite <-app_assoc.
      by apply macts_app1_l in Hact. }
    assert (macts G C (v :: l3)) as Hc2.
    { replace (l1 ++ v :: l2 ++ v :: l3) with ((l1 ++ v :: l2) ++ v :: l3) in Hact by by rewrite <-app_assoc.
      by apply macts_app1_r in Hact. }
    destruct l1 as [|x l1 _] using rev_ind; [done|]. rewrite <-app_assoc in *. cbn [app] in *.
    destruct l3 as [|y l3]; [done|]. apply macts_app. split; [done|]. rewrite macts_cons. split; [|done].
    apply (msplice_at x v y l2 l3); [by apply madjs_app1_r in Hadj|by apply macts_app1_r in Hact].
  Qed.

  Lemma mwalk_to_path x y l : mwalk G C x y l → ∃ l', mpath G C x y l'.
  Proof using Hsi Hse.
    remember (length l) as n eqn:Hn. revert l Hn. induction (lt_wf n) as [n _ IH]. intros l -> (H1 & H2 & H3 & H4).
    destruct (decide (NoDup l)) as [Hnd|Hnd].
    - exists l. split; [done|]. split; [done|]. split; [done|]. split; [by apply madjs_mtrail|by apply macts_mactive].
    - assert (∃ l1 v l2 l3, l = l1 ++ v :: l2 ++ v :: l3) as (l1 & v & l2 & l3 & ->).
      { clear -Hnd. induction l as [|a l IH]; [destruct Hnd; constructor|].
        destruct (decide (a ∈ l)) as [Ha|Ha].
        - apply elem_of_list_split in Ha as (l2 & l3 & ->). by exists [], a, l2, l3.
        - destruct IH as (l1 & v & l2 & l3 & ->); [|by exists (a :: l1), v, l2, l3].
          intros H. apply Hnd. by constructor. }
      destruct (msplice l1 v l2 l3 H3 H4) as [H5 H6].
      eapply (IH (length (l1 ++ v :: l3))); [|done|].
      + rewrite !app_length. cbn. rewrite app_length. cbn. lia.
      + split; [|split; [|done]].
        * destruct l1; cbn in *; done.
        * rewrite <-H2. change (l1 ++ v :: l2 ++ v :: l3) with (l1 ++ (v :: l2) ++ v :: l3).
          rewrite app_assoc. rewrite !(last_app _ (v :: l3)), !last_cons. by destruct (last l3).
  Qed.
  Lemma mpath_to_walk x y l : mpath G C x y l → mwalk G C x y l.
  Proof using.
    intros (H1 & H2 & H3 & H4 & H5). split; [done|]. split; [done|]. split; [by apply madjs_mtrail|by apply macts_mactive].
  Qed.
  Lemma msepd_walk A B : msepd G A B C ↔ ∀ a b l, a ∈ A → b ∈ B → ¬ mwalk G C a b l.
  Proof using Hsi Hse.
    split.
    - intros H a b l Ha Hb [l' Hl]%mwalk_to_path. by apply (H a b l').
    - intros H a b l Ha Hb Hl%mpath_to_walk. by apply (H a b l).
  Qed.
End splice.

(** ** The ball: a state is a node and the mark (true = tail) of the last edge at it *)

(** An edge from [v] to [w] with mark [k] at [v] and [m] at [w]. *)
Definition medge (G : mixed) (v w : node) (k m : bool) : Prop :=
  match k, m with
  | true, false => (v, w) ∈ mx_dir G
  | false, true => (w, v) ∈ mx_dir G
  | false, false => spouse G v w
  | true, true => neighbor G v w
  end.
(** Passing through [v] between marks [m] and [k]. *)
Definition pass (D : arcset) (C : nset) (v : node) (m k : bool) : Prop :=
  if m || k then v ∉ C else opened D C v.
Definition mstep (G : mixed) (C : nset) (s t : node * bool) : Prop :=
  ∃ k, medge G s.1 t.1 k t.2 ∧ pass (mx_dir G) C s.1 s.2 k.

Lemma medge_sym G v w k m : medge G v w k m → medge G w v m k.
Proof. destruct k, m; cbn; [apply neighbor_sym|done|done|apply spouse_sym]. Qed.
Lemma madj_medge G v w : madj G v w ↔ ∃ k m, medge G v w k m.
Proof.
  split.
  - intros [H|[H|[H|H]]]; [by exists true, false|by exists false, true|by exists false, false|by exists true, true].
  - intros ([] & [] & H); cbn in H; unfold madj; tauto.
Qed.
Lemma into_medge G v w k m : simple G → medge G v w k m → into G v w ↔ m = false.
Proof.
  intros [I1 I2 I3] H. unfold into. destruct k, m; cbn in H.
  - split; [|done]. intros [Hd|Hs]; [by apply I2 in Hd as (_ & _ & ?)|by apply I3 in Hs].
  - tauto.
  - split; [|done]. apply I2 in H as (H1 & H2 & _). intros [Hd|Hs]; [done|]. apply spouse_sym in Hs. done.
  - tauto.
Qed.
Lemma medge_det G v w k m k' m' : simple G → medge G v w k m → medge G v w k' m' → k = k' ∧ m = m'.
Proof.
  intros Hsi H1 H2.
  pose proof (into_medge _ _ _ _ _ Hsi H1) as E1. pose proof (into_medge _ _ _ _ _ Hsi H2) as E2.
  pose proof (into_medge _ _ _ _ _ Hsi (medge_sym _ _ _ _ _ H1)) as E3. pose proof (into_medge _ _ _ _ _ Hsi (medge_sym _ _ _ _ _ H2)) as E4.
  destruct k, k', m, m'; naive_solver.
Qed.

(** The walk (latest node first) ends with an edge with mark [m] at its last node. *)
Definition mmark (G : mixed) (l : list node) (m : bool) : Prop :=
  match l with
  | v :: u :: _ => into G u v ↔ m = false
  | _ => m = true
  end.

Section ball.
  Context (G : mixed) (C : nset) (Hsi : simple G).

  Lemma pass_active u v w m k : (into G u v ↔ m = false) → (into G w v ↔ k = false) →
    mactive_at G C w v u ↔ pass (mx_dir G) C v m k.
  Proof using.
    intros H1 H2. unfold mactive_at, mcollider, pass. destruct m, k; cbn; naive_solver.
  Qed.

  Lemma mball_walk a s : rtc (mstep G C) (a, true) s → ∃ l, mwalk G C s.1 a (s.1 :: l) ∧ mmark G (s.1 :: l) s.2.
  Proof using Hsi.
    intros Hr. apply rtc_flip in Hr. remember (a, true) as t eqn:Ht. revert Ht.
    induction Hr as [s|[w m'] [v m] t Hst _ IH]; intros ->.
    { exists []. done. }
    destruct (IH eq_refl) as (l & (H1 & H2 & H3 & H4) & H5). cbn [fst snd] in *. exists (v :: l).
    destruct Hst as (k & He & Hp). cbn [fst snd] in *. split.
    - split; [done|]. split; [by rewrite last_cons_cons|]. split.
      + rewrite madjs_cons. split; [|done]. apply madj_sym, madj_medge. by eexists _, _.
      + destruct l as [|u l]; [done|]. rewrite macts_cons. split; [|done]. apply (pass_active u v w m k); [done| |done].
        by eapply into_medge, medge_sym.
    - cbn. by eapply into_medge.
  Qed.

  Lemma mwalk_ball a v l : a ∉ C → mwalk G C v a (v :: l) → ∃ m, rtc (mstep G C) (a, true) (v, m) ∧ mmark G (v :: l) m.
  Proof using Hsi.
    intros HaC. revert v. induction l as [|u l IH]; intros v (H1 & H2 & H3 & H4).
    { cbn in H2. injection H2 as ->. exists true. split; [apply rtc_refl|done]. }
    rewrite madjs_cons in H3. destruct H3 as [Hvu H3]. rewrite last_cons_cons in H2.
    destruct (IH u) as (m & Hr & Hd).
    { split; [done|]. split; [done|]. split; [done|]. by apply (macts_app1_r G C [v]). }
    apply madj_sym, madj_medge in Hvu as (k & m' & He).
    exists m'. split; [|cbn; by eapply into_medge]. eapply rtc_r; [exact Hr|]. exists k. split; [done|]. cbn [fst snd].
    destruct l as [|t l].
    - cbn in H2. injection H2 as ->. cbn in Hd. subst m. done.
    - rewrite macts_cons in H4. destruct H4 as [Hat _]. cbn in Hd. apply (pass_active t u v m k); [done| |done].
      by eapply into_medge, medge_sym.
  Qed.
End ball.

(** m-separation as unreachability. *)
Definition mreach (G : mixed) (C : nset) (a b : node) : Prop := ∃ m, rtc (mstep G C) (a, true) (b, m).
Lemma msepd_reach G A B C : simple G → separate G → A ## C →
  msepd G A B C ↔ ∀ a b, a ∈ A → b ∈ B → ¬ mreach G C a b.
Proof.
  intros Hsi Hse HAC. rewrite msepd_walk by done. split.
  - intros H a b Ha Hb [m Hr]. apply mball_walk in Hr as (l & Hl & _); [|done]. cbn in Hl.
    apply mwalk_sym in Hl. by apply (H a b _ Ha Hb Hl).
  - intros H a b l Ha Hb Hl%mwalk_sym. destruct (reverse l) as [|y l']; [by destruct Hl|].
    assert (y = b) as -> by (destruct Hl; naive_solver).
    apply mwalk_ball in Hl as (m & Hr & _); [|done|set_solver]. apply (H a b Ha Hb). by exists m.
Qed.
