(** [discriminating_paths] finds exactly the discriminating paths. *)
From Verif Require Import Py Spec SpecDsep SpecMixed SpecMagMec DagModel UGraphModel CompareModel AncestralModel MagModel MagMecModel AncestralState
  TopoProofs StateProofs ReachProofs MWalkProofs MsepProofs InduceProofs MagProofs MaxProofs MagMecProofs MagMecCore MagMecMain.

Lemma loopR_grow {X} (f : X → pdict → res pdict) (I : pdict → Prop) (T : X → list node → Prop) (xs : list X) (acc : pdict) :
  (∀ x acc, x ∈ xs → I acc → ∃ acc', f x acc = Ok acc' ∧ I acc' ∧ (∀ l, l ∈ dom acc → l ∈ dom acc') ∧ ∀ l, T x l → l ∈ dom acc') →
  I acc → ∃ acc', loopR f xs acc = Ok acc' ∧ I acc' ∧ (∀ l, l ∈ dom acc → l ∈ dom acc') ∧ ∀ x l, x ∈ xs → T x l → l ∈ dom acc'.
Proof.
  revert acc. induction xs as [|x xs IH]; intros acc Hf HI.
  - exists acc. split_and!; [done..|]. intros x l Hx. by apply elem_of_nil in Hx.
  - destruct (Hf x acc) as (acc1 & E1 & HI1 & Hs1 & HT1); [left|done|]. cbn [loopR]. rewrite E1. cbn [res_bind].
    destruct (IH acc1) as (acc2 & E2 & HI2 & Hs2 & HT2); [intros; apply Hf; [by right|done]|done|].
    exists acc2. split_and!; [done|done|by auto|]. intros y l [->|Hy]%elem_of_cons HT; [by apply Hs2, HT1|by eapply HT2].
Qed.

Section disc.
  Context (g : ag) (o : oracle) (Hg : gok g) (Han : ancestral (gmix g)).
  Notation G := (gmix g). Notation D := (g_dir g). Notation cs := (g_colliders g). Notation n := (size (g_nodes g)).
  Let Hsi : simple G := gmix_simple g Hg.
  Let Hse : separate G := gmix_separate g Hg.

  Definition lab (l : list node) (c : bool) : Prop := discriminating G l ∧ (c = true ↔ discr_collider G l).
  Definition sound (m : pdict) : Prop := ∀ l c, m !! l = Some c → lab l c.

  (** The paths in the queue and their last node. *)
  Inductive ppath (i j : node) : list node → node → Prop :=
    | pp_one k : into G i k → k ∈ cs → (k, j) ∈ D → ppath i j [i; k] k
    | pp_snoc p f k : ppath i j p f → spouse G f k → k ∉ p → k ∈ cs → (k, j) ∈ D → ppath i j (p ++ [k]) k.

  Lemma spo_spouse x y : y ∈ g_spouses g x ↔ spouse G x y.
  Proof using All. rewrite (gok_spo _ Hg). symmetry. by apply spouse_upair. Qed.
  Lemma chi_dir x y : y ∈ g_children g x ↔ (x, y) ∈ D.
  Proof using All. apply (gok_chi _ Hg). Qed.
  Lemma par_dir x y : y ∈ g_parents g x ↔ (y, x) ∈ D.
  Proof using All. apply (gok_par _ Hg). Qed.
  Lemma colliders_spec v : v ∈ cs ↔ ∃ a b, a ≠ b ∧ mcollider G a v b.
  Proof using All.
    unfold g_colliders, mcollider. rewrite elem_of_filter.
    assert (∀ a, a ∈ g_parents g v ∪ g_spouses g v ↔ into G a v) as HX.
    { intros a. rewrite elem_of_union, par_dir, spo_spouse. unfold into. split; intros [?|?]; (by left) || (right; by apply spouse_sym). }
    split.
    - intros [Hs _]. destruct (size_pos_elem_of (g_parents g v ∪ g_spouses g v)) as [a Ha]; [lia|].
      destruct (size_pos_elem_of ((g_parents g v ∪ g_spouses g v) ∖ {[a]})) as [b Hb].
      { rewrite size_difference, size_singleton by (by apply singleton_subseteq_l). lia. }
      exists a, b. rewrite <-!HX. set_solver.
    - intros (a & b & Hab & Ha & Hb). split; [|apply (madj_nodes g Hg a v); by apply into_adj].
      assert (size ({[a; b]} : nset) = 2) as <-; [rewrite size_union, !size_singleton by set_solver; done|].
      apply subseteq_size. intros x [->%elem_of_singleton| ->%elem_of_singleton]%elem_of_union; by apply HX.
  Qed.

  Lemma ppath_shape i j p f : ppath i j p f → ∃ q m, p = i :: q :: m ∧ last p = Some f ∧ (f, j) ∈ D ∧ f ∈ p ∧ NoDup p ∧ ∀ v, v ∈ p → v ∈ g_nodes g.
  Proof using All.
    assert (∀ x y, into G x y → x ∈ g_nodes g ∧ y ∈ g_nodes g) as HN by (intros x y H; apply (madj_nodes g Hg); by apply into_adj).
    induction 1 as [k Hi Hk Hj|p f k Hp (q & m & -> & Hl & Hf & Hin & Hnd & HpN) Hs Hkp Hk Hj].
    - exists k, []. split_and!; [done|done|done|set_solver| |].
      + apply NoDup_cons. split; [|apply NoDup_singleton]. intros ->%elem_of_list_singleton. apply (simple_irr _ Hsi k). by apply into_adj.
      + intros v Hv. destruct (HN _ _ Hi). set_solver.
    - exists q, (m ++ [k]). split_and!; [done|by rewrite last_snoc|done|set_solver| |].
      + apply NoDup_app. split_and!; [done| |apply NoDup_singleton]. intros x Hx ->%elem_of_list_singleton. done.
      + intros v [Hv| ->%elem_of_list_singleton]%elem_of_app; [by apply HpN|]. apply (HN f k). by right.
  Qed.
  Lemma ppath_len i j p f : ppath i j p f → length p ≤ n.
  Proof using All.
    intros (q & m & _ & _ & _ & _ & Hnd & HpN)%ppath_shape. rewrite <-(size_list_to_set (C := nset) p Hnd). apply subseteq_size.
    intros v Hv%elem_of_list_to_set. by apply HpN.
  Qed.
  (** Inner nodes of a path with one more node. *)
  Lemma ppath_inner i j p f k : ppath i j p f → into G k f → ∀ p0 a v c r, p ++ [k] = p0 ++ a :: v :: c :: r → mcollider G a v c ∧ (v, j) ∈ D.
  Proof using All.
    intros Hp. revert k. induction Hp as [q Hi Hq Hj|p f q Hp IH Hs Hqp Hq Hj]; intros k Hk p0 a v c r E.
    - assert (p0 = [] ∧ a = i ∧ v = q ∧ c = k) as (-> & -> & -> & ->).
      { destruct p0 as [|y0 p0]; [by injection E|]. injection E as -> E. destruct p0 as [|y1 p0]; [done|]. injection E as -> E.
        destruct p0 as [|y2 p0]; [done|]. injection E as -> E. by destruct p0. }
      done.
    - destruct r as [|z r _] using rev_ind.
      + change [a; v; c] with ([a; v] ++ [c]) in E. rewrite (assoc_L app) in E. apply app_inj_tail in E as [E ->].
        change [a; v] with ([a] ++ [v]) in E. rewrite (assoc_L app) in E. apply app_inj_tail in E as [E <-].
        apply ppath_shape in Hp as (_ & _ & _ & Hl & _). rewrite E, last_snoc in Hl. injection Hl as ->. split; [|done]. split; [by right|done].
      + change (a :: v :: c :: r ++ [z]) with ((a :: v :: c :: r) ++ [z]) in E. rewrite (assoc_L app) in E. apply app_inj_tail in E as [E _].
        apply (IH q) with p0 r; [|done]. right. by apply spouse_sym.
  Qed.
  Lemma ppath_trail i j p f : ppath i j p f → mtrail G p.
  Proof using All.
    intros Hp p0 a b r E. induction Hp as [q Hi Hq Hj|p f q Hp IH Hs Hqp Hq Hj] in p0, a, b, r, E |- *.
    - destruct p0 as [|y0 p0]; [injection E as -> -> _; by apply into_adj|]. injection E as -> E. destruct p0 as [|y1 p0]; [done|]. injection E as -> E. by destruct p0.
    - destruct r as [|z r _] using rev_ind.
      + change [a; b] with ([a] ++ [b]) in E. rewrite (assoc_L app) in E. apply app_inj_tail in E as [E <-].
        apply ppath_shape in Hp as (_ & _ & _ & Hl & _). rewrite E, last_snoc in Hl. injection Hl as ->. right. right. by left.
      + change (a :: b :: r ++ [z]) with ((a :: b :: r) ++ [z]) in E. rewrite (assoc_L app) in E. apply app_inj_tail in E as [E _]. by eapply IH.
  Qed.
  Lemma found_disc i j p f k : ppath i j p f → ¬ madj G i j → i ≠ j → k ∉ p → into G k f → madj G k j → discriminating G (p ++ [k; j]).
  Proof using All.
    intros Hp Hna Hne Hk Hin Hkj. pose proof (ppath_shape _ _ _ _ Hp) as (q & m & E & Hl & Hf & Hfp & Hnd & HpN).
    assert (k ≠ j) as Hkne by (intros ->; by apply (simple_irr _ Hsi j)).
    assert (j ∉ p) as Hjp.
    { intros Hj. assert (∀ v, v ∈ p → v = i ∨ (v, j) ∈ D) as Hall.
      { clear -Hp. induction Hp as [q Hi Hq Hj|p f q Hp IH Hs Hqp Hq Hj]; intros v Hv.
        - apply elem_of_cons in Hv as [->| ->%elem_of_list_singleton]; auto.
        - apply elem_of_app in Hv as [Hv| ->%elem_of_list_singleton]; auto. }
      destruct (Hall j Hj) as [->|Hd]; [done|]. apply (simple_irr _ Hsi j). by left. }
    split; [|split].
    - apply NoDup_app. split_and!; [done| |].
      + intros x Hx Hx'. apply elem_of_cons in Hx' as [->| ->%elem_of_list_singleton]; done.
      + apply NoDup_cons. split; [|apply NoDup_singleton]. by intros ->%elem_of_list_singleton.
    - intros p0 a b r E'. destruct r as [|z r _] using rev_ind.
      + change [a; b] with ([] ++ [a; b]) in E'. change [k; j] with ([] ++ [k; j]) in E'. cbn [app] in E'. apply app_inj_2 in E' as [_ E']; [|done]. by injection E' as <- <-.
      + change (a :: b :: r ++ [z]) with ((a :: b :: r) ++ [z]) in E'. change [k; j] with ([k] ++ [j]) in E'. rewrite !(assoc_L app) in E'.
        apply app_inj_tail in E' as [E' _]. destruct r as [|w r _] using rev_ind.
        * change [a; b] with ([a] ++ [b]) in E'. rewrite (assoc_L app) in E'. apply app_inj_tail in E' as [E' <-].
          rewrite E', last_snoc in Hl. injection Hl as ->. by apply madj_sym, into_adj.
        * change (a :: b :: r ++ [w]) with ((a :: b :: r) ++ [w]) in E'. rewrite (assoc_L app) in E'. apply app_inj_tail in E' as [E' _].
          by eapply (ppath_trail _ _ _ _ Hp).
    - exists i, q, m, k, j. rewrite E. split; [done|]. split; [done|]. intros p0 a v c r E' Hr.
      destruct r as [|z r _] using rev_ind; [done|]. change (a :: v :: c :: r ++ [z]) with ((a :: v :: c :: r) ++ [z]) in E'.
      change (i :: q :: m) with ([i; q] ++ m) in E'. change [k; j] with ([k] ++ [j]) in E'. rewrite !(assoc_L app) in E'. apply app_inj_tail in E' as [E' _].
      apply (ppath_inner i j p f k Hp Hin p0 a v c r). by rewrite E.
  Qed.
  Lemma found_collider p f k j : last p = Some f → discr_collider G (p ++ [k; j]) ↔ mcollider G f k j.
  Proof using.
    intros Hl. destruct p as [|f' p _] using rev_ind; [done|]. rewrite last_snoc in Hl. injection Hl as ->. rewrite <-(assoc_L app). cbn [app]. split.
    - intros (p0 & a & b & y & E & Hc). apply app_inj_2 in E as [_ E]; [|done]. by injection E as -> -> ->.
    - intros Hc. by exists p, f, k, j.
  Qed.

  (** What is found when a path is taken from the queue. *)
  Definition finds (j : node) (p : list node) (f k : node) : Prop :=
    k ∉ p ∧ (spouse G f k ∧ (spouse G k j ∨ (k, j) ∈ D) ∨ (k, f) ∈ D ∧ (k, j) ∈ D).
  Lemma dom_insert_if (m : pdict) l l' c : l ∈ dom (<[l' := c]> m) ↔ l = l' ∨ l ∈ dom m.
  Proof using All. rewrite dom_insert. set_solver. Qed.
  Lemma dp_found_spec i j p f acc : ppath i j p f → ¬ madj G i j → i ≠ j → sound acc →
    let acc' := dp_found g o j p f acc in
    sound acc' ∧ (∀ l, l ∈ dom acc → l ∈ dom acc') ∧ ∀ k, finds j p f k → p ++ [k; j] ∈ dom acc'.
  Proof using All.
    intros Hp Hna Hne Hs. cbn zeta. unfold dp_found.
    pose proof (ppath_shape _ _ _ _ Hp) as (q & m & Ep & Hl & Hf & _).
    set (f1 := λ (acc : pdict) k, if decide (k ∈ p) then acc else if decide (j ∈ g_spouses g k) then <[p ++ [k; j] := true]> acc
      else if decide (j ∈ g_children g k) then <[p ++ [k; j] := false]> acc else acc).
    set (f2 := λ (acc : pdict) k, if decide (k ∈ p) then acc else if decide (j ∈ g_children g k) then <[p ++ [k; j] := false]> acc else acc).
    assert (∀ l c k b acc, sound acc → lab (p ++ [k; j]) b → <[p ++ [k; j] := b]> acc !! l = Some c → lab l c) as Hins.
    { intros l c k b acc0 Hs0 Hb. rewrite lookup_insert_Some. intros [[<- <-]|[_ H]]; [done|by apply Hs0]. }
    assert (∀ k, k ∉ p → into G k f → (k, j) ∈ D → lab (p ++ [k; j]) false) as Hn.
    { intros k Hk Hi Hd. split; [apply (found_disc i j p f k); [done..|by left]|]. rewrite (found_collider p f k j Hl). split; [done|].
      intros [_ Hc]. by apply (dir_not_into G Hsi k j) in Hd. }
    assert (∀ (ks : list node) acc, sound acc → (∀ k, k ∈ ks → spouse G f k) →
      sound (foldl f1 acc ks) ∧ (∀ l, l ∈ dom acc → l ∈ dom (foldl f1 acc ks)) ∧
      ∀ k, k ∈ ks → k ∉ p → spouse G k j ∨ (k, j) ∈ D → p ++ [k; j] ∈ dom (foldl f1 acc ks)) as H1.
    { induction ks as [|k ks IH]; intros acc0 Hs0 Hks; cbn [foldl].
      { split_and!; [done..|]. intros k Hk. by apply elem_of_nil in Hk. }
      assert (sound (f1 acc0 k) ∧ (∀ l, l ∈ dom acc0 → l ∈ dom (f1 acc0 k)) ∧ (k ∉ p → spouse G k j ∨ (k, j) ∈ D → p ++ [k; j] ∈ dom (f1 acc0 k))) as (A1 & A2 & A3).
      { unfold f1. assert (spouse G f k) as Hfk by (apply Hks; left).
        assert (into G k f) as Hkf by (right; by apply spouse_sym).
        destruct (decide (k ∈ p)) as [Hk|Hk]; [by split_and!|].
        destruct (decide (j ∈ g_spouses g k)) as [Hc|Hc].
        - split_and!.
          + intros l c. apply Hins; [done|]. rewrite spo_spouse in Hc. split; [apply (found_disc i j p f k); [done..|]; right; right; by left|].
            rewrite (found_collider p f k j Hl). split; [intros _|done]. split; [by right|]. right. by apply spouse_sym.
          + intros l. rewrite dom_insert_if. by right.
          + intros _ _. rewrite dom_insert_if. by left.
        - destruct (decide (j ∈ g_children g k)) as [Hd|Hd].
          + split_and!.
            * intros l c. apply Hins; [done|]. apply Hn; [done|done|]. by apply chi_dir.
            * intros l. rewrite dom_insert_if. by right.
            * intros _ _. rewrite dom_insert_if. by left.
          + split_and!; [done|done|]. intros _. rewrite spo_spouse in Hc. rewrite chi_dir in Hd. tauto. }
      destruct (IH (f1 acc0 k)) as (B1 & B2 & B3); [done|intros; apply Hks; by right|].
      split_and!; [done|auto|]. intros k' [->|Hk']%elem_of_cons; [auto|by apply B3]. }
    assert (∀ (ks : list node) acc, sound acc → (∀ k, k ∈ ks → (k, f) ∈ D) →
      sound (foldl f2 acc ks) ∧ (∀ l, l ∈ dom acc → l ∈ dom (foldl f2 acc ks)) ∧
      ∀ k, k ∈ ks → k ∉ p → (k, j) ∈ D → p ++ [k; j] ∈ dom (foldl f2 acc ks)) as H2.
    { induction ks as [|k ks IH]; intros acc0 Hs0 Hks; cbn [foldl].
      { split_and!; [done..|]. intros k Hk. by apply elem_of_nil in Hk. }
      assert (sound (f2 acc0 k) ∧ (∀ l, l ∈ dom acc0 → l ∈ dom (f2 acc0 k)) ∧ (k ∉ p → (k, j) ∈ D → p ++ [k; j] ∈ dom (f2 acc0 k))) as (A1 & A2 & A3).
      { unfold f2. assert (into G k f) as Hkf by (left; apply Hks; left).
        destruct (decide (k ∈ p)) as [Hk|Hk]; [by split_and!|].
        destruct (decide (j ∈ g_children g k)) as [Hd|Hd].
        - split_and!.
          + intros l c. apply Hins; [done|]. apply Hn; [done|done|]. by apply chi_dir.
          + intros l. rewrite dom_insert_if. by right.
          + intros _ _. rewrite dom_insert_if. by left.
        - split_and!; [done|done|]. intros _. rewrite chi_dir in Hd. tauto. }
      destruct (IH (f2 acc0 k)) as (B1 & B2 & B3); [done|intros; apply Hks; by right|].
      split_and!; [done|auto|]. intros k' [->|Hk']%elem_of_cons; [auto|by apply B3]. }
    destruct (H1 (on o [154; f] (g_spouses g f)) acc Hs) as (A1 & A2 & A3).
    { intros k Hk%elem_of_on. by apply spo_spouse. }
    destruct (H2 (on o [155; f] (g_parents g f)) (foldl f1 acc (on o [154; f] (g_spouses g f))) A1) as (B1 & B2 & B3).
    { intros k Hk%elem_of_on. by apply par_dir. }
    split_and!; [done|auto|]. intros k [Hk [[Hsp Hj]|[Hd Hj]]].
    - apply B2, A3; [|done|done]. apply elem_of_on. by apply spo_spouse.
    - apply B3; [|done|done]. apply elem_of_on. by apply par_dir.
  Qed.

  (** ** The queue *)
  Definition weight (p : list node) : nat := S n ^ (S n - length p).
  Definition qweight (l : list (list node)) : nat := sum_list (weight <$> l).
  Lemma qweight_app l l' : qweight (l ++ l') = qweight l + qweight l'.
  Proof using All. unfold qweight. rewrite fmap_app. apply sum_list_with_app. Qed.
  Lemma qweight_le l k : (∀ p, p ∈ l → weight p ≤ k) → qweight l ≤ length l * k.
  Proof using All.
    unfold qweight. induction l as [|p l IH]; intros H; [done|]. change (weight p + sum_list (weight <$> l) ≤ k + length l * k).
    pose proof (H p ltac:(left)). assert (∀ q, q ∈ l → weight q ≤ k) as H' by (intros; apply H; by right). specialize (IH H'). lia.
  Qed.
  Lemma weight_pos p : 1 ≤ weight p.
  Proof using All. unfold weight. pose proof (Nat.pow_nonzero (S n) (S n - length p)). lia. Qed.
  Lemma on_len k (X : nset) : X ⊆ g_nodes g → length (on o k X) ≤ n.
  Proof using All.
    intros HX. rewrite <-(size_list_to_set (C := nset) (on o k X)) by apply NoDup_on. apply subseteq_size.
    intros v Hv%elem_of_list_to_set%elem_of_on. by apply HX.
  Qed.
  Lemma spouses_nodes x : g_spouses g x ⊆ g_nodes g.
  Proof using All. intros y Hy. apply spo_spouse in Hy. apply (madj_nodes g Hg x y). right. right. by left. Qed.
  Lemma children_nodes x : g_children g x ⊆ g_nodes g.
  Proof using All. intros y Hy. apply chi_dir in Hy. apply (madj_nodes g Hg x y). by left. Qed.

  Lemma dp_extend_spec i j p f q : ppath i j p f → q ∈ dp_extend g o cs j p f ↔ ∃ k, q = p ++ [k] ∧ ppath i j q k ∧ k ∉ p.
  Proof using All.
    intros Hp. unfold dp_extend. rewrite elem_of_list_fmap. setoid_rewrite elem_of_list_filter. setoid_rewrite elem_of_on.
    setoid_rewrite spo_spouse. setoid_rewrite chi_dir. split.
    - intros (k & -> & (Hk & Hc & Hd) & Hs). exists k. split; [done|]. split; [by eapply pp_snoc|done].
    - intros (k & -> & Hq & Hk). exists k. split; [done|]. pose proof (ppath_shape _ _ _ _ Hp) as (x & m & Ep & Hl & _).
      inversion Hq as [k' Hi Hc Hd E|p' f' k' Hp' Hs Hk' Hc Hd E]; subst.
      + exfalso. apply (f_equal length) in E. rewrite app_length in E. cbn in E. lia.
      + apply app_inj_tail in E as [-> _]. apply ppath_shape in Hp' as (_ & _ & _ & Hl' & _). rewrite Hl in Hl'. injection Hl' as <-. done.
  Qed.
  Lemma dp_extend_weight i j p f : ppath i j p f → S (qweight (dp_extend g o cs j p f)) ≤ weight p.
  Proof using All.
    intros Hp. pose proof (ppath_len _ _ _ _ Hp) as HL.
    assert (qweight (dp_extend g o cs j p f) ≤ n * S n ^ (n - length p)) as H.
    { etrans; [apply (qweight_le _ (S n ^ (n - length p)))|].
      - intros q (k & -> & _)%(dp_extend_spec i j p f q Hp). unfold weight. rewrite app_length. cbn [length]. by replace (S n - (length p + 1)) with (n - length p) by lia.
      - apply Nat.mul_le_mono_r. unfold dp_extend. rewrite fmap_length. etrans; [apply filter_length|]. apply on_len, spouses_nodes. }
    unfold weight. replace (S n - length p) with (S (n - length p)) by lia. rewrite Nat.pow_succ_r'.
    pose proof (Nat.pow_nonzero (S n) (n - length p)). nia.
  Qed.

  Lemma dp_loop_spec i j : ¬ madj G i j → i ≠ j → ∀ fuel queue acc, qweight queue ≤ fuel → (∀ q, q ∈ queue → ∃ f, ppath i j q f) → sound acc →
    ∃ acc', dp_loop g o cs j fuel queue acc = Ok acc' ∧ sound acc' ∧ (∀ l, l ∈ dom acc → l ∈ dom acc') ∧
      ∀ q p f k, q ∈ queue → q `prefix_of` p → ppath i j p f → finds j p f k → p ++ [k; j] ∈ dom acc'.
  Proof using All.
    intros Hna Hne. induction fuel as [|fuel IH]; intros [|p queue] acc Hw Hq Hs.
    - exists acc. split_and!; [done..|]. intros q p f k H. by apply elem_of_nil in H.
    - exfalso. unfold qweight in Hw. cbn in Hw. pose proof (weight_pos p). lia.
    - exists acc. split_and!; [done..|]. intros q p f k H. by apply elem_of_nil in H.
    - destruct (Hq p ltac:(left)) as [f Hp]. pose proof (ppath_shape _ _ _ _ Hp) as (x & m & Ep & Hl & _). cbn [dp_loop]. rewrite Hl.
      destruct (dp_found_spec i j p f acc Hp Hna Hne Hs) as (A1 & A2 & A3). cbn zeta in *.
      destruct (IH (queue ++ dp_extend g o cs j p f) (dp_found g o j p f acc)) as (acc' & E & B1 & B2 & B3); [| |done|].
      + rewrite qweight_app. pose proof (dp_extend_weight i j p f Hp). change (weight p + qweight queue ≤ S fuel) in Hw. lia.
      + intros q [H|H]%elem_of_app; [apply Hq; by right|]. apply (dp_extend_spec i j p f q Hp) in H as (k & _ & H & _). by exists k.
      + exists acc'. split_and!; [done|done|auto|]. intros q p' f' k [->|H]%elem_of_cons [r ->] Hp' Hf.
        * destruct r as [|k' r].
          -- rewrite app_nil_r in *. assert (f' = f) as -> by (apply ppath_shape in Hp' as (_ & _ & _ & Hl' & _); congruence). by apply B2, A3.
          -- apply (B3 (p ++ [k']) _ f' k); [|exists r; by rewrite <-(assoc_L app)|done|done].
             apply elem_of_app. right. apply (dp_extend_spec i j p f _ Hp). exists k'. split; [done|].
             assert (ppath i j (p ++ [k']) k' ∧ k' ∉ p) as [? ?]; [|done].
             clear -Hp Hp' Hl Han Hg o Hsi Hse. revert f' Hp'. induction r as [|z r IHr] using rev_ind; intros f' Hp'.
             ++ inversion Hp' as [k2 Hi Hc Hd E|p2 f2 k2 Hp2 Hs Hk2 Hc Hd E]; subst.
                ** exfalso. apply ppath_shape in Hp as (x & m & -> & _). apply (f_equal length) in E. rewrite app_length in E. cbn in E. lia.
                ** apply app_inj_tail in E as [-> ->]. done.
             ++ change (p ++ k' :: r ++ [z]) with (p ++ (k' :: r) ++ [z]) in Hp'. rewrite (assoc_L app) in Hp'.
                inversion Hp' as [k2 Hi Hc Hd E|p2 f2 k2 Hp2 Hs Hk2 Hc Hd E]; subst.
                ** exfalso. apply ppath_shape in Hp as (x & m & -> & _). apply (f_equal length) in E. rewrite !app_length in E. cbn in E. lia.
                ** apply app_inj_tail in E as [-> ->]. by apply (IHr f2).
        * apply (B3 q _ f' k); [apply elem_of_app; by left|by eexists|done|done].
  Qed.

  (** Every discriminating path is found. *)
  Lemma disc_found l : discriminating G l → ∃ i j p f k, l = p ++ [k; j] ∧ ppath i j p f ∧ finds j p f k ∧ ¬ madj G i j ∧ i ≠ j.
  Proof using All.
    intros (Hnd & Htr & x & q & m & b & y & El & Hna & Hq).
    assert (x ≠ y) as Hxy.
    { intros ->. rewrite El in Hnd. apply NoDup_cons in Hnd as [Hnd _]. apply Hnd. right. apply elem_of_app. right. right. left. }
    assert (∀ m1 m2, m = m1 ++ m2 → ∃ p0 u f, x :: q :: m1 = p0 ++ [u; f] ∧ ppath x y (x :: q :: m1) f) as Hgo.
    { induction m1 as [|k m1 IH] using rev_ind; intros m2 Em.
      - cbn in Em. subst m2. exists [], x, q. split; [done|].
        assert (∃ c r, l = [] ++ x :: q :: c :: r ∧ r ≠ []) as (c & r & E & Hr).
        { destruct m as [|c m]; [exists b, [y]; done|]. exists c, (m ++ [b; y]). split; [done|]. by destruct m. }
        destruct (Hq [] x q c r E Hr) as [[Hc1 Hc2] Hd]. constructor; [done| |done]. apply colliders_spec. exists x, c. split; [|done].
        intros ->. rewrite E in Hnd. apply NoDup_cons in Hnd as [Hnd _]. apply Hnd. right. left.
      - rewrite <-(assoc_L app) in Em. cbn [app] in Em. destruct (IH (k :: m2) Em) as (p0 & u & f & E1 & Hp).
        assert (l = p0 ++ u :: f :: k :: m2 ++ [b; y]) as E2.
        { rewrite El, Em. assert (x :: q :: (m1 ++ k :: m2) ++ [b; y] = (x :: q :: m1) ++ k :: m2 ++ [b; y]) as -> by (cbn; rewrite <-(assoc_L app); done).
          rewrite E1, <-(assoc_L app). done. }
        assert (∃ c r, m2 ++ [b; y] = c :: r ∧ r ≠ []) as (c & r & E3 & Hr).
        { destruct m2 as [|c m2]; [exists b, [y]; done|]. exists c, (m2 ++ [b; y]). split; [done|]. by destruct m2. }
        rewrite E3 in E2. destruct (Hq p0 u f k (c :: r) E2) as [[_ Hkf] _]; [done|].
        assert (l = (p0 ++ [u]) ++ f :: k :: c :: r) as E4 by (rewrite <-(assoc_L app); done).
        destruct (Hq (p0 ++ [u]) f k c r E4 Hr) as [[Hfk Hck] Hd].
        exists (p0 ++ [u]), f, k. split; [change (x :: q :: m1 ++ [k]) with ((x :: q :: m1) ++ [k]); rewrite E1, <-!(assoc_L app); done|].
        change (x :: q :: m1 ++ [k]) with ((x :: q :: m1) ++ [k]). apply (pp_snoc x y _ f k); [done| | | |done].
        + destruct Hfk as [Hfk|]; [|done]. exfalso. by apply (dir_not_into G Hsi f k).
        + rewrite E1. intros Hk. assert (l = (p0 ++ [u; f]) ++ k :: c :: r) as E5 by (rewrite <-(assoc_L app); done).
          rewrite E5 in Hnd. apply NoDup_app in Hnd as (_ & Hnd & _). apply (Hnd k Hk). left.
        + apply colliders_spec. exists f, c. split; [|done]. intros ->. rewrite E4 in Hnd. apply NoDup_app in Hnd as (_ & _ & Hnd).
          apply NoDup_cons in Hnd as [Hnd _]. apply Hnd. right. left. }
    destruct (Hgo m []) as (p0 & u & f & E1 & Hp); [by rewrite app_nil_r|].
    assert (l = p0 ++ u :: f :: b :: [y]) as E2.
    { rewrite El. change (x :: q :: m ++ [b; y]) with ((x :: q :: m) ++ [b; y]). rewrite E1, <-(assoc_L app). done. }
    destruct (Hq p0 u f b [y] E2) as [[_ Hbf] Hfy]; [done|].
    assert (l = (p0 ++ [u; f]) ++ b :: y :: []) as E3 by (rewrite <-(assoc_L app); done).
    pose proof (Htr _ _ _ _ E3) as Hby. destruct Han as [Hac Hsp].
    exists x, y, (x :: q :: m), f, b. split; [done|]. split; [done|]. split; [|done]. split.
    { rewrite E1. intros Hb. rewrite E3 in Hnd. apply NoDup_app in Hnd as (_ & Hnd & _). apply (Hnd b Hb). left. }
    destruct Hbf as [Hbf|Hbf].
    - right. split; [done|]. destruct Hby as [H|[H|[H|H]]]; [done|exfalso..].
      + apply (Hac y). eapply tc_l; [exact H|]. eapply tc_l; [exact Hbf|]. by apply tc_once.
      + apply (Hsp b y H). eapply rtc_l; [exact Hbf|]. by apply rtc_once.
      + apply (Hse f y b); [by left|]. by apply neighbor_sym.
    - left. apply spouse_sym in Hbf. split; [done|]. destruct Hby as [H|[H|[H|H]]]; [by right|exfalso|by left|exfalso].
      + apply (Hsp f b Hbf). eapply rtc_l; [exact Hfy|]. by apply rtc_once.
      + apply (Hse f y b); [by left|]. by apply neighbor_sym.
  Qed.

  (** The loop over any list of endpoints. *)
  Lemma disc_loop_spec (L : list node) : ∃ m,
    loopR (λ j acc, if decide (g_parents g j = ∅) then Ok acc
      else loopR (λ i acc, dp_loop g o cs j (dp_fuel g) (dp_init g o cs i j) acc) (on o [157; j] (g_nodes g ∖ g_parents g j ∖ g_children g j ∖ g_spouses g j ∖ {[j]})) acc)
      L ∅ = Ok m ∧ sound m ∧ ∀ l j, discriminating G l → last l = Some j → j ∈ L → l ∈ dom m.
  Proof using All.
    assert (∀ j i, i ∈ on o [157; j] (g_nodes g ∖ g_parents g j ∖ g_children g j ∖ g_spouses g j ∖ {[j]}) → g_parents g j ≠ ∅ → ¬ madj G i j ∧ i ≠ j) as Hnon.
    { intros j i Hi%elem_of_on Hpa. rewrite !elem_of_difference, par_dir, chi_dir, spo_spouse, elem_of_singleton in Hi. destruct Hi as ((((_ & H1) & H2) & H3) & H4).
      split; [|done]. intros [H|[H|[H|H]]]; [done|done|by apply H3, spouse_sym|]. apply set_choose_L in Hpa as [q Hq%par_dir].
      apply (Hse q j i); [by left|]. by apply neighbor_sym. }
    set (T := λ (j i : node) l, ∃ p f k, l = p ++ [k; j] ∧ ppath i j p f ∧ finds j p f k).
    destruct (loopR_grow (λ j acc, if decide (g_parents g j = ∅) then Ok acc
      else loopR (λ i acc, dp_loop g o cs j (dp_fuel g) (dp_init g o cs i j) acc) (on o [157; j] (g_nodes g ∖ g_parents g j ∖ g_children g j ∖ g_spouses g j ∖ {[j]})) acc)
      sound (λ j l, ∃ i, i ∈ on o [157; j] (g_nodes g ∖ g_parents g j ∖ g_children g j ∖ g_spouses g j ∖ {[j]}) ∧ T j i l)
      L ∅) as (m & E & Hs & _ & Hc).
    { intros j acc _ Hs. destruct (decide (g_parents g j = ∅)) as [Hpa|Hpa].
      { exists acc. split_and!; [done..|]. intros l (i & _ & p & f & k & _ & Hp & _). exfalso. apply ppath_shape in Hp as (_ & _ & _ & _ & Hf & _).
        apply (not_elem_of_empty (C := nset) f). rewrite <-Hpa. by apply par_dir. }
      destruct (loopR_grow (λ i acc, dp_loop g o cs j (dp_fuel g) (dp_init g o cs i j) acc) sound (T j)
        (on o [157; j] (g_nodes g ∖ g_parents g j ∖ g_children g j ∖ g_spouses g j ∖ {[j]})) acc) as (acc' & E & A1 & A2 & A3); [|done|].
      - intros i acc0 Hi Hs0. destruct (Hnon j i Hi Hpa) as [Hna Hne].
        assert (∀ q, q ∈ dp_init g o cs i j ↔ ∃ k, q = [i; k] ∧ ppath i j q k) as Hin.
        { intros q. unfold dp_init. rewrite elem_of_list_fmap. setoid_rewrite elem_of_list_filter. setoid_rewrite elem_of_on. setoid_rewrite elem_of_union.
          setoid_rewrite spo_spouse. setoid_rewrite chi_dir. split.
          - intros (k & -> & (Hk & Hd) & Hi'). exists k. split; [done|]. constructor; [|done|done]. destruct Hi'; [by right|by left].
          - intros (k & -> & Hp). exists k. split; [done|]. inversion Hp as [k' H1 H2 H3 E'|p' f' k' Hp' H1 H2 H3 H4 E']; subst.
            + split; [done|]. destruct H1; [by right|by left].
            + exfalso. apply ppath_shape in Hp' as (x & m & -> & _). apply (f_equal length) in E'. rewrite app_length in E'. cbn in E'. lia. }
        destruct (dp_loop_spec i j Hna Hne (dp_fuel g) (dp_init g o cs i j) acc0) as (acc' & E & B1 & B2 & B3); [| |done|].
        + etrans; [apply (qweight_le _ (S n ^ n))|].
          * intros q (k & -> & _)%Hin. unfold weight. apply Nat.pow_le_mono_r; cbn [length]; lia.
          * unfold dp_fuel. rewrite Nat.pow_succ_r'. apply Nat.mul_le_mono_r. unfold dp_init. rewrite fmap_length. etrans; [apply filter_length|].
            etrans; [apply on_len|lia]. apply union_least; [apply spouses_nodes|apply children_nodes].
        + intros q (k & _ & Hp)%Hin. by exists k.
        + exists acc'. split_and!; [done..|]. intros l (p & f & k & -> & Hp & Hf).
          assert (∃ q, ppath i j [i; q] q ∧ [i; q] `prefix_of` p) as (q & Hq & Hpr).
          { clear -Hp. induction Hp as [q Hi Hq Hj|p f q Hp (q' & H1 & H2) Hs Hqp Hq Hj].
            - exists q. split; [by constructor|done].
            - exists q'. split; [done|]. etrans; [exact H2|]. by apply prefix_app_r. }
          apply (B3 [i; q] p f k); [|done|done|done]. apply Hin. by exists q.
      - exists acc'. split_and!; [done..|]. intros l (i & Hi & HT). by apply (A3 i l Hi HT). }
    { intros l c H. by rewrite lookup_empty in H. }
    exists m. split_and!; [done..|]. intros l y Hl Hy HyL.
    destruct (disc_found l Hl) as (i & j & p & f & k & -> & Hp & Hf & Hna & Hne).
    change [k; j] with ([k] ++ [j]) in Hy. rewrite (assoc_L app), last_snoc in Hy. injection Hy as ->.
    pose proof (ppath_shape _ _ _ _ Hp) as (x & m' & Ep & _ & Hfj & _ & _ & HpN).
    apply (Hc y); [done|exists i; split; [|by exists p, f, k]].
    apply elem_of_on. rewrite !elem_of_difference, par_dir, chi_dir, spo_spouse, elem_of_singleton. unfold madj in Hna.
    split_and!; [|tauto|tauto| |done].
    - apply HpN. rewrite Ep. left.
    - intros H%spouse_sym. tauto.
  Qed.
  Lemma lab_dom m : sound m → ∀ l c, l ∈ dom m → lab l c → m !! l = Some c.
  Proof using.
    intros Hs l c [c' Hc']%elem_of_dom [_ Hlc]. rewrite Hc'. f_equal. apply Hs in Hc' as [_ Hc']. destruct c, c'; naive_solver.
  Qed.
  Lemma disc_last l : discriminating G l → ∃ j p, last l = Some j ∧ (p, j) ∈ D ∧ j ∈ g_nodes g.
  Proof using All.
    intros Hl. destruct (disc_found l Hl) as (i & j & p & f & k & -> & Hp & Hf & Hna & Hne).
    pose proof (ppath_shape _ _ _ _ Hp) as (x & m' & Ep & _ & Hfj & _ & _ & HpN). exists j, f.
    change [k; j] with ([k] ++ [j]). rewrite (assoc_L app), last_snoc. split_and!; [done..|]. by apply (madj_nodes g Hg f j); left.
  Qed.
  Lemma discriminating_paths_spec : ∃ m, discriminating_paths g o = Ok m ∧ ∀ l c, m !! l = Some c ↔ lab l c.
  Proof using All.
    destruct (disc_loop_spec (on o [153] (g_nodes g ∪ dom (g_par g)))) as (m & E & Hs & Hc). exists m. split; [exact E|].
    intros l c. split; [apply Hs|]. intros Hl. apply lab_dom; [done| |done]. destruct Hl as [Hl _].
    destruct (disc_last l Hl) as (j & p & Hj & _ & HjN). apply (Hc l j Hl Hj). apply elem_of_on, elem_of_union. by left.
  Qed.
End disc.
