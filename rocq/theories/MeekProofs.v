(** Completeness of the orientation rules: an arc that is not protected can be
    turned around in an equivalent graph that keeps every protected arc. *)
From Verif Require Import Py Spec SpecMec DagModel TopoProofs StateProofs ReachProofs OrderProofs QueryProofs MarkovProofs ImapProofs ProtProofs EquivProofs.

Lemma app_cases {A} (L K l1 l2 : list A) (v : A) :
  L ++ K = l1 ++ v :: l2 → (∃ q, L = l1 ++ v :: q) ∨ (∃ p, l1 = L ++ p ∧ K = p ++ v :: l2).
Proof.
  revert l1. induction L as [|a L IH]; intros l1 Heq; cbn in *; [right; by exists l1|].
  destruct l1 as [|b l1]; cbn in *; injection Heq as -> Heq; [left; by exists L|].
  destruct (IH _ Heq) as [(q & ->)|(p & -> & ->)]; [left; by exists q|right; by exists p].
Qed.

(** ** Elimination orders *)
Section elimination.
  Context (adj : node → node → Prop) `{Hdec : ∀ x y, Decision (adj x y)} (Hsym : ∀ x y, adj x y → adj y x).

  Definition cliq (P : node → Prop) : Prop := ∀ a b, P a → P b → a ≠ b → adj a b.
  (** The earlier neighbors of every node are pairwise adjacent. *)
  Definition good (l : list node) : Prop :=
    ∀ l1 v l2, l = l1 ++ v :: l2 → cliq (λ a, a ∈ l1 ∧ adj a v).

  Lemma good_prefix l k : good (l ++ k) → good l.
  Proof. intros H l1 v l2 ->. eapply (H l1 v (l2 ++ k)). by rewrite <-app_assoc. Qed.
  Lemma good_snoc l m : good l → cliq (λ a, a ∈ l ∧ adj a m) → good (l ++ [m]).
  Proof.
    intros H Hm l1 v l2 Heq. destruct l2 as [|b l2 _] using rev_ind.
    - apply app_inj_tail in Heq as [-> ->]. done.
    - rewrite app_comm_cons, app_assoc in Heq. apply app_inj_tail in Heq as [-> ->]. by eapply H.
  Qed.

  Lemma good_reorder l : NoDup l → good l → ∀ C, NoDup C → (∀ x, x ∈ C → x ∈ l) → cliq (λ a, a ∈ C) →
    ∃ l', C ++ l' ≡ₚ l ∧ good (C ++ l').
  Proof.
    induction l as [|m l IH] using rev_ind; intros Hnd Hg C HndC HC Hcl.
    { exists []. destruct C as [|c C]; [done|]. exfalso. assert (c ∈ []) as Hc by (apply HC; left). by apply elem_of_nil in Hc. }
    apply NoDup_app in Hnd as (Hnd & Hml & _).
    assert (m ∉ l) as Hm by (intros H; apply (Hml m H); left). clear Hml.
    assert (cliq (λ a, a ∈ l ∧ adj a m)) as Hnb by by apply (Hg l m []).
    apply good_prefix in Hg as Hgl. specialize (IH Hnd Hgl).
    destruct (decide (m ∈ C)) as [HmC|HmC].
    - apply elem_of_list_split in HmC as (C1 & C2 & ->).
      assert (NoDup (C1 ++ C2) ∧ m ∉ C1 ++ C2) as [HndD HmD].
      { assert (NoDup (m :: C1 ++ C2)) as H; [|by apply NoDup_cons in H as []]. eapply NoDup_Permutation_proper; [|exact HndC]. by rewrite Permutation_middle. }
      assert (∀ x, x ∈ C1 ++ C2 → x ∈ l ∧ adj x m) as HD.
      { intros x Hx. assert (x ≠ m) as Hne by by intros ->. split.
        - assert (x ∈ l ++ [m]) as Hin by (apply HC; clear -Hx; set_solver). clear -Hin Hne. set_solver.
        - apply Hcl; [clear -Hx; set_solver|clear; set_solver|done]. }
      set (Q := filter (λ x, adj x m ∧ x ∉ C1 ++ C2) l).
      assert (∀ x, x ∈ (C1 ++ C2) ++ Q ↔ x ∈ l ∧ adj x m) as HDQ.
      { intros x. rewrite elem_of_app. unfold Q. rewrite elem_of_list_filter. destruct (decide (x ∈ C1 ++ C2)) as [Hx|Hx]; [|tauto].
        pose proof (HD x Hx). tauto. }
      destruct (IH ((C1 ++ C2) ++ Q)) as (l' & Hp & Hg').
      { apply NoDup_app. split; [done|]. split; [|by apply NoDup_filter]. intros x Hx. unfold Q. rewrite elem_of_list_filter. tauto. }
      { intros x Hx. by apply HDQ. }
      { intros a b Ha Hb. apply Hnb; by apply HDQ. }
      exists (Q ++ l'). split.
      + trans (m :: ((C1 ++ C2) ++ Q) ++ l'); [|rewrite Hp; apply Permutation_cons_append].
        rewrite <-(Permutation_middle C1 C2 m). cbn. by rewrite <-!app_assoc.
      + assert (∀ x, x ∈ (C1 ++ m :: C2) ++ Q → (x ∈ l ∧ adj x m) ∨ x = m) as Hpre.
        { intros x Hx. destruct (decide (x = m)) as [->|Hne]; [by right|]. left. apply HDQ. clear -Hx Hne. set_solver. }
        intros l1 v l2 Heq.
        assert ((∃ q, C1 ++ m :: C2 = l1 ++ v :: q) ∨ (∃ p q, l1 = (C1 ++ m :: C2) ++ p ∧ Q = p ++ v :: q) ∨
          (∃ p, l1 = (C1 ++ m :: C2) ++ Q ++ p ∧ l' = p ++ v :: l2)) as [(q & Hq)|[(p & q & -> & Hq)|(p & -> & Hq)]].
        { apply app_cases in Heq as [(q & Heq)|(p & -> & Heq)]; [left; by exists q|]. right.
          apply app_cases in Heq as [(q & Heq)|(p' & -> & Heq)]; [left; by exists p, q|]. right. by exists p'. }
        * intros a b [Ha _] [Hb _]. apply Hcl; rewrite Hq; clear -Ha Hb; set_solver.
        * assert (∀ a, a ∈ (C1 ++ m :: C2) ++ p → (a ∈ l ∧ adj a m) ∨ a = m) as Hp'.
          { intros a Ha. apply Hpre. rewrite Hq. clear -Ha. set_solver. }
          intros a b [Ha _] [Hb _] Hne. destruct (Hp' a Ha) as [Ha'|Ha'], (Hp' b Hb) as [Hb'|Hb'].
          -- by apply Hnb.
          -- rewrite Hb'. by apply Ha'.
          -- rewrite Ha'. apply Hsym. by apply Hb'.
          -- congruence.
        * assert (v ∈ l) as Hvl. { rewrite <-Hp, Hq. clear. set_solver. }
          assert (¬ adj m v) as Hmv.
          { intros Hmv. assert (v ∈ (C1 ++ C2) ++ Q) as Hv by (apply HDQ; split; [done|by apply Hsym]).
            assert (NoDup (((C1 ++ C2) ++ Q) ++ l')) as Hnd' by by rewrite Hp.
            apply NoDup_app in Hnd' as (_ & Hd & _). apply (Hd v Hv). rewrite Hq. clear. set_solver. }
          assert (∀ a, a ∈ (C1 ++ m :: C2) ++ Q ++ p → adj a v → a ∈ ((C1 ++ C2) ++ Q) ++ p) as Hin.
          { intros a Ha Hav. assert (a ≠ m) as Hne by by intros ->. clear -Ha Hne. set_solver. }
          assert (cliq (λ a, a ∈ ((C1 ++ C2) ++ Q) ++ p ∧ adj a v)) as Hc. { eapply (Hg' _ v l2). by rewrite Hq, app_assoc. }
          intros a b [Ha Hav] [Hb Hbv]. apply Hc; (split; [by apply Hin|done]).
    - destruct (IH C HndC) as (l' & Hp & Hg'); [|done|].
      { intros x Hx. assert (x ≠ m) as Hne by by intros ->. specialize (HC x Hx). clear -HC Hne. set_solver. }
      exists (l' ++ [m]). rewrite app_assoc. split; [by rewrite Hp|]. apply good_snoc; [done|].
      intros a b [Ha ?] [Hb ?]. rewrite Hp in Ha, Hb. by apply Hnb.
  Qed.
End elimination.

(** ** The undirected part *)
Section meek.
  Context (N : nset) (E K0 K : arcset) (Hac : acyclic E) (Ho : over N E) (HK0 : K0 ⊆ E) (HV : vs_known E K0).
  Context (HK : ∀ i j, (i, j) ∈ K ↔ prot E K0 i j).
  Definition und (x y : node) : Prop := adjacent E x y ∧ (x, y) ∉ K ∧ (y, x) ∉ K.
  Context (HL0 : ∀ p q v, (p, q) ∈ K0 → und q v → und p v → False).

  Lemma und_sym x y : und x y → und y x.
  Proof. unfold und, adjacent. tauto. Qed.
  Lemma K_sub i j : (i, j) ∈ K → (i, j) ∈ E.
  Proof. rewrite HK. by apply prot_sub. Qed.
  Lemma K_a k i j : (k, i) ∈ K → (i, j) ∈ E → ¬ adjacent E k j → (i, j) ∈ K.
  Proof. rewrite !HK. intros. by apply (prot_a _ _ k). Qed.
  Lemma K_b i k j : (i, k) ∈ K → (k, j) ∈ K → adjacent E i j → (i, j) ∈ K.
  Proof.
    intros H1 H2 H3. assert ((i, j) ∈ E) as HE by (apply (rule_b_arc E i k j); [done|by apply K_sub|by apply K_sub|done]).
    rewrite HK in *. by apply (prot_b _ _ i k j).
  Qed.
  Lemma K_v x z y : vstruct E x z y → (x, z) ∈ K ∧ (y, z) ∈ K.
  Proof.
    intros Hv. rewrite !HK. split; apply prot_known; [by apply (HV x z y)|]. apply (HV y z x).
    destruct Hv as (? & ? & ? & ?). split_and!; [done..|]. by rewrite adjacent_sym.
  Qed.
  Lemma und_ne x y : und x y → x ≠ y.
  Proof. intros [Ha _] ->. destruct Ha; by apply (acyclic_irr E y). Qed.
  (** A directed arc into an end of an undirected edge starts at a neighbor. *)
  Lemma K_und_adj p q v : (p, q) ∈ K → und q v → adjacent E p v ∧ (v, p) ∉ K.
  Proof.
    intros Hpq (Hqv & Hn1 & Hn2). apply K_sub in Hpq as HpqE.
    assert (p ≠ v) as Hpv by by intros ->. split.
    - destruct (decide ((p, v) ∈ E)) as [|H1]; [by left|]. destruct (decide ((v, p) ∈ E)) as [|H2]; [by right|].
      assert (¬ adjacent E p v) as Hna by (intros [?|?]; done). exfalso. destruct Hqv as [Hqv|Hvq].
      + apply Hn1. by apply (K_a p).
      + apply Hn2. by apply (K_v p q v).
    - intros Hvp. apply Hn2. apply (K_b v p q); [done..|]. by rewrite adjacent_sym.
  Qed.

  Lemma K_und p q v : (p, q) ∈ K → und q v → (p, v) ∈ K.
  Proof.
    intros Hpq. apply HK in Hpq as Hprot. revert v Hpq.
    induction Hprot as [p q H|k p q HpqE Hkp IH Hn|p k q HpqE Hpk IH1 Hkq IH2|p q k1 k2 HpqE H1 IH1 H2 IH2 Hne Hn Ha1 Ha2 Hnv]; intros v Hpq Hqv.
    all: destruct (K_und_adj _ _ _ Hpq Hqv) as [Hpv Hvp].
    all: destruct (decide ((p, v) ∈ K)) as [|HpvK]; [done|exfalso].
    all: assert (und p v) as Hund by done.
    - by apply (HL0 p q v).
    - apply HK in Hkp as HkpK. specialize (IH v HkpK Hund). destruct Hqv as (Hqv & Hn1 & Hn2).
      destruct Hqv as [Hqv|Hvq].
      + assert (vstruct E k v q) as Hv; [|by apply K_v in Hv as [_ ?]]. split_and!; [by apply K_sub|done| |done].
        intros ->. apply Hn. pose proof (prot_sub _ _ _ _ HK0 Hkp). by apply (acyclic_asym E p q) in HpqE.
      + apply Hn2. by apply (K_a k v q).
    - apply HK in Hkq as HkqK. apply HK in Hpk as HpkK. specialize (IH2 v HkqK Hqv). apply HpvK. by apply (K_b p k v).
    - apply HK in H1 as H1K. apply HK in H2 as H2K. specialize (IH1 v H1K Hqv). specialize (IH2 v H2K Hqv).
      destruct Hpv as [Hpv|Hpv].
      + apply HpvK. apply HK. apply (prot_d _ _ p v k1 k2); [done|by apply HK|by apply HK|done..].
      + apply Hnv. apply K_sub in IH1, IH2. split.
        * apply (rule_b_arc E k1 v p); [done..|by rewrite adjacent_sym].
        * apply (rule_b_arc E k2 v p); [done..|by rewrite adjacent_sym].
  Qed.

  Global Instance und_dec x y : Decision (und x y).
  Proof. unfold und, adjacent. apply _. Qed.

  (** [E] orders the undirected part without unshielded colliders. *)
  Lemma und_good l : topo_order N E l → good und l.
  Proof.
    intros Hl l1 v l2 Heq a b [Ha Hav] [Hb Hbv] Hne.
    assert (∀ c, c ∈ l1 → und c v → (c, v) ∈ E) as HE.
    { intros c Hc (Hcv & _). destruct Hcv as [?|Hvc]; [done|]. destruct (topo_split N E l l1 v l2 Ho Hl Heq) as [H1 _].
      destruct (H1 c Hc) as (_ & _ & Htc). destruct Htc. by apply tc_once. }
    assert (adjacent E a b) as Hab.
    { destruct (decide ((a, b) ∈ E)) as [|H1]; [by left|]. destruct (decide ((b, a) ∈ E)) as [|H2]; [by right|].
      assert (vstruct E a v b) as Hv; [|apply K_v in Hv as [H _]; by destruct Hav as (_ & ? & _)]. split_and!; [by apply HE|by apply HE|done|]. intros [?|?]; done. }
    split; [done|]. split; intros H.
    - apply K_und with (v := v) in H; [|done]. by destruct Hav as (_ & ? & _).
    - apply K_und with (v := v) in H; [|done]. by destruct Hbv as (_ & ? & _).
  Qed.

  (** The protected arcs together with the undirected part ordered by [l]. *)
  Context (l : list node) (Hnd : NoDup l) (HlN : ∀ x, x ∈ l ↔ x ∈ N) (Hgood : good und l).
  Definition uord : arcset :=
    filter (λ a, und a.1 a.2 ∧ pos_of l a.1 < pos_of l a.2) (E ∪ set_map (λ a, (a.2, a.1)) E).
  Definition reorient : arcset := K ∪ uord.

  Lemma elem_of_uord x y : (x, y) ∈ uord ↔ und x y ∧ pos_of l x < pos_of l y.
  Proof.
    unfold uord. rewrite elem_of_filter. cbn. split; [tauto|]. intros [Hu Hlt]. split; [done|].
    destruct Hu as ([H|H] & _); apply elem_of_union; [by left|right]. apply elem_of_map. by exists (y, x).
  Qed.

  Lemma pos_lookup x : x ∈ l → l !! pos_of l x = Some x.
  Proof.
    intros Hx. unfold pos_of. destruct (list_find (x =.) l) as [[k z]|] eqn:Hf.
    - apply list_find_Some in Hf as (Hf & <- & _). done.
    - apply list_find_None in Hf. rewrite Forall_forall in Hf. by destruct (Hf x Hx).
  Qed.
  Lemma und_in x y : und x y → x ∈ l ∧ y ∈ l.
  Proof. intros ([H|H] & _); apply Ho in H as [??]; split; by apply HlN. Qed.

  Lemma K_uords p q z : (p, q) ∈ K → rtc (edge uord) q z → (p, z) ∈ K.
  Proof.
    intros Hpq Hr. revert p Hpq. induction Hr as [q|q w z Hqw _ IH]; intros p Hpq; [done|].
    apply IH. apply elem_of_uord in Hqw as [Hqw _]. by eapply K_und.
  Qed.

  Lemma uords_pos x y : tc (edge uord) x y → pos_of l x < pos_of l y.
  Proof. induction 1 as [x y H|x z y H _ IH]; apply elem_of_uord in H as [_ H]; lia. Qed.

  Lemma reorient_acyclic : acyclic reorient.
  Proof.
    assert (∀ x y, tc (edge reorient) x y → tc (edge uord) x y ∨
      ∃ z q, rtc (edge uord) x z ∧ rtc (edge K) z q ∧ (q, y) ∈ K) as Hnorm.
    { intros x y H. induction H as [x y H|x w y H _ IH]; apply elem_of_union in H as [H|H].
      - right. exists x, x. split_and!; [apply rtc_refl|apply rtc_refl|done].
      - left. by apply tc_once.
      - right. destruct IH as [IH|(z & q & H1 & H2 & H3)].
        + exists x, x. split_and!; [apply rtc_refl|apply rtc_refl|]. eapply K_uords; [done|]. by apply tc_rtc.
        + exists x, q. split_and!; [apply rtc_refl| |done]. eapply rtc_l; [|exact H2]. by eapply K_uords.
      - destruct IH as [IH|(z & q & H1 & H2 & H3)]; [left; by eapply tc_l|]. right. exists z, q. split_and!; [by eapply rtc_l|done..]. }
    intros x [H|(z & q & H1 & H2 & H3)]%Hnorm.
    - apply uords_pos in H. lia.
    - pose proof (K_uords q x z H3 H1) as Hqz.
      apply (Hac z). eapply tc_rtc_l; [|apply tc_once; by apply K_sub].
      apply (rtc_mono K E); [|done]. intros [a b]. apply K_sub.
  Qed.

  Lemma reorient_adjacent x y : adjacent reorient x y ↔ adjacent E x y.
  Proof.
    unfold reorient, adjacent. rewrite !elem_of_union, !elem_of_uord. split.
    - intros [[H|[H _]]|[H|[H _]]]; [left; by apply K_sub|by destruct H|right; by apply K_sub|by destruct (und_sym _ _ H)].
    - intros H. destruct (decide ((x, y) ∈ K)) as [|H1]; [tauto|]. destruct (decide ((y, x) ∈ K)) as [|H2]; [tauto|].
      assert (und x y) as Hu by done. destruct (und_in x y Hu) as [Hx Hy]. pose proof (und_ne x y Hu) as Hne.
      assert (pos_of l x ≠ pos_of l y) as Hp. { intros Heq. apply pos_lookup in Hx, Hy. rewrite Heq in Hx. congruence. }
      pose proof (und_sym _ _ Hu). destruct (Nat.lt_total (pos_of l x) (pos_of l y)) as [?|[?|?]]; [tauto|done|tauto].
  Qed.

  Lemma reorient_equivalent : equivalent E reorient.
  Proof.
    split; [intros x y; by rewrite reorient_adjacent|]. intros x z y. unfold vstruct at 2. rewrite reorient_adjacent. split.
    - intros Hv. pose proof (K_v x z y Hv) as [H1 H2]. destruct Hv as (_ & _ & H3 & H4). unfold reorient.
      split_and!; [apply elem_of_union; by left..|done|done].
    - intros (H1 & H2 & H3 & H4). unfold reorient in *. rewrite elem_of_union, elem_of_uord in H1, H2.
      destruct H1 as [H1|[H1 Hp1]], H2 as [H2|[H2 Hp2]].
      + split_and!; [by apply K_sub..|done|done].
      + destruct H4. left. apply K_sub. eapply K_und; [exact H1|by apply und_sym].
      + destruct H4. right. apply K_sub. eapply K_und; [exact H2|by apply und_sym].
      + destruct (und_in _ _ H1) as [Hx Hz]. destruct (und_in _ _ H2) as [Hy _].
        assert (und x y) as (? & _); [|done]. apply (Hgood (take (pos_of l z) l) z (drop (S (pos_of l z)) l)).
        * rewrite take_drop_middle; [done|]. by apply pos_lookup.
        * split; [|done]. apply elem_of_list_lookup. exists (pos_of l x). rewrite lookup_take by done. by apply pos_lookup.
        * split; [|done]. apply elem_of_list_lookup. exists (pos_of l y). rewrite lookup_take by done. by apply pos_lookup.
        * done.
  Qed.
End meek.

Theorem meek_complete N E K0 K i j :
  acyclic E → over N E → K0 ⊆ E → vs_known E K0 → (∀ i j, (i, j) ∈ K ↔ prot E K0 i j) →
  (∀ p q v, (p, q) ∈ K0 → und E K q v → und E K p v → False) →
  (i, j) ∈ E → (i, j) ∉ K →
  ∃ E', acyclic E' ∧ equivalent E E' ∧ K ⊆ E' ∧ (j, i) ∈ E'.
Proof.
  intros Hac Ho HK0 HV HK HL0 HijE HijK.
  assert ((j, i) ∉ K) as HjiK. { intros H. apply HK, (prot_sub _ _ _ _ HK0) in H. by apply (acyclic_asym E i j). }
  assert (und E K j i) as Hu by (split_and!; [by right|done|done]).
  destruct (exists_topo N E Hac Ho) as [l0 Hl0].
  pose proof (und_good N E K0 K Hac Ho HK0 HV HK HL0 l0 Hl0) as Hg.
  destruct Hl0 as (Hnd0 & HN0 & _).
  destruct (good_reorder (und E K) (und_sym E K) l0 Hnd0 Hg [j; i]) as (l' & Hp & Hg').
  - pose proof (und_ne E K Hac j i Hu). apply NoDup_cons. split; [set_solver|]. apply NoDup_singleton.
  - intros x Hx. apply HN0. apply Ho in HijE as [??]. rewrite !elem_of_cons, elem_of_nil in Hx. naive_solver.
  - intros a b Ha Hb Hne. rewrite !elem_of_cons, elem_of_nil in Ha, Hb.
    destruct Ha as [->|[->|[]]], Hb as [->|[->|[]]]; try done. by apply und_sym.
  - set (l := [j; i] ++ l') in *.
    assert (NoDup l) as Hnd by by rewrite Hp. assert (∀ x, x ∈ l ↔ x ∈ N) as HN by (intros x; by rewrite Hp, HN0).
    exists (reorient E K l). split_and!.
    + by apply (reorient_acyclic E K0 K).
    + by apply (reorient_equivalent N E K0 K).
    + unfold reorient. clear. set_solver.
    + unfold reorient. apply elem_of_union. right. apply (elem_of_uord E K). split; [done|].
      pose proof (und_ne E K Hac j i Hu) as Hne. unfold pos_of, l. cbn. rewrite decide_True by done. cbn.
      rewrite decide_False by done. rewrite decide_True by done. cbn. lia.
Qed.
