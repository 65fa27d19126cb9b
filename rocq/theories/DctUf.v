(** Connectedness and [UnionFind]. *)
From Verif Require Import Py Spec DagModel DctModel SpecDct.

(** ** Roots and connectedness *)
(** [f] gives the same value to exactly the elements that are connected by [R]. *)
Definition classifies {A B} (f : A → B) (R : relation A) : Prop := ∀ x y, f x = f y ↔ rtsc R x y.
Definition plus_edge {A} (R : relation A) (a b : A) : relation A := λ x y, R x y ∨ (x = a ∧ y = b).
Lemma rtsc_symm {A} (R : relation A) x y : rtsc R x y → rtsc R y x.
Proof. intros H. by symmetry. Qed.
Lemma rtsc_once {A} (R : relation A) x y : R x y → rtsc R x y.
Proof. intros H. apply rtc_once. by left. Qed.
Lemma rtsc_mono {A} (R R' : relation A) x y : (∀ x y, R x y → rtsc R' x y) → rtsc R x y → rtsc R' x y.
Proof.
  intros H. induction 1 as [|x y z Hxy _ IH]; [done|]. etrans; [|exact IH]. destruct Hxy as [Hxy|Hxy]; [by apply H|]. apply rtsc_symm. by apply H.
Qed.
Lemma rtsc_equiv {A} (R R' : relation A) x y : (∀ x y, R x y ↔ R' x y) → rtsc R x y ↔ rtsc R' x y.
Proof. intros H. split; apply rtsc_mono; intros ?? ?; apply rtsc_once; by apply H. Qed.
Lemma rtsc_sym {A} (R : relation A) x y : (∀ x y, R x y → R y x) → rtsc R x y ↔ rtc R x y.
Proof.
  intros H. split.
  - induction 1 as [|x y z [Hxy|Hxy] _ IH]; [done|by eapply rtc_l|]. eapply rtc_l; [by apply H|done].
  - induction 1 as [|x y z Hxy _ IH]; [done|]. eapply rtc_l; [by left|done].
Qed.
Lemma rtsc_plus {A} (R : relation A) a b x y :
  rtsc (plus_edge R a b) x y ↔ rtsc R x y ∨ (rtsc R x a ∧ rtsc R b y) ∨ (rtsc R x b ∧ rtsc R a y).
Proof.
  assert (∀ x y, rtsc R x y → rtsc (plus_edge R a b) x y) as Hm by (intros u v; apply rtsc_mono; intros ???; apply rtsc_once; by left).
  assert (rtsc (plus_edge R a b) a b) as Hab by (apply rtsc_once; by right).
  split.
  - induction 1 as [x|x z y Hxz _ IH]; [by left|].
    assert (rtsc R x z ∨ (x = a ∧ z = b) ∨ (x = b ∧ z = a)) as [H|[[-> ->]|[-> ->]]].
    { destruct Hxz as [[H|[-> ->]]|[H|[-> ->]]]; [left; by apply rtsc_once|by right; left|left; apply rtsc_symm; by apply rtsc_once|by right; right]. }
    + destruct IH as [IH|[[IH1 IH2]|[IH1 IH2]]]; [left; by etrans|right; left; split; [by etrans|done]|right; right; split; [by etrans|done]].
    + destruct IH as [IH|[[IH1 IH2]|[IH1 IH2]]]; [right; left; by split|right; left; by split|left; done].
    + destruct IH as [IH|[[IH1 IH2]|[IH1 IH2]]]; [right; right; by split|left; done|right; right; by split].
  - intros [H|[[H1 H2]|[H1 H2]]]; [by apply Hm| |].
    + etrans; [by apply Hm|]. etrans; [exact Hab|by apply Hm].
    + etrans; [by apply Hm|]. etrans; [apply rtsc_symm; exact Hab|by apply Hm].
Qed.
(** Give both classes the same value. *)
Lemma classifies_plus {A B} `{EqDecision B} (f g : A → B) (R : relation A) a b c d :
  classifies f R → (c = f a ∧ d = f b ∨ c = f b ∧ d = f a) → (∀ x, g x = if decide (f x = d) then c else f x) → classifies g (plus_edge R a b).
Proof.
  intros Hf Hcd Hg x y. unfold classifies in Hf. rewrite rtsc_plus. setoid_rewrite <-Hf. rewrite !Hg. destruct Hcd as [[-> ->]|[-> ->]]; repeat case_decide; split; intuition congruence.
Qed.
Lemma classifies_ext {A B} (f : A → B) (R R' : relation A) : (∀ x y, R x y ↔ R' x y) → classifies f R → classifies f R'.
Proof. intros H Hf x y. unfold classifies in Hf. rewrite Hf. by apply rtsc_equiv. Qed.
Lemma classifies_id {A} : classifies (λ x : A, x) (λ _ _, False).
Proof. intros x y. split; [by intros ->|]. induction 1 as [|x y z [[]|[]] _ IH]; done. Qed.

(** ** [UnionFind] *)
Definition uf_ok (u : uf) (rt : nset → nset) : Prop :=
  ∃ dep : nset → nat,
    (∀ x y, uf_par u !! x = Some y → rt y = rt x ∧ is_Some (uf_par u !! y) ∧ (y = x ∧ rt x = x ∨ dep y < dep x)) ∧
    (∀ x, uf_par u !! x = None → rt x = x ∧ ∀ y, rt y = x → y = x).

Lemma uf0_ok : uf_ok uf0 (λ x, x).
Proof. exists (λ _, 0). split; [intros x y; cbn; by rewrite lookup_empty|]. intros x _. by split. Qed.

Lemma uf_walk_spec u rt dep : 
  (∀ x y, uf_par u !! x = Some y → rt y = rt x ∧ is_Some (uf_par u !! y) ∧ (y = x ∧ rt x = x ∨ dep y < dep x)) →
  ∀ fuel x path x0, is_Some (uf_par u !! x) → NoDup path → (∀ a, a ∈ path → is_Some (uf_par u !! a) ∧ dep x ≤ dep a ∧ rt a = rt x0) → x ∈ path → rt x = rt x0 →
    size (uf_par u) + 1 ≤ fuel + length path → 0 < fuel →
    ∃ path', uf_walk fuel (uf_par u) x path = Ok (path', rt x0) ∧ ∀ a, a ∈ path' → is_Some (uf_par u !! a) ∧ rt a = rt x0 ∧ (a = rt x0 ∨ dep (rt x0) < dep a).
Proof.
  intros Hp. induction fuel as [|fuel IH]; intros x path x0 [r Hr] Hnd Hpath Hin Hrt Hf Hpos; [lia|]. cbn [uf_walk]. rewrite Hr.
  destruct (Hp x r Hr) as (H1 & H2 & H3). case_decide as Hx.
  - subst r. destruct H3 as [[_ H3]|H3]; [|lia]. exists path. rewrite <-Hrt, H3. split; [done|]. intros a Ha. destruct (Hpath a Ha) as (? & ? & ?).
    split; [done|]. split; [congruence|]. destruct (decide (a = x)) as [|Hne]; [by left|right].
    (* the depth is smaller *)
    destruct (decide (dep x = dep a)) as [He|He]; [|lia]. exfalso.
    assert (∀ n b, dep b = n → is_Some (uf_par u !! b) → rt b = x → b = x ∨ dep x < dep b) as Hd.
    { induction n as [n IHn] using lt_wf_ind. intros b Hb [c Hc] Hbx. destruct (Hp b c Hc) as (E1 & E2 & [[-> E3]|E3]); [left; congruence|].
      destruct (IHn (dep c)) with c as [->|?]; [lia|done|done|congruence|by right|right; lia]. }
    destruct (Hd _ a eq_refl) as [?|?]; [done|congruence|done|lia].
  - destruct H3 as [[? _]|H3]; [done|].
    assert (r ∉ path) as Hrp by (intros H; apply Hpath in H as (_ & H & _); lia).
    assert (length (r :: path) ≤ size (uf_par u)) as Hlen.
    { rewrite <-(size_dom (uf_par u)). assert (length (r :: path) = size (list_to_set (r :: path) : gset nset)) as ->.
      { rewrite size_list_to_set; [done|]. by apply NoDup_cons. }
      apply subseteq_size. intros a. rewrite elem_of_list_to_set, elem_of_cons, elem_of_dom. intros [->|Ha]; [done|]. by apply Hpath. }
    cbn in Hlen. apply IH; [done| | | |congruence|rewrite app_length; cbn; lia|lia].
    + apply NoDup_app. split; [done|]. split; [|apply NoDup_singleton]. by intros a Ha ->%elem_of_list_singleton.
    + intros a [Ha| ->%elem_of_list_singleton]%elem_of_app; [|split; [done|split; [lia|congruence]]]. destruct (Hpath a Ha) as (? & ? & ?). split; [done|]. split; [lia|done].
    + apply elem_of_app. right. by left.
Qed.
Lemma compress_lookup (path : list nset) (r : nset) : ∀ (p : gmap nset nset) a,
  foldl (λ p a, <[a := r]> p) p path !! a = if decide (a ∈ path) then Some r else p !! a.
Proof.
  induction path as [|x path IH]; intros p a; cbn [foldl].
  - by rewrite decide_False by apply not_elem_of_nil.
  - rewrite IH. destruct (decide (a ∈ path)) as [H|H].
    + rewrite decide_True; [done|by right].
    + destruct (decide (a = x)) as [->|Hne]; [rewrite lookup_insert, decide_True; [done|by left]|]. rewrite lookup_insert_ne by done.
      rewrite decide_False; [done|]. rewrite elem_of_cons. tauto.
Qed.
Lemma uf_find_spec u rt x : uf_ok u rt → ∃ u', uf_find u x = Ok (u', rt x) ∧ uf_ok u' rt ∧ (∀ y, is_Some (uf_par u !! y) ∨ y = x → is_Some (uf_par u' !! y)).
Proof.
  intros (dep & Hp & Hn). unfold uf_find. destruct (uf_par u !! x) as [y|] eqn:E.
  - destruct (uf_walk_spec u rt dep Hp (S (size (uf_par u))) x [x] x) as (path & -> & Hpath).
    + by eexists.
    + apply NoDup_singleton.
    + intros a ->%elem_of_list_singleton. split; [by eexists|done].
    + by left.
    + done.
    + cbn. lia.
    + lia.
    + cbn [res_bind fst snd]. eexists. split; [done|]. split; [|].
      * exists dep. cbn [uf_par]. assert (is_Some (uf_par u !! rt x) ∧ rt (rt x) = rt x) as [Hrx Hrr].
        { clear -Hp E. assert (∀ n b, dep b = n → is_Some (uf_par u !! b) → is_Some (uf_par u !! rt b) ∧ rt (rt b) = rt b) as Hd.
          { induction n as [n IHn] using lt_wf_ind. intros b Hb [c Hc]. destruct (Hp b c Hc) as (E1 & E2 & [[-> E3]|E3]); [rewrite !E3; split; [by eexists|done]|].
            rewrite <-E1. apply (IHn (dep c)); [lia|done|done]. }
          apply (Hd (dep x)); [done|by eexists]. }
        split.
        -- intros a b. rewrite !compress_lookup. case_decide as Ha.
           ++ intros [= <-]. destruct (Hpath a Ha) as (H1 & H2 & H3). split; [congruence|]. split; [case_decide; [by eexists|done]|].
              destruct H3 as [->|H3]; [left; split; [done|congruence]|by right].
           ++ intros Hab. destruct (Hp a b Hab) as (H1 & H2 & H3). split; [done|]. split; [case_decide; [by eexists|done]|done].
        -- intros a. rewrite compress_lookup. case_decide; [done|]. apply Hn.
      * intros z Hz. cbn [uf_par]. rewrite compress_lookup. case_decide; [by eexists|]. destruct Hz as [?| ->]; [done|by eexists].
  - destruct (Hn x E) as [Hx Hx']. rewrite Hx. eexists. split; [done|]. split; [|].
    + exists dep. cbn [uf_par]. split.
      * intros a b. destruct (decide (a = x)) as [->|Hne].
        -- rewrite lookup_insert. intros [= <-]. split; [done|]. split; [by rewrite lookup_insert; eexists|by left].
        -- rewrite lookup_insert_ne by done. intros Hab. destruct (Hp a b Hab) as (H1 & [c Hc] & H3). split; [done|]. split; [|done].
           destruct (decide (b = x)) as [->|?]; [rewrite lookup_insert; by eexists|rewrite lookup_insert_ne by done; by eexists].
      * intros a. destruct (decide (a = x)) as [->|Hne]; [by rewrite lookup_insert|]. rewrite lookup_insert_ne by done. apply Hn.
    + intros z Hz. cbn [uf_par]. destruct (decide (z = x)) as [->|?]; [rewrite lookup_insert; by eexists|]. rewrite lookup_insert_ne by done. by destruct Hz.
Qed.
Lemma uf_union_spec tie u rt x y : uf_ok u rt → rt x ≠ rt y →
  ∃ u' rt' c d, uf_union tie u x y = Ok u' ∧ uf_ok u' rt' ∧ (c = rt x ∧ d = rt y ∨ c = rt y ∧ d = rt x) ∧ ∀ z, rt' z = if decide (rt z = d) then c else rt z.
Proof.
  intros Hok Hne. unfold uf_union. destruct (uf_find_spec u rt x Hok) as (u1 & -> & Hok1 & Hs1). cbn [res_bind fst snd].
  destruct (uf_find_spec u1 rt y Hok1) as (u2 & -> & Hok2 & Hs2). cbn [res_bind fst snd]. rewrite decide_False by done.
  set (first := if decide _ then _ else _). set (c := if first then rt x else rt y). set (d := if first then rt y else rt x).
  exists (UF (<[d := c]> (uf_par u2)) (<[c := default 0 (uf_wt u2 !! rt x) + default 0 (uf_wt u2 !! rt y)]> (uf_wt u2))), (λ z, if decide (rt z = d) then c else rt z), c, d.
  assert (is_Some (uf_par u2 !! x)) as Hx by (apply Hs2; left; apply Hs1; by right). assert (is_Some (uf_par u2 !! y)) as Hy by (apply Hs2; by right).
  assert (c = rt x ∧ d = rt y ∨ c = rt y ∧ d = rt x) as Hcd by (unfold c, d; destruct first; [left|right]; done).
  assert (c ≠ d) as Hcne by (destruct Hcd as [[-> ->]|[-> ->]]; congruence).
  split; [done|]. split; [|by split]. destruct Hok2 as (dep & Hp & Hn).
  assert (∀ b, is_Some (uf_par u2 !! b) → is_Some (uf_par u2 !! rt b) ∧ rt (rt b) = rt b) as Hd.
  { assert (∀ n b, dep b = n → is_Some (uf_par u2 !! b) → is_Some (uf_par u2 !! rt b) ∧ rt (rt b) = rt b) as Hd; [|by intros b; apply (Hd (dep b))].
    induction n as [n IHn] using lt_wf_ind. intros b Hb [e He]. destruct (Hp b e He) as (E1 & E2 & [[-> E3]|E3]); [rewrite !E3; split; [by eexists|done]|].
    rewrite <-E1. apply (IHn (dep e)); [lia|done|done]. }
  assert (is_Some (uf_par u2 !! c) ∧ rt c = c) as [Hc Hrc] by (destruct Hcd as [[-> _]|[-> _]]; by apply Hd).
  assert (is_Some (uf_par u2 !! d) ∧ rt d = d) as [Hdd Hrd] by (destruct Hcd as [[_ ->]|[_ ->]]; by apply Hd).
  exists (λ z, if decide (rt z = d) then dep z + S (dep c) else dep z). cbn [uf_par]. split.
  - intros a b. destruct (decide (a = d)) as [->|Ha].
    + rewrite lookup_insert. intros [= <-]. rewrite Hrd, Hrc, (decide_True (P := d = d)), (decide_False (P := c = d)) by done. split; [done|]. split; [by rewrite lookup_insert_ne|]. right. rewrite (decide_True (P := d = d)), (decide_False (P := c = d)) by done. lia.
    + rewrite lookup_insert_ne by done. intros Hab. destruct (Hp a b Hab) as (H1 & H2 & H3). rewrite H1. split; [done|]. split.
      * destruct (decide (b = d)) as [->|?]; [rewrite lookup_insert; by eexists|by rewrite lookup_insert_ne].
      * destruct H3 as [[-> H3]|H3]; [|right; case_decide; lia]. left. split; [done|]. rewrite H3. by rewrite decide_False.
  - intros a. destruct (decide (a = d)) as [->|Ha]; [by rewrite lookup_insert|]. rewrite lookup_insert_ne by done. intros Hnone. destruct (Hn a Hnone) as [H1 H2].
    rewrite H1, decide_False by done. split; [done|]. intros b. case_decide; [|apply H2]. intros ->. rewrite Hnone in Hc. by destruct Hc.
Qed.
