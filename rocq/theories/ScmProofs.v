(** Sampling along a topological order solves the structural equations. *)
From Coq Require Import QArith.Qcanon.
From Verif Require Import Py Spec DagModel QMatModel GaussModel ScmModel SpecScm TopoProofs StateProofs ReachProofs QueryProofs CoreProofs DiscreteModel DiscreteProofs QMatProofs GaussProofs PropertiesDag.
#[local] Open Scope Qc_scope.

Definition colof (L : list node) (m : columns) (v : node) : list Qc := default [] (m !! pos L v).

Section loop.
  Context (L : list node) (N : nset) (E : arcset) (Hnd : NoDup L) (HL : ∀ v, v ∈ L ↔ v ∈ N).
  Context (z : node → list Qc) (ps : node → list node) (Hps : ∀ v p, v ∈ N → p ∈ ps v → (p, v) ∈ E ∧ p ∈ N).
  Context (F : node → columns → res (list Qc)) (body : node → columns → res columns).
  Context (Hbody : ∀ v m, v ∈ N → length m = length L → m !! pos L v = Some (z v) →
    body v m = res_bind (F v (colof L m <$> ps v)) (λ c, Ok (<[pos L v := c]> m))).

  Lemma cpos_lt v (m : columns) : v ∈ N → length m = length L → (pos L v < length m)%nat.
  Proof using HL. intros Hv%HL ->. eapply lookup_lt_Some. by apply pos_lookup. Qed.
  Lemma cpos_inj v w : v ∈ N → w ∈ N → pos L v = pos L w → v = w.
  Proof using HL. intros Hv%HL Hw%HL Eq. apply pos_lookup in Hv, Hw. rewrite Eq in Hv. congruence. Qed.
  Lemma colof_lookup v m : v ∈ N → length m = length L → m !! pos L v = Some (colof L m v).
  Proof using HL. intros Hv Hm. unfold colof. destruct (m !! pos L v) eqn:Eq; [done|]. apply lookup_ge_None in Eq. pose proof (cpos_lt v m Hv Hm). lia. Qed.
  Lemma colof_ins_eq v c m : v ∈ N → length m = length L → colof L (<[pos L v := c]> m) v = c.
  Proof using HL. intros Hv Hm. unfold colof. by rewrite list_lookup_insert by (by apply cpos_lt). Qed.
  Lemma colof_ins_ne v w c m : v ∈ N → w ∈ N → v ≠ w → colof L (<[pos L v := c]> m) w = colof L m w.
  Proof using HL. intros Hv Hw Hne. unfold colof. rewrite list_lookup_insert_ne; [done|]. intros Eq. by apply Hne, cpos_inj. Qed.
  Lemma before t1 v t2 p : topo_order N E (t1 ++ v :: t2) → (p, v) ∈ E → p ∈ N → p ∈ t1.
  Proof using.
    intros (Hndt & Hin & Hord) Hpv Hp. apply Hin in Hp. apply elem_of_list_lookup in Hp as [i Hi].
    assert (i < length t1)%nat as Hlt. { eapply Hord; [exact Hpv|exact Hi|]. rewrite lookup_app_r by lia. by rewrite Nat.sub_diag. }
    rewrite lookup_app_l in Hi by done. by eapply elem_of_list_lookup_2.
  Qed.

  Lemma run_sound t1 t2 m0 m :
    topo_order N E (t1 ++ t2) → length m0 = length L →
    (∀ v, v ∈ t1 → F v (colof L m0 <$> ps v) = Ok (colof L m0 v)) → (∀ v, v ∈ t2 → colof L m0 v = z v) →
    loopR body t2 m0 = Ok m → length m = length L ∧ ∀ v, v ∈ N → F v (colof L m <$> ps v) = Ok (colof L m v).
  Proof using Hnd HL Hps Hbody.
    revert t1 m0. induction t2 as [|v t2 IH]; intros t1 m0 Ht Hm0 H1 H2 Hrun; cbn in Hrun.
    - injection Hrun as <-. split; [done|]. intros v Hv. apply H1. apply Ht in Hv. by rewrite app_nil_r in Hv.
    - assert (v ∈ N) as Hv by (apply Ht; apply elem_of_app; right; by left).
      rewrite Hbody in Hrun; [|done|done|]; [|rewrite colof_lookup by done; f_equal; apply H2; by left].
      destruct (F v (colof L m0 <$> ps v)) as [c|e] eqn:Ec; cbn in Hrun; [|done].
      assert (∀ w, w ∈ t1 → w ∈ N) as Ht1 by (intros w Hw; apply Ht; apply elem_of_app; by left).
      assert (∀ w, w ∈ t1 → v ≠ w) as Hne. { intros w Hw <-. destruct Ht as (Hndt & _). apply NoDup_app in Hndt as (_ & Hdis & _). apply (Hdis v Hw). by left. }
      assert (∀ w, w ∈ t1 → colof L (<[pos L v := c]> m0) w = colof L m0 w) as Hsame by (intros w Hw; apply colof_ins_ne; auto).
      eapply (IH (t1 ++ [v])); [by rewrite <-app_assoc|by rewrite insert_length| | |exact Hrun].
      + intros w [Hw|Hw]%elem_of_app.
        * rewrite Hsame by done. rewrite <-(H1 w Hw). f_equal. apply list_fmap_ext. intros i p Hi. apply Hsame.
          apply elem_of_list_lookup_2 in Hi. destruct (Hps w p (Ht1 w Hw) Hi) as [Hpw HpN].
          apply elem_of_list_split in Hw as (u1 & u2 & ->). rewrite <-app_assoc in Ht. cbn in Ht.
          apply elem_of_app. left. by eapply before.
        * apply elem_of_list_singleton in Hw as ->. rewrite colof_ins_eq by done. rewrite <-Ec. f_equal. apply list_fmap_ext. intros i p Hi. apply Hsame.
          apply elem_of_list_lookup_2 in Hi. destruct (Hps v p Hv Hi) as [Hpw HpN]. by eapply before.
      + intros w Hw. assert (w ∈ N) as HwN by (apply Ht; apply elem_of_app; right; by right).
        rewrite colof_ins_ne; [apply H2; by right|done|done|]. intros <-. destruct Ht as (Hndt & _). apply NoDup_app in Hndt as (_ & _ & Hndt). by apply NoDup_cons in Hndt as [? _].
  Qed.

  Lemma run_complete t1 t2 m0 m :
    topo_order N E (t1 ++ t2) → length m0 = length L → length m = length L →
    (∀ v, v ∈ N → F v (colof L m <$> ps v) = Ok (colof L m v)) →
    (∀ v, v ∈ t1 → colof L m0 v = colof L m v) → (∀ v, v ∈ t2 → colof L m0 v = z v) →
    loopR body t2 m0 = Ok m.
  Proof using Hnd HL Hps Hbody.
    revert t1 m0. induction t2 as [|v t2 IH]; intros t1 m0 Ht Hm0 Hm Hsol H1 H2; cbn.
    - f_equal. apply list_eq. intros i. destruct (decide (i < length L)%nat) as [Hi|Hi].
      + destruct (L !! i) as [v|] eqn:Ev; [|apply lookup_ge_None in Ev; lia].
        assert (v ∈ N) as Hv by (apply HL; by eapply elem_of_list_lookup_2).
        assert (pos L v = i) as <- by (by apply pos_unique).
        rewrite !colof_lookup by done. f_equal. apply H1. apply Ht in Hv. by rewrite app_nil_r in Hv.
      + rewrite !lookup_ge_None_2 by lia. done.
    - assert (v ∈ N) as Hv by (apply Ht; apply elem_of_app; right; by left).
      rewrite Hbody; [|done|done|]; [|rewrite colof_lookup by done; f_equal; apply H2; by left].
      assert ((colof L m0 <$> ps v) = (colof L m <$> ps v)) as ->.
      { apply list_fmap_ext. intros i p Hi. apply elem_of_list_lookup_2 in Hi. destruct (Hps v p Hv Hi) as [Hpw HpN]. apply H1. by eapply before. }
      rewrite Hsol by done. cbn.
      apply (IH (t1 ++ [v])); [by rewrite <-app_assoc|by rewrite insert_length|done|done| |].
      + intros w [Hw|Hw]%elem_of_app.
        * rewrite colof_ins_ne; [by apply H1|done|apply Ht; apply elem_of_app; by left|].
          intros <-. destruct Ht as (Hndt & _). apply NoDup_app in Hndt as (_ & Hdis & _). apply (Hdis v Hw). by left.
        * apply elem_of_list_singleton in Hw as ->. by apply colof_ins_eq.
      + intros w Hw. assert (w ∈ N) as HwN by (apply Ht; apply elem_of_app; right; by right).
        rewrite colof_ins_ne; [apply H2; by right|done|done|]. intros <-. destruct Ht as (Hndt & _). apply NoDup_app in Hndt as (_ & _ & Hndt). by apply NoDup_cons in Hndt as [? _].
  Qed.
  Lemma run_iff t m0 m : topo_order N E t → length m0 = length L → (∀ v, v ∈ N → colof L m0 v = z v) →
    loopR body t m0 = Ok m ↔ length m = length L ∧ ∀ v, v ∈ N → F v (colof L m <$> ps v) = Ok (colof L m v).
  Proof using Hnd HL Hps Hbody.
    intros Ht Hm0 Hz. split.
    - intros Hrun. eapply (run_sound [] t); [done|done| | |exact Hrun].
      + intros v Hv. by apply elem_of_nil in Hv.
      + intros v Hv. apply Hz. by apply Ht.
    - intros [Hm Hsol]. eapply (run_complete [] t); [done|done|done|done| |].
      + intros v Hv. by apply elem_of_nil in Hv.
      + intros v Hv. apply Hz. by apply Ht.
  Qed.
  (** The loop ends if the equations can be evaluated. *)
  Lemma run_total (P : list Qc → Prop) t m1 : topo_order N E t → length m1 = length L → (∀ v, v ∈ N → colof L m1 v = z v) → (∀ v, v ∈ N → P (z v)) →
    (∀ v cs, v ∈ N → length cs = length (ps v) → (∀ c, c ∈ cs → P c) → ∃ c, F v cs = Ok c ∧ P c) →
    ∃ m, loopR body t m1 = Ok m ∧ length m = length L ∧ ∀ v, v ∈ N → P (colof L m v).
  Proof using Hnd HL Hps Hbody.
    intros Ht Hm1 Hz1 Hz HF.
    assert (∀ t2 t1 m0, topo_order N E (t1 ++ t2) → length m0 = length L → (∀ v, v ∈ N → P (colof L m0 v)) → (∀ v, v ∈ t2 → colof L m0 v = z v) →
      ∃ m, loopR body t2 m0 = Ok m ∧ length m = length L ∧ ∀ v, v ∈ N → P (colof L m v)) as H.
    { intros t2. induction t2 as [|v t2 IH]; intros t1 m0 Ht' Hm0 HP H2; cbn.
      - by exists m0.
      - assert (v ∈ N) as Hv by (apply Ht'; apply elem_of_app; right; by left).
        rewrite Hbody; [|done|done|]; [|rewrite colof_lookup by done; f_equal; apply H2; by left].
        destruct (HF v (colof L m0 <$> ps v)) as (c & -> & Hc); [done|by rewrite fmap_length| |].
        { intros c (p & -> & Hp)%elem_of_list_fmap. apply HP. by eapply Hps. }
        cbn. apply (IH (t1 ++ [v])); [by rewrite <-app_assoc|by rewrite insert_length| |].
        + intros w Hw. destruct (decide (v = w)) as [<-|Hne]; [by rewrite colof_ins_eq|]. rewrite colof_ins_ne by done. by apply HP.
        + intros w Hw. assert (w ∈ N) as HwN by (apply Ht'; apply elem_of_app; right; by right).
          rewrite colof_ins_ne; [apply H2; by right|done|done|]. intros <-. destruct Ht' as (Hndt & _). apply NoDup_app in Hndt as (_ & _ & Hndt). by apply NoDup_cons in Hndt as [? _]. }
    apply (H t []); [done|done| |].
    - intros v Hv. rewrite Hz1 by done. by apply Hz.
    - intros v Hv. apply Hz1. by apply Ht.
  Qed.
End loop.
Lemma colof_zero L (N : nset) z v : (∀ v, v ∈ L ↔ v ∈ N) → v ∈ N → colof L (replicate (length L) z) v = z.
Proof. intros HL Hv. unfold colof. rewrite lookup_replicate_2; [done|]. pose proof (cpos_lt L N HL v (replicate (length L) z) Hv). rewrite replicate_length in H. by apply H. Qed.

Lemma const_replicate n q (c : list Qc) : length c = n ∧ (∀ y, y ∈ c → y = q) ↔ c = replicate n q.
Proof.
  split.
  - intros [<- Hall]. apply list_eq. intros i. destruct (c !! i) as [y|] eqn:Ey.
    + rewrite lookup_replicate_2 by (by eapply lookup_lt_Some). f_equal. apply Hall. by eapply elem_of_list_lookup_2.
    + symmetry. apply lookup_replicate_None. by apply lookup_ge_None in Ey.
  - intros ->. split; [apply replicate_length|]. intros y Hy. by apply elem_of_replicate in Hy as [-> _].
Qed.
Lemma bcast_iff n l c : bcast n l = Ok c ↔ length c = n ∧ (l = c ∨ ∃ q, l = [q] ∧ ∀ y, y ∈ c → y = q).
Proof.
  unfold bcast. destruct (decide (length l = n)) as [Hl|Hl].
  - split; [intros [= <-]; by split; [|left]|]. intros [Hc [<-|(q & -> & Hq)]]; [done|].
    cbn in Hl. subst n. assert (c = replicate 1 q) as -> by (by apply const_replicate). done.
  - split.
    + intros H. destruct l as [|q [|]]; try done. injection H as <-. split; [by rewrite replicate_length|]. right. exists q. split; [done|]. by apply (const_replicate n q).
    + intros [Hc [->|(q & -> & Hq)]]; [done|]. f_equal. symmetry. by apply const_replicate.
Qed.
Lemma fill_fills n x c : fill n x = Ok c ↔ fills n x c.
Proof.
  unfold fills. destruct x as [q|l|r cs]; cbn.
  - rewrite const_replicate. split; [by intros [= <-]|by intros ->].
  - apply bcast_iff.
  - destruct (decide (r = 1)%nat) as [->|Hr]; [|split; [done|by intros (_ & ? & _)]].
    rewrite bcast_iff. rewrite <-list_fmap_compose. split.
    + intros [Hc H]. split; [done|]. split; [done|]. by eexists.
    + intros (Hc & _ & l & -> & H). by split.
Qed.

Section ixs.
  Context (L : list node) (Hnd : NoDup L).
  Lemma ix_map_pos v : v ∈ L → ix_map L !! v = Some (pos L v).
  Proof using Hnd. intros Hv. apply ix_map_spec; [done|]. by apply pos_lookup. Qed.
  Lemma ixs_in_ok l : (∀ v, v ∈ l → v ∈ L) → ixs_in (ix_map L) l = Ok (pos L <$> l).
  Proof using Hnd.
    intros Hl. unfold ixs_in. assert (∀ acc, loopR (λ p acc, match ix_map L !! p with Some a => Ok (acc ++ [a]) | None => Raise KeyError end) l acc = Ok (acc ++ (pos L <$> l))) as H; [|apply H].
    induction l as [|v l IH]; intros acc; cbn; [by rewrite app_nil_r|].
    rewrite ix_map_pos by (apply Hl; by left). rewrite IH by (intros w Hw; apply Hl; by right). by rewrite <-app_assoc.
  Qed.
  Lemma cols_at_ok (m : columns) l : length m = length L → (∀ v, v ∈ l → v ∈ L) → cols_at m (pos L <$> l) = Ok (colof L m <$> l).
  Proof using Hnd.
    intros Hm Hl. unfold cols_at. assert (∀ acc, loopR (λ a acc, match m !! a with Some c => Ok (acc ++ [c]) | None => Raise IndexError end) (pos L <$> l) acc = Ok (acc ++ (colof L m <$> l))) as H; [|apply H].
    induction l as [|v l IH]; intros acc; cbn; [by rewrite app_nil_r|].
    assert (v ∈ L) as Hv by (apply Hl; by left). rewrite (colof_lookup L (list_to_set L)) by (done || intros; by rewrite ?elem_of_list_to_set).
    rewrite IH by (intros w Hw; apply Hl; by right). by rewrite <-app_assoc.
  Qed.
  Lemma column_iff m v c : length m = length L → v ∈ L → column L m v c ↔ c = colof L m v.
  Proof using Hnd.
    intros Hm Hv. assert (m !! pos L v = Some (colof L m v)) as Hc by (apply (colof_lookup L (list_to_set L)); [intros; by rewrite elem_of_list_to_set|by rewrite elem_of_list_to_set|done]).
    split.
    - intros (k & Hk & Hc'). assert (pos L v = k) as <- by (by apply pos_unique). congruence.
    - intros ->. exists (pos L v). split; [by apply pos_lookup|done].
  Qed.
  Lemma columns_iff m l cs : length m = length L → (∀ v, v ∈ l → v ∈ L) → Forall2 (column L m) l cs ↔ cs = colof L m <$> l.
  Proof using Hnd.
    intros Hm. revert cs. induction l as [|v l IH]; intros cs Hl; cbn.
    - split; [by intros ->%Forall2_nil_inv_l|by intros ->].
    - split.
      + intros (c & cs' & Hc & Hcs & ->)%Forall2_cons_inv_l. f_equal; [|apply IH; [|done]].
        * apply column_iff; [done|apply Hl; by left|done].
        * intros w Hw. apply Hl. by right.
      + intros ->. constructor.
        * apply column_iff; [done|apply Hl; by left|done].
        * apply IH; [|done]. intros w Hw. apply Hl. by right.
  Qed.
End ixs.

Section scm.
  Context (S : sdag) (Hwf : scm_wf S) (o : oracle) (iv : gmap node idist) (n : nat).
  Notation L := (s_list S).
  Notation N := (d_nodes (s_dag S)).
  Notation z := (replicate n 0).
  Definition pord (v : node) : list node := on o [186%nat; v] (parents (s_dag S) v).
  Definition eqn (v : node) (cs : columns) : res (list Qc) :=
    match iv !! v with
    | Some (Soft f) => res_bind (f S v (Mat n cs)) (fill n)
    | Some (Perfect f) => res_bind (f n) (fill n)
    | Some Neither => Ok z
    | None => match s_cond S !! v with None => Raise KeyError | Some f => res_bind (f (Mat n cs)) (fill n) end
    end.
  Lemma eqn_mechanism v cs c : eqn v cs = Ok c ↔ mechanism S iv n v cs c.
  Proof using.
    clear Hwf o. unfold eqn, mechanism. destruct (iv !! v) as [[f|f|]|].
    - destruct (f S v (Mat n cs)) as [x|e]; cbn; [rewrite fill_fills|].
      + split; [by eexists|]. by intros (? & [= <-] & ?).
      + split; [done|]. by intros (? & ? & ?).
    - destruct (f n) as [x|e]; cbn; [rewrite fill_fills|].
      + split; [by eexists|]. by intros (? & [= <-] & ?).
      + split; [done|]. by intros (? & ? & ?).
    - split; [by intros [= ->]|by intros ->].
    - destruct (s_cond S !! v) as [f|]; [|split; [done|by intros (? & ? & ? & _)]].
      destruct (f (Mat n cs)) as [x|e] eqn:Ex; cbn; [rewrite fill_fills|].
      + split; [intros; by eexists _, _|]. intros (g & y & [= <-] & Hx & ?). rewrite Ex in Hx. by injection Hx as <-.
      + split; [done|]. intros (g & y & [= <-] & Hx & ?). by rewrite Ex in Hx.
  Qed.
  Lemma pord_spec v p : p ∈ pord v ↔ (p, v) ∈ d_arcs (s_dag S).
  Proof using Hwf. unfold pord. rewrite elem_of_on. apply Hwf. Qed.
  Lemma pord_in v p : p ∈ pord v → p ∈ L.
  Proof using Hwf. intros Hp%pord_spec. apply Hwf. by apply Hwf in Hp as [? _]. Qed.
  Lemma pord_orders : orders (s_dag S) pord.
  Proof using Hwf. intros v Hv. split; [apply NoDup_on|]. apply pord_spec. Qed.
  Lemma size_list : size N = length L.
  Proof using Hwf.
    destruct Hwf as (_ & _ & Hnd & HL). rewrite <-(size_list_to_set (C:=nset) L Hnd). f_equal. apply set_eq. intros v. by rewrite elem_of_list_to_set.
  Qed.
  Lemma iv_node_eq v m : v ∈ N → length m = length L → m !! pos L v = Some z →
    scm_iv_node o S iv n v m = res_bind (eqn v (colof L m <$> pord v)) (λ c, Ok (<[pos L v := c]> m)).
  Proof using Hwf.
    intros Hv Hm Hz. pose proof Hwf as (_ & _ & Hnd & HL). unfold scm_iv_node, eqn.
    rewrite ix_map_pos by (done || by apply HL). rewrite ixs_in_ok by (done || intros; by eapply pord_in). cbn [res_bind].
    rewrite cols_at_ok by (done || intros; by eapply pord_in). cbn [res_bind]. fold (pord v).
    assert (pos L v < length m)%nat as Hlt by (by eapply lookup_lt_Some).
    assert (∀ x, put_col n (pos L v) x m = res_bind (fill n x) (λ c, Ok (<[pos L v := c]> m))) as Hput by (intros x; unfold put_col; by rewrite decide_True).
    destruct (iv !! v) as [[f|f|]|].
    - destruct (f S v (Mat n _)); cbn; [apply Hput|done].
    - destruct (f n); cbn; [apply Hput|done].
    - cbn. by rewrite list_insert_id.
    - destruct (s_cond S !! v) as [f|]; [|done]. destruct (f (Mat n _)); cbn; [apply Hput|done].
  Qed.
  Lemma solves_iv_iff m : solves_iv S iv pord n m ↔ length m = length L ∧ ∀ v, v ∈ N → eqn v (colof L m <$> pord v) = Ok (colof L m v).
  Proof using Hwf.
    pose proof Hwf as (_ & _ & Hnd & HL). unfold solves_iv. split; intros [Hm H]; (split; [done|]); intros v Hv.
    - destruct (H v Hv) as (cs & c & Hcs & Hmech & Hc). apply columns_iff in Hcs as ->; [|done|done|intros; by eapply pord_in].
      apply column_iff in Hc as ->; [|done|done|by apply HL]. by apply eqn_mechanism.
    - exists (colof L m <$> pord v), (colof L m v). split; [|split].
      + apply columns_iff; [done|done|intros; by eapply pord_in|done].
      + apply eqn_mechanism. by apply H.
      + apply column_iff; [done|done|by apply HL|done].
  Qed.
  Lemma sample_iv_iff m : scm_sample_interventional o S iv n = Ok m ↔ solves_iv S iv pord n m.
  Proof using Hwf.
    pose proof Hwf as (Hva & Hac & Hnd & HL). rewrite solves_iv_iff. unfold scm_sample_interventional.
    destruct (proj1 (C05_topological_sort (s_dag S) o Hva) Hac) as (t & -> & Ht). cbn. unfold zero_cols. rewrite size_list.
    eapply (run_iff L N) with (z := λ _, z); [done|done| |apply iv_node_eq|exact Ht|by rewrite replicate_length|].
    - intros v p Hv Hp%pord_spec. split; [done|]. by apply Hva in Hp as [? _].
    - intros v Hv. by apply (colof_zero L N).
  Qed.
End scm.

Lemma node_eq o S n v m : scm_wf S → v ∈ d_nodes (s_dag S) → length m = length (s_list S) → scm_node o S n v m = scm_iv_node o S ∅ n v m.
Proof.
  intros Hwf Hv Hm. unfold scm_node, scm_iv_node. rewrite lookup_empty. destruct (ix_map (s_list S) !! v); [|done].
  pose proof Hwf as (_ & _ & Hnd & HL). rewrite ixs_in_ok by (done || intros w Hw; by eapply (pord_in S Hwf o v)). cbn.
  rewrite cols_at_ok by (done || intros w Hw; by eapply (pord_in S Hwf o v)). cbn. by destruct (s_cond S !! v).
Qed.
Lemma sample_iff o S n m : scm_wf S → scm_sample o S n = Ok m ↔ solves_iv S ∅ (pord S o) n m.
Proof.
  intros Hwf. pose proof Hwf as (Hva & Hac & Hnd & HL). rewrite solves_iv_iff by done. unfold scm_sample.
  destruct (proj1 (C05_topological_sort (s_dag S) o Hva) Hac) as (t & -> & Ht). cbn. unfold zero_cols. rewrite (size_list S Hwf).
  eapply (run_iff (s_list S) (d_nodes (s_dag S))) with (z := λ _, replicate n 0); [done|done| | |exact Ht|by rewrite replicate_length|].
  - intros v p Hv Hp%(pord_spec S Hwf). split; [done|]. by apply Hva in Hp as [? _].
  - intros v m' Hv Hm' Hz. rewrite node_eq by done. by apply iv_node_eq.
  - intros v Hv. by apply (colof_zero (s_list S) (d_nodes (s_dag S))).
Qed.
Lemma solves_empty S ord n m : solves_iv S ∅ ord n m ↔ solves S ord n m.
Proof.
  unfold solves_iv, solves, mechanism. split; intros [Hm H]; (split; [done|]); intros v Hv; specialize (H v Hv).
  - destruct H as (cs & c & Hcs & Hmech & Hc). rewrite lookup_empty in Hmech. destruct Hmech as (f & x & ? & ? & ?). by exists cs, c, f, x.
  - destruct H as (cs & c & f & x & ? & ? & ? & ? & ?). exists cs, c. rewrite lookup_empty. split; [done|]. split; [|done]. by exists f, x.
Qed.

(** Nodes that no intervened node can reach keep their columns. *)
Lemma untouched S o iv n m m' v : scm_wf S → scm_sample o S n = Ok m → scm_sample_interventional o S iv n = Ok m' →
  v ∈ d_nodes (s_dag S) → (∀ w, w ∈ dom iv → ¬ rtc (λ x y, (x, y) ∈ d_arcs (s_dag S)) w v) →
  colof (s_list S) m v = colof (s_list S) m' v.
Proof.
  intros Hwf Hm Hm'. pose proof Hwf as (Hva & Hac & Hnd & HL).
  apply (sample_iff o S n m Hwf), (solves_iv_iff S Hwf) in Hm as [_ Hm]. apply (sample_iv_iff S Hwf), (solves_iv_iff S Hwf) in Hm' as [_ Hm'].
  destruct (proj1 (C05_topological_sort (s_dag S) o Hva) Hac) as (t & _ & Ht).
  intros Hv. assert (∃ k, t !! k = Some v) as [k Hk] by (apply elem_of_list_lookup; by apply Ht).
  revert v Hv Hk. induction (lt_wf k) as [k _ IH]. intros v Hv Hk Hnd'.
  specialize (Hm v Hv). specialize (Hm' v Hv).
  assert (iv !! v = None) as Hiv. { apply not_elem_of_dom. intros Hin. apply (Hnd' v Hin). apply rtc_refl. }
  unfold eqn in Hm, Hm'. rewrite lookup_empty in Hm. rewrite Hiv in Hm'.
  assert ((colof (s_list S) m <$> pord S o v) = (colof (s_list S) m' <$> pord S o v)) as Heq.
  { apply list_fmap_ext. intros i p Hp. apply elem_of_list_lookup_2, (pord_spec S Hwf) in Hp.
    assert (p ∈ d_nodes (s_dag S)) as HpN by (by apply Hva in Hp as [? _]).
    assert (∃ j, t !! j = Some p) as [j Hj] by (apply elem_of_list_lookup; by apply Ht).
    eapply (IH j); [|done|done|]; [by eapply Ht|].
    intros w Hw Hr. apply (Hnd' w Hw). by eapply rtc_r. }
  rewrite Heq in Hm. congruence.
Qed.

(** Shift interventions. *)
Lemma shift_sample_ok q S v f n cs g :
  s_cond S !! v = Some f → (∀ r, length r = length cs → ∃ y, f (Vec r) = Ok y ∧ cell y = Ok (g r)) →
  shift_sample q S v (Mat n cs) = Ok (Vec ((λ i, g (row_of cs i) + q) <$> seq 0 n)).
Proof.
  intros Hf Hg. unfold shift_sample.
  match goal with |- context [loopR ?b _ _] => set (body := b) end.
  assert (∀ l acc, loopR body l acc = Ok (acc ++ ((λ i, g (row_of cs i) + q) <$> l))) as H.
  { intros l. induction l as [|i l IH]; intros acc; cbn; [by rewrite app_nil_r|]. unfold body at 1. rewrite Hf.
    destruct (Hg (row_of cs i)) as (y & -> & Hy); [unfold row_of; by rewrite fmap_length|]. cbn. rewrite Hy. cbn. rewrite IH. by rewrite <-app_assoc. }
  by rewrite H.
Qed.

(** Mixtures. *)
Lemma where_eq_spec cs k i : i ∈ where_eq cs k ↔ cs !! i = Some k.
Proof.
  unfold where_eq. change (list_filter _ _ ?l) with (filter (λ j : nat, cs !! j = Some k) l). rewrite elem_of_list_filter, elem_of_seq. split; [by intros [? _]|].
  intros H. split; [done|]. apply lookup_lt_Some in H. lia.
Qed.
Lemma where_eq_NoDup cs k : NoDup (where_eq cs k).
Proof. unfold where_eq. apply NoDup_filter, NoDup_seq. Qed.
Lemma where_eq_rank cs k i : cs !! i = Some k →
  where_eq cs k !! length (list_filter (λ j : nat, cs !! j = Some k) _ (seq 0 i)) = Some i.
Proof.
  intros Hi. unfold where_eq. pose proof (lookup_lt_Some _ _ _ Hi) as Hlt.
  replace (length cs) with (i + (1 + (length cs - i - 1)))%nat by lia. rewrite !seq_app. cbn [seq].
  change (list_filter _ _ ?l) with (filter (λ j : nat, cs !! j = Some k) l). rewrite filter_app. rewrite lookup_app_r by (apply Nat.le_refl).
  rewrite Nat.sub_diag. cbn. rewrite decide_True by done. done.
Qed.
Lemma filter_ext_in {A} (P Q : A → Prop) `{∀ x, Decision (P x), ∀ x, Decision (Q x)} (l : list A) : (∀ x, x ∈ l → P x ↔ Q x) → filter P l = filter Q l.
Proof.
  induction l as [|x l IH]; intros Hl; [done|]. rewrite !filter_cons. rewrite IH by (intros y Hy; apply Hl; by right).
  assert (P x ↔ Q x) as Hx by (apply Hl; by left). destruct (decide (P x)), (decide (Q x)); tauto || done.
Qed.
Lemma where_count cs k : length (where_eq cs k) = length (list_filter (λ j, j = k) _ cs).
Proof.
  unfold where_eq. change (list_filter _ _ ?l) with (filter (λ j : nat, cs !! j = Some k) l) at 1. change (list_filter _ _ cs) with (filter (λ j : nat, j = k) cs).
  induction cs as [|x cs IH] using rev_ind; [done|]. rewrite app_length. cbn [length]. rewrite Nat.add_1_r, seq_S. cbn [Nat.add].
  rewrite !filter_app, !app_length. f_equal.
  - rewrite <-IH. f_equal. apply filter_ext_in. intros j Hj%elem_of_seq. rewrite lookup_app_l by lia. done.
  - cbn. rewrite lookup_app_r by lia. rewrite Nat.sub_diag. cbn. destruct (decide (x = k)) as [->|Hne]; [by rewrite !decide_True|]. rewrite decide_False by congruence. done.
Qed.
Lemma scatter_other ixs l m i : i ∉ ixs → (foldl (λ (acc : list Qc) (p : nat * Qc), <[p.1 := p.2]> acc) m (zip ixs l)) !! i = m !! i.
Proof.
  revert l m. induction ixs as [|j ixs IH]; intros l m Hi; destruct l as [|x l]; cbn; try done.
  apply not_elem_of_cons in Hi as [Hne Hi]. rewrite IH by done. by rewrite list_lookup_insert_ne.
Qed.
Lemma scatter_at ixs l m i j : NoDup ixs → length l = length ixs → ixs !! j = Some i → (i < length m)%nat →
  (foldl (λ (acc : list Qc) (p : nat * Qc), <[p.1 := p.2]> acc) m (zip ixs l)) !! i = l !! j.
Proof.
  revert l m j. induction ixs as [|a ixs IH]; intros l m j Hnd Hl Hj Hi; [done|]. destruct l as [|x l]; [done|]. cbn.
  apply NoDup_cons in Hnd as [Ha Hnd]. destruct j as [|j]; cbn in *.
  - injection Hj as ->. rewrite scatter_other by done. by rewrite list_lookup_insert.
  - apply IH; [done|lia|done|by rewrite insert_length].
Qed.
Lemma scatter_length ixs l m : length (foldl (λ (acc : list Qc) (p : nat * Qc), <[p.1 := p.2]> acc) m (zip ixs l)) = length m.
Proof. revert l m. induction ixs as [|a ixs IH]; intros l m; destruct l as [|x l]; cbn; try done. rewrite IH. by rewrite insert_length. Qed.
Lemma scatter_ok cs k l m : length l = length (where_eq cs k) → length m = length cs →
  ∃ m', scatter (where_eq cs k) l m = Ok m' ∧ length m' = length cs ∧
    (∀ i, cs !! i = Some k → m' !! i = l !! (length (list_filter (λ j : nat, cs !! j = Some k) _ (seq 0 i)))) ∧
    (∀ i, cs !! i ≠ Some k → m' !! i = m !! i).
Proof.
  intros Hl Hm. unfold scatter, bcast. rewrite decide_True by done. cbn. eexists. split; [done|]. split; [by rewrite scatter_length|]. split.
  - intros i Hi. apply scatter_at; [apply where_eq_NoDup|done|by apply where_eq_rank|]. rewrite Hm. by eapply lookup_lt_Some.
  - intros i Hi. apply scatter_other. by rewrite where_eq_spec.
Qed.
Lemma drawn_all ps : (fix all (ps : list perfect) : Prop := match ps with [] => True | p :: ps' => drawn p ∧ all ps' end) ps ↔ ∀ p, p ∈ ps → drawn p.
Proof.
  induction ps as [|p ps IH]; [split; [intros _ p Hp; by apply elem_of_nil in Hp|done]|]. rewrite IH. split.
  - intros [Hp Hps] q [->|Hq]%elem_of_cons; [done|by apply Hps].
  - intros H. split; [apply H; by left|]. intros q Hq. apply H. by right.
Qed.
Definition multi_loop (cs : list nat) :=
  fix go (k : nat) (ps : list perfect) (m : list Qc) : res (list Qc) :=
    match ps with
    | [] => Ok m
    | p :: ps' =>
      let ixs := where_eq cs k in
      res_bind (perfect_sample p (length ixs)) (λ v, res_bind (scatter ixs v m) (go (S k) ps'))
    end.
Lemma multi_loop_ok cs ps k0 m : (∀ p n, p ∈ ps → ∃ r, perfect_sample p n = Ok r ∧ length r = n) → length m = length cs →
  ∃ r draws, multi_loop cs k0 ps m = Ok r ∧ length r = length cs ∧
    (∀ j p, ps !! j = Some p → perfect_sample p (length (where_eq cs (k0 + j))) = Ok (draws (k0 + j)%nat)) ∧
    (∀ i k, cs !! i = Some k → (k0 <= k < k0 + length ps)%nat → r !! i = draws k !! (length (list_filter (λ j : nat, cs !! j = Some k) _ (seq 0 i)))) ∧
    (∀ i k, cs !! i = Some k → ¬ (k0 <= k < k0 + length ps)%nat → r !! i = m !! i).
Proof.
  revert k0 m. induction ps as [|p ps IH]; intros k0 m Hps Hm.
  - exists m, (λ _, []). cbn. split; [done|]. split; [done|]. split; [intros j q Hj; done|]. split; [intros; lia|done].
  - destruct (Hps p (length (where_eq cs k0))) as (v & Hv & Hvl); [by left|].
    destruct (scatter_ok cs k0 v m Hvl Hm) as (m1 & Hs & Hm1 & Hin & Hout).
    destruct (IH (S k0) m1) as (r & draws & Hr & Hlen & Hd & Hrin & Hrout); [intros q n Hq; apply Hps; by right|done|].
    exists r, (λ k, if decide (k = k0) then v else draws k). cbn [multi_loop length]. rewrite Hv. cbn [res_bind]. rewrite Hs. cbn [res_bind].
    split; [exact Hr|]. split; [done|]. split; [|split].
    + intros [|j] q Hj; cbn in Hj.
      * injection Hj as <-. rewrite Nat.add_0_r, decide_True by done. done.
      * rewrite decide_False by lia. replace (k0 + S j)%nat with (S k0 + j)%nat by lia. by apply Hd.
    + intros i k Hi Hk. case_decide as Hk0.
      * subst k. rewrite (Hrout i k0) by (done || lia). by apply Hin.
      * apply Hrin; [done|lia].
    + intros i k Hi Hk. rewrite (Hrout i k) by (done || lia). apply Hout. rewrite Hi. intros [= ->]. lia.
Qed.
Lemma perfect_total p n : drawn p → ∃ r, perfect_sample p n = Ok r ∧ length r = n.
Proof.
  revert p n. fix IH 1. intros p n Hp. destruct p as [q|draws|p1 p2 choices|pvals ps choices]; cbn in Hp |- *.
  - eexists. split; [done|]. apply replicate_length.
  - eexists. by split.
  - destruct Hp as (H1 & H2 & Hc). destruct (Hc n) as [Hlen _].
    destruct (IH p1 (length (where_eq (choices n) 1)) H1) as (v1 & -> & Hv1). cbn.
    destruct (scatter_ok (choices n) 1 v1 (replicate n 0) Hv1) as (m1 & -> & Hm1 & _); [by rewrite replicate_length|]. cbn.
    destruct (IH p2 (length (where_eq (choices n) 0)) H2) as (v2 & -> & Hv2). cbn.
    destruct (scatter_ok (choices n) 0 v2 m1 Hv2) as (m2 & -> & Hm2 & _); [done|]. exists m2. split; [done|]. congruence.
  - destruct Hp as (Hps & Hlen & Hnn & Hsum & Hc). rewrite decide_True by (split; [done|]; split; [by apply Forall_forall|done]).
    destruct (Hc n) as [Hcl _].
    assert (∀ p n, p ∈ ps → ∃ r, perfect_sample p n = Ok r ∧ length r = n) as Hall.
    { clear - IH Hps. induction ps as [|p ps IHps]; intros q n Hq; [by apply elem_of_nil in Hq|]. destruct Hps as [Hp Hps].
      apply elem_of_cons in Hq as [->|Hq]; [apply IH; exact Hp|by apply IHps]. }
    destruct (multi_loop_ok (choices n) ps 0 (replicate n 0) Hall) as (r & _ & Hr & Hrl & _); [by rewrite replicate_length|].
    exists r. split; [exact Hr|congruence].
Qed.

(** The equations have at most one solution, for any orders of the parents. *)
Lemma solves_gen S iv ord n m : scm_wf S → orders (s_dag S) ord → solves_iv S iv ord n m →
  length m = length (s_list S) ∧ ∀ v, v ∈ d_nodes (s_dag S) → eqn S iv n v (colof (s_list S) m <$> ord v) = Ok (colof (s_list S) m v).
Proof.
  intros Hwf Hord [Hm H]. pose proof Hwf as (Hva & _ & Hnd & HL). split; [done|]. intros v Hv.
  destruct (H v Hv) as (cs & c & Hcs & Hmech & Hc). apply columns_iff in Hcs as ->; [|done|done|].
  - apply column_iff in Hc as ->; [|done|done|by apply HL]. by apply eqn_mechanism.
  - intros p Hp. apply HL. apply Hord in Hp; [|done]. by apply Hva in Hp as [? _].
Qed.
Lemma solves_unique S iv ord n m m' : scm_wf S → orders (s_dag S) ord → solves_iv S iv ord n m → solves_iv S iv ord n m' → m = m'.
Proof.
  intros Hwf Hord [Hl Hm]%solves_gen [Hl' Hm']%solves_gen; [|done..]. pose proof Hwf as (Hva & Hac & Hnd & HL).
  destruct (proj1 (C05_topological_sort (s_dag S) oracle0 Hva) Hac) as (t & _ & Ht).
  assert (∀ v, v ∈ d_nodes (s_dag S) → colof (s_list S) m v = colof (s_list S) m' v) as Heq.
  { intros v Hv. assert (∃ k, t !! k = Some v) as [k Hk] by (apply elem_of_list_lookup; by apply Ht).
    revert v Hv Hk. induction (lt_wf k) as [k _ IH]. intros v Hv Hk. specialize (Hm v Hv). specialize (Hm' v Hv).
    assert ((colof (s_list S) m <$> ord v) = (colof (s_list S) m' <$> ord v)) as Heq.
    { apply list_fmap_ext. intros i p Hp. apply elem_of_list_lookup_2 in Hp. apply Hord in Hp; [|done].
      assert (p ∈ d_nodes (s_dag S)) as HpN by (by apply Hva in Hp as [? _]).
      assert (∃ j, t !! j = Some p) as [j Hj] by (apply elem_of_list_lookup; by apply Ht).
      eapply (IH j); [|done|done]. by eapply Ht. }
    rewrite Heq in Hm. congruence. }
  apply list_eq. intros i. destruct (decide (i < length (s_list S))%nat) as [Hi|Hi].
  - destruct (s_list S !! i) as [v|] eqn:Ev; [|apply lookup_ge_None in Ev; lia].
    assert (v ∈ d_nodes (s_dag S)) as Hv by (apply HL; by eapply elem_of_list_lookup_2).
    assert (pos (s_list S) v = i) as <- by (by apply pos_unique).
    rewrite !(colof_lookup (s_list S) (d_nodes (s_dag S))) by done. f_equal. by apply Heq.
  - rewrite !lookup_ge_None_2 by lia. done.
Qed.
