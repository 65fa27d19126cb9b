(** Building ancestral graphs from edge lists: constructor, [copy], [induced_subgraph]. *)
From Verif Require Import Py Spec SpecMixed DagModel UGraphModel AncestralModel TopoProofs StateProofs UGraphProofs PdagProofs AncestralState AncestralProofs.

(** ** Constructor, [copy], [induced_subgraph] *)
Definition below (h g : ag) : Prop := g_dir h ⊆ g_dir g ∧ g_bi h ⊆ g_bi g ∧ g_un h ⊆ g_un g.

Lemma below_directed h g i j :
  gok h → gok g → below h g → (i, j) ∈ g_dir g →
  ∃ h', add_directed_raw i j h = (h', Ok tt) ∧ gok h' ∧
    stored h' ({[i; j]} ∪ g_nodes h) ({[(i, j)]} ∪ g_dir h) (g_bi h) (g_un h).
Proof.
  intros Hh Hg (HD & HB & HU) Hin. destruct (gok_dir1 _ Hg _ _ Hin) as (Hij & H1 & H2 & H3).
  destruct (add_directed_raw_spec i j h Hh Hij) as [[-> Hi]|[[-> [Hn Hx]]|[[-> [Hn Hx]]|[-> (Hn & Ha & Hk)]]]].
  - exists h. split; [done|]. split; [done|]. pose proof (gok_dirN _ Hh _ _ Hi).
    unfold stored. split_and!; [set_solver|set_solver|done|done].
  - destruct Hx. apply set_eq. intros k. split; [|set_solver]. intros Hk%(gok_nei _ Hh). apply HU in Hk.
    exfalso. by apply (gok_sepd _ Hg _ _ k Hin).
  - exfalso. apply (gok_adj _ Hh) in Hx as [Hx|[Hx|[Hx|Hx]]]; [done|by apply HD in Hx|by apply HB in Hx|by apply HU in Hx].
  - eexists. split; [done|]. split; [done|]. unfold stored. cbn. split_and!; [set_solver|done|done|done].
Qed.
Lemma below_bidirected h g i j :
  gok h → gok g → below h g → upair i j ∈ g_bi g →
  ∃ h', add_bidirected_raw i j h = (h', Ok tt) ∧ gok h' ∧
    stored h' ({[i; j]} ∪ g_nodes h) (g_dir h) ({[upair i j]} ∪ g_bi h) (g_un h).
Proof.
  intros Hh Hg (HD & HB & HU) Hin. pose proof (upair_ne_lt _ _ _ (gok_bilt _ Hg) Hin) as Hij.
  assert (∀ x k, (x = i ∨ x = j) → upair x k ∉ g_un g) as Hun.
  { intros x k [-> | ->]; [|by eapply (gok_sepb _ Hg)]. rewrite upair_comm in Hin. by eapply (gok_sepb _ Hg). }
  destruct (add_bidirected_raw_spec i j h Hh Hij) as [[-> Hi]|[[-> [Hn Hx]]|[[-> [Hn Hx]]|[-> (Hn & Ha & Hk)]]]].
  - exists h. split; [done|]. split; [done|]. pose proof (over_upair _ _ _ _ (gok_biN _ Hh) Hi).
    unfold stored. split_and!; [set_solver|done|set_solver|done].
  - exfalso. destruct Hx as [Hx|Hx]; apply set_choose_L in Hx as [k Hk]; apply (gok_nei _ Hh), HU in Hk; eapply Hun; [by left|done|by right|done].
  - exfalso. apply (gok_adj _ Hh) in Hx as [Hx|[Hx|[Hx|Hx]]].
    + apply HD in Hx. by apply (gok_dir1 _ Hg) in Hx as (_ & _ & ? & _).
    + apply HD in Hx. apply (gok_dir1 _ Hg) in Hx as (_ & _ & Hx & _). by rewrite upair_comm in Hx.
    + done.
    + apply HU in Hx. by apply (gok_bi1 _ Hg) in Hx.
  - eexists. split; [done|]. split; [done|]. unfold stored. cbn. split_and!; [set_solver|done|done|done].
Qed.
Lemma below_undirected h g i j :
  gok h → gok g → below h g → upair i j ∈ g_un g →
  ∃ h', add_undirected_raw i j h = (h', Ok tt) ∧ gok h' ∧
    stored h' ({[i; j]} ∪ g_nodes h) (g_dir h) (g_bi h) ({[upair i j]} ∪ g_un h).
Proof.
  intros Hh Hg (HD & HB & HU) Hin. pose proof (upair_ne_lt _ _ _ (gok_unlt _ Hg) Hin) as Hij.
  pose proof Hin as Hin'. rewrite upair_comm in Hin'.
  destruct (add_undirected_raw_spec i j h Hh Hij) as [[-> Hi]|[[-> [Hn Hx]]|[[-> [Hn Hx]]|[-> (Hn & Ha & Hk)]]]].
  - exists h. split; [done|]. split; [done|]. pose proof (over_upair _ _ _ _ (gok_unN _ Hh) Hi).
    unfold stored. split_and!; [set_solver|done|done|set_solver].
  - exfalso. apply set_choose_L in Hx as [k Hk]. rewrite !elem_of_union in Hk.
    rewrite !(gok_par _ Hh), !(gok_spo _ Hh) in Hk.
    destruct Hk as [[[Hk|Hk]|Hk]|Hk].
    + apply HD in Hk. by eapply (gok_sepd _ Hg) in Hk.
    + apply HB in Hk. rewrite upair_comm in Hk. by eapply (gok_sepb _ Hg) in Hk.
    + apply HD in Hk. by eapply (gok_sepd _ Hg) in Hk.
    + apply HB in Hk. rewrite upair_comm in Hk. by eapply (gok_sepb _ Hg) in Hk.
  - exfalso. apply (gok_adj _ Hh) in Hx as [Hx|[Hx|[Hx|Hx]]].
    + apply HD in Hx. by apply (gok_dir1 _ Hg) in Hx as (_ & _ & _ & ?).
    + apply HD in Hx. by apply (gok_dir1 _ Hg) in Hx as (_ & _ & _ & ?).
    + apply HB in Hx. by apply (gok_bi1 _ Hg) in Hx.
    + done.
  - eexists. split; [done|]. split; [done|]. unfold stored. cbn. split_and!; [set_solver|done|done|done].
Qed.

Definition ends (l : list arc) : nset := list_to_set (l.*1) ∪ list_to_set (l.*2).
Definition upairs (l : list arc) : arcset := list_to_set ((λ e : arc, upair e.1 e.2) <$> l).

Lemma below_mfor_directed l h g :
  gok h → gok g → below h g → (∀ e, e ∈ l → e ∈ g_dir g) →
  ∃ h', mfor l (λ e : arc, add_directed_raw e.1 e.2) h = (h', Ok tt) ∧ gok h' ∧ below h' g ∧
    stored h' (ends l ∪ g_nodes h) (list_to_set l ∪ g_dir h) (g_bi h) (g_un h).
Proof.
  revert h. induction l as [|[i j] l IH]; intros h Hh Hg Hb Hl.
  { exists h. split; [done|]. split; [done|]. split; [done|]. unfold stored, ends. cbn. split_and!; [set_solver|set_solver|done|done]. }
  destruct (below_directed h g i j Hh Hg Hb) as (h1 & E1 & Hh1 & (N1 & D1 & B1 & U1)); [apply Hl; left|].
  destruct (IH h1 Hh1 Hg) as (h2 & E2 & Hh2 & Hb2 & (N2 & D2 & B2 & U2)).
  { destruct Hb as (HD & HB & HU). split; [|by rewrite B1, U1]. rewrite D1. assert ((i, j) ∈ g_dir g) by (apply Hl; left). set_solver. }
  { intros e He. apply Hl. by right. }
  exists h2. cbn [mfor]. cbn [fst snd]. erewrite mthen_ok by exact E1. split; [done|]. split; [done|]. split; [done|].
  unfold stored. rewrite N2, D2, B2, U2, N1, D1, B1, U1. unfold ends. cbn. clear. split_and!; [set_solver|set_solver|done|done].
Qed.
Lemma below_mfor_bidirected l h g :
  gok h → gok g → below h g → (∀ e : arc, e ∈ l → upair e.1 e.2 ∈ g_bi g) →
  ∃ h', mfor l (λ e : arc, add_bidirected_raw e.1 e.2) h = (h', Ok tt) ∧ gok h' ∧ below h' g ∧
    stored h' (ends l ∪ g_nodes h) (g_dir h) (upairs l ∪ g_bi h) (g_un h).
Proof.
  revert h. induction l as [|[i j] l IH]; intros h Hh Hg Hb Hl.
  { exists h. split; [done|]. split; [done|]. split; [done|]. unfold stored, ends, upairs. cbn. split_and!; [set_solver|done|set_solver|done]. }
  assert (upair i j ∈ g_bi g) as Hij by (apply (Hl (i, j)); left).
  destruct (below_bidirected h g i j Hh Hg Hb Hij) as (h1 & E1 & Hh1 & (N1 & D1 & B1 & U1)).
  destruct (IH h1 Hh1 Hg) as (h2 & E2 & Hh2 & Hb2 & (N2 & D2 & B2 & U2)).
  { destruct Hb as (HD & HB & HU). split; [by rewrite D1|]. split; [|by rewrite U1]. rewrite B1. set_solver. }
  { intros e He. apply Hl. by right. }
  exists h2. cbn [mfor]. cbn [fst snd]. erewrite mthen_ok by exact E1. split; [done|]. split; [done|]. split; [done|].
  unfold stored. rewrite N2, D2, B2, U2, N1, D1, B1, U1. unfold ends, upairs. cbn. clear. split_and!; [set_solver|done|set_solver|done].
Qed.
Lemma below_mfor_undirected l h g :
  gok h → gok g → below h g → (∀ e : arc, e ∈ l → upair e.1 e.2 ∈ g_un g) →
  ∃ h', mfor l (λ e : arc, add_undirected_raw e.1 e.2) h = (h', Ok tt) ∧ gok h' ∧ below h' g ∧
    stored h' (ends l ∪ g_nodes h) (g_dir h) (g_bi h) (upairs l ∪ g_un h).
Proof.
  revert h. induction l as [|[i j] l IH]; intros h Hh Hg Hb Hl.
  { exists h. split; [done|]. split; [done|]. split; [done|]. unfold stored, ends, upairs. cbn. split_and!; [set_solver|done|done|set_solver]. }
  assert (upair i j ∈ g_un g) as Hij by (apply (Hl (i, j)); left).
  destruct (below_undirected h g i j Hh Hg Hb Hij) as (h1 & E1 & Hh1 & (N1 & D1 & B1 & U1)).
  destruct (IH h1 Hh1 Hg) as (h2 & E2 & Hh2 & Hb2 & (N2 & D2 & B2 & U2)).
  { destruct Hb as (HD & HB & HU). split; [by rewrite D1|]. split; [by rewrite B1|]. rewrite U1. set_solver. }
  { intros e He. apply Hl. by right. }
  exists h2. cbn [mfor]. cbn [fst snd]. erewrite mthen_ok by exact E1. split; [done|]. split; [done|]. split; [done|].
  unfold stored. rewrite N2, D2, B2, U2, N1, D1, B1, U1. unfold ends, upairs. cbn. clear. split_and!; [set_solver|done|done|set_solver].
Qed.

(** Building a graph from edges of a consistent one. *)
Lemma ag_make_below g (N : nset) (ld lb lu : list arc) :
  gok g → (∀ e, e ∈ ld → e ∈ g_dir g) → (∀ e : arc, e ∈ lb → upair e.1 e.2 ∈ g_bi g) →
  (∀ e : arc, e ∈ lu → upair e.1 e.2 ∈ g_un g) →
  ∃ h, ag_make N ld lb lu = Ok h ∧ gok h ∧
    stored h (ends ld ∪ ends lb ∪ ends lu ∪ N) (list_to_set ld) (upairs lb) (upairs lu).
Proof.
  intros Hg Hd Hb Hu.
  destruct (below_mfor_directed ld (ag_init N) g (gok_init N) Hg) as (h1 & E1 & G1 & L1 & (N1 & D1 & B1 & U1)); [..|done|].
  { split; [|split]; cbn; set_solver. }
  destruct (below_mfor_bidirected lb h1 g G1 Hg L1 Hb) as (h2 & E2 & G2 & L2 & (N2 & D2 & B2 & U2)).
  destruct (below_mfor_undirected lu h2 g G2 Hg L2 Hu) as (h3 & E3 & G3 & L3 & (N3 & D3 & B3 & U3)).
  exists h3. split; [|split; [done|]].
  - unfold ag_make, ag_new. erewrite mthen_ok by exact E1. erewrite mthen_ok by exact E2. by rewrite E3.
  - unfold stored. rewrite N3, D3, B3, U3, N2, D2, B2, U2, N1, D1, B1, U1. cbn. clear. split_and!; set_solver.
Qed.

Lemma upair_unpack flip e : upair (unpack flip e).1 (unpack flip e).2 = upair e.1 e.2.
Proof. unfold unpack. destruct (flip e); [|done]. cbn. apply upair_comm. Qed.
Lemma upairs_unpack (o : oracle) (k : list nat) (flip : arc → bool) (X : arcset) :
  (∀ x y, (x, y) ∈ X → x < y) → upairs (unpack flip <$> oa o k X) = X.
Proof.
  intros Hlt. unfold upairs. apply set_eq. intros e. rewrite elem_of_list_to_set, elem_of_list_fmap. split.
  - intros (e' & -> & (e'' & -> & He)%elem_of_list_fmap). apply elem_of_oa in He. rewrite upair_unpack.
    rewrite upair_id; [done|]. destruct e''. by apply Hlt.
  - intros He. exists (unpack flip e). rewrite upair_unpack, upair_id by (destruct e; by apply Hlt).
    split; [done|]. apply elem_of_list_fmap. exists e. by rewrite elem_of_oa.
Qed.
Lemma ends_unpack (o : oracle) (k : list nat) (flip : arc → bool) (X : arcset) (N : nset) : over N X → ends (unpack flip <$> oa o k X) ⊆ N.
Proof.
  intros Ho x. unfold ends. rewrite elem_of_union, !elem_of_list_to_set, !elem_of_list_fmap.
  intros [(e & -> & (e' & -> & He)%elem_of_list_fmap)|(e & -> & (e' & -> & He)%elem_of_list_fmap)];
    apply elem_of_oa in He; unfold unpack; destruct e' as [a b]; apply Ho in He; destruct (flip (a, b)); cbn; tauto.
Qed.
Lemma ends_oa (o : oracle) (k : list nat) (X : arcset) (N : nset) : over N X → ends (oa o k X) ⊆ N.
Proof.
  intros Ho x. unfold ends. rewrite elem_of_union, !elem_of_list_to_set, !elem_of_list_fmap.
  intros [(e & -> & He)|(e & -> & He)]; apply elem_of_oa in He; destruct e as [a b]; apply Ho in He; cbn; tauto.
Qed.
Lemma pairs_ok_lt (X : arcset) : (∀ x y, (x, y) ∈ X → x < y) → pairs_ok X = true.
Proof. intros H. apply bool_decide_eq_true_2. intros [x y] He%H. cbn. lia. Qed.

(** The graph rebuilt from a part of the edges. *)
Lemma rebuild_spec (g : ag) (o : oracle) (flip : arc → bool) (N : nset) (D B U : arcset) :
  gok g → D ⊆ g_dir g → B ⊆ g_bi g → U ⊆ g_un g → over N D → over N B → over N U →
  ∃ h, ag_make N (oa o [87] D) (unpack flip <$> oa o [88] B) (unpack flip <$> oa o [89] U) = Ok h ∧ gok h ∧ stored h N D B U.
Proof.
  intros Hg SD SB SU OD OB OU.
  assert (∀ x y, (x, y) ∈ B → x < y) as LB by (intros x y Hx; by apply (gok_bilt _ Hg), SB).
  assert (∀ x y, (x, y) ∈ U → x < y) as LU by (intros x y Hx; by apply (gok_unlt _ Hg), SU).
  destruct (ag_make_below g N (oa o [87] D) (unpack flip <$> oa o [88] B) (unpack flip <$> oa o [89] U) Hg) as (h & E & Hh & (HN & HD & HB & HU)).
  - intros e He%elem_of_oa. by apply SD.
  - intros e (e' & -> & He)%elem_of_list_fmap. apply elem_of_oa in He. rewrite upair_unpack, upair_id by (destruct e'; by apply LB). by apply SB.
  - intros e (e' & -> & He)%elem_of_list_fmap. apply elem_of_oa in He. rewrite upair_unpack, upair_id by (destruct e'; by apply LU). by apply SU.
  - exists h. split; [done|]. split; [done|]. rewrite upairs_unpack in HB, HU by done. split_and!; try done.
    + rewrite HN. pose proof (ends_oa o [87] D N OD) as X1. pose proof (ends_unpack o [88] flip B N OB) as X2. pose proof (ends_unpack o [89] flip U N OU) as X3.
      clear -X1 X2 X3. revert X1 X2 X3. generalize (ends (oa o [87] D)), (ends (unpack flip <$> oa o [88] B)), (ends (unpack flip <$> oa o [89] U)). clear. set_solver.
    + rewrite HD. apply set_eq. intros e. by rewrite elem_of_list_to_set, elem_of_oa.
Qed.

(** ** The constructor on any edge lists *)
Definition tabulate (N : nset) (f : node → nset) : dmap := list_to_map ((λ n, (n, f n)) <$> elements N).
Lemma dget_tabulate (N : nset) (f : node → nset) n : dget (tabulate N f) n = if decide (n ∈ N) then f n else ∅.
Proof.
  unfold dget, tabulate. case_decide as Hn.
  - rewrite (elem_of_list_to_map_1 _ n (f n)); [done| |].
    + rewrite <-list_fmap_compose. change (fst ∘ (λ n, (n, f n))) with (λ n : node, n). rewrite list_fmap_id. apply NoDup_elements.
    + apply elem_of_list_fmap. exists n. by rewrite elem_of_elements.
  - rewrite not_elem_of_list_to_map_1; [done|]. rewrite <-list_fmap_compose. change (fst ∘ (λ n, (n, f n))) with (λ n : node, n).
    by rewrite list_fmap_id, elem_of_elements.
Qed.

(** The consistent object with given edges. *)
Definition ag_of (N : nset) (D B U : arcset) : ag :=
  let nei n : nset := filter (λ m, upair n m ∈ U) N in
  let spo n : nset := filter (λ m, upair n m ∈ B) N in
  let par n : nset := filter (λ m, (m, n) ∈ D) N in
  let chi n : nset := filter (λ m, (n, m) ∈ D) N in
  Ag N D B U (tabulate N nei) (tabulate N spo) (tabulate N par) (tabulate N chi)
    (tabulate N (λ n, par n ∪ chi n ∪ spo n ∪ nei n)).
Lemma ag_of_gok (N : nset) (D B U : arcset) :
  over N D → over N B → over N U → (∀ x y, (x, y) ∈ B → x < y) → (∀ x y, (x, y) ∈ U → x < y) →
  simple (Mixed D B U) → separate (Mixed D B U) → gok (ag_of N D B U).
Proof.
  intros OD OB OU LB LU [I1 I2 I3] Hse.
  assert (∀ x y, upair x y ∈ B ↔ spouse (Mixed D B U) x y) as ES by (intros x y; rewrite (upair_in_lt _ x y LB); reflexivity).
  assert (∀ x y, upair x y ∈ U ↔ neighbor (Mixed D B U) x y) as EN by (intros x y; rewrite (upair_in_lt _ x y LU); reflexivity).
  assert (∀ x y, upair x y ∈ B → x ∈ N ∧ y ∈ N) as OB' by (intros x y; by apply over_upair).
  assert (∀ x y, upair x y ∈ U → x ∈ N ∧ y ∈ N) as OU' by (intros x y; by apply over_upair).
  split; [done|done|done|done|done|..].
  - intros i j. unfold g_parents, ag_of. cbn. rewrite dget_tabulate. specialize (OD i j). case_decide; rewrite ?elem_of_filter, ?elem_of_empty; tauto.
  - intros i j. unfold g_children, ag_of. cbn. rewrite dget_tabulate. specialize (OD i j). case_decide; rewrite ?elem_of_filter, ?elem_of_empty; tauto.
  - intros i j. unfold g_spouses, ag_of. cbn. rewrite dget_tabulate. specialize (OB' i j). case_decide; rewrite ?elem_of_filter, ?elem_of_empty; tauto.
  - intros i j. unfold g_neighbors, ag_of. cbn. rewrite dget_tabulate. specialize (OU' i j). case_decide; rewrite ?elem_of_filter, ?elem_of_empty; tauto.
  - intros i j. unfold g_adjacent, ag_of. cbn. rewrite dget_tabulate.
    specialize (OU' i j). specialize (OB' i j). pose proof (OD j i). specialize (OD i j).
    case_decide; rewrite ?elem_of_union, ?elem_of_filter, ?elem_of_empty; tauto.
  - cbn. intros i j Hx. rewrite ES, EN. split; [intros ->; apply (I1 j); by left|]. by apply I2.
  - cbn. intros i j. rewrite ES, EN. apply I3.
  - cbn. intros i j k Hx. rewrite EN. apply (Hse i). by left.
  - cbn. intros i j k Hx. rewrite EN. apply (Hse i). right. by apply ES.
Qed.

Lemma elem_of_upairs (l : list arc) x y : upair x y ∈ upairs l ↔ (x, y) ∈ l ∨ (y, x) ∈ l.
Proof.
  unfold upairs. rewrite elem_of_list_to_set, elem_of_list_fmap. split.
  - intros ([a b] & E & He). cbn in E. apply upair_eq_or in E as [[-> ->]|[-> ->]]; tauto.
  - intros [H|H]; [by exists (x, y)|exists (y, x)]. split; [|done]. apply upair_comm.
Qed.
Lemma upairs_lt (l : list arc) : (∀ e : arc, e ∈ l → e.1 ≠ e.2) → ∀ x y, (x, y) ∈ upairs l → x < y.
Proof.
  intros Hl x y. unfold upairs. rewrite elem_of_list_to_set, elem_of_list_fmap. intros ([a b] & E & He%Hl). cbn in *.
  unfold upair in E. injection E as -> ->. lia.
Qed.
Lemma spouse_same (G H : mixed) : (∀ x y, spouse G x y ↔ spouse H x y) → (∀ x y, neighbor G x y ↔ neighbor H x y) → mx_dir G = mx_dir H →
  (simple G → simple H) ∧ (separate G → separate H).
Proof.
  intros HS HU HD. assert (∀ x y, madj H x y ↔ madj G x y) as HA. { intros x y. unfold madj. by rewrite HS, HU, HD. }
  split.
  - intros [I1 I2 I3]. split.
    + intros x. rewrite HA. apply I1.
    + intros x y. rewrite <-HD, <-HS, <-HU. apply I2.
    + intros x y. rewrite <-HS, <-HU. apply I3.
  - intros Hse x y z. unfold into. rewrite <-HD, <-HS, <-HU. apply Hse.
Qed.

Definition lmix (dir bi un : list arc) : mixed := Mixed (list_to_set dir) (list_to_set bi) (list_to_set un).
Lemma ag_make_ok (N : nset) (dir bi un : list arc) :
  simple (lmix dir bi un) → separate (lmix dir bi un) →
  ∃ h, ag_make N dir bi un = Ok h ∧ gok h ∧
    stored h (ends dir ∪ ends bi ∪ ends un ∪ N) (list_to_set dir) (upairs bi) (upairs un).
Proof.
  intros Hs Hse.
  assert (∀ e : arc, e ∈ bi → e.1 ≠ e.2) as NB.
  { intros [x y] He E. cbn in E. subst y. apply (simple_irr _ Hs x). right. right. left. left. cbn. by rewrite elem_of_list_to_set. }
  assert (∀ e : arc, e ∈ un → e.1 ≠ e.2) as NU.
  { intros [x y] He E. cbn in E. subst y. apply (simple_irr _ Hs x). right. right. right. left. cbn. by rewrite elem_of_list_to_set. }
  destruct (spouse_same (lmix dir bi un) (Mixed (list_to_set dir) (upairs bi) (upairs un))) as [H1 H2].
  { intros x y. unfold spouse at 2. cbn. rewrite <-(upair_in_lt (upairs bi)) by (by apply upairs_lt). rewrite elem_of_upairs.
    unfold spouse. cbn. by rewrite !elem_of_list_to_set. }
  { intros x y. unfold neighbor at 2. cbn. rewrite <-(upair_in_lt (upairs un)) by (by apply upairs_lt). rewrite elem_of_upairs.
    unfold neighbor. cbn. by rewrite !elem_of_list_to_set. }
  { done. }
  pose (K := ends dir ∪ ends bi ∪ ends un : nset).
  assert (∀ l x y, (x, y) ∈ l → x ∈ ends l ∧ y ∈ ends l) as HE.
  { intros l x y He. unfold ends. rewrite !elem_of_union, !elem_of_list_to_set, !elem_of_list_fmap. split; [left|right]; by exists (x, y). }
  assert (∀ l : list arc, over (ends l) (upairs l)) as HU.
  { intros l x y. unfold upairs. rewrite elem_of_list_to_set, elem_of_list_fmap. intros ([a b] & E & He%HE). cbn in E.
    unfold upair in E. injection E as -> ->. destruct (Nat.min_spec a b) as [[? ->]|[? ->]], (Nat.max_spec a b) as [[? ->]|[? ->]]; tauto. }
  apply (ag_make_below (ag_of K (list_to_set dir) (upairs bi) (upairs un))).
  - apply ag_of_gok.
    + intros x y Hx%elem_of_list_to_set. apply HE in Hx. unfold K. clear -Hx. set_solver.
    + intros x y Hx%HU. unfold K. clear -Hx. set_solver.
    + intros x y Hx%HU. unfold K. clear -Hx. set_solver.
    + by apply upairs_lt.
    + by apply upairs_lt.
    + by apply H1.
    + by apply H2.
  - intros e He. cbn. by rewrite elem_of_list_to_set.
  - intros e He. cbn. apply elem_of_upairs. left. by destruct e.
  - intros e He. cbn. apply elem_of_upairs. left. by destruct e.
Qed.

(** Conversely a graph that was built stores the given edges. *)
Lemma mfor_directed_stored l g :
  gok g → (∀ e : arc, e ∈ l → e.1 ≠ e.2) → ∀ h, mfor l (λ e : arc, add_directed_raw e.1 e.2) g = (h, Ok tt) →
  gok h ∧ stored h (ends l ∪ g_nodes g) (list_to_set l ∪ g_dir g) (g_bi g) (g_un g).
Proof.
  revert g. induction l as [|[i j] l IH]; intros g Hg Hl h.
  { cbn. intros [= <-]. split; [done|]. unfold stored, ends. cbn. split_and!; [set_solver|set_solver|done|done]. }
  cbn [mfor fst snd]. unfold mthen, mbind'. assert (i ≠ j) as Hij by (apply (Hl (i, j)); left).
  assert (∀ e : arc, e ∈ l → e.1 ≠ e.2) as Hl' by (intros e He; apply Hl; by right).
  destruct (add_directed_raw_spec i j g Hg Hij) as [[-> Hi]|[[-> [Hn Hx]]|[[-> [Hn Hx]]|[-> (Hn & Ha & Hk)]]]]; try done.
  - intros E. destruct (IH g Hg Hl' h E) as [Hh (HN & HD & HB & HU)]. split; [done|].
    pose proof (gok_dirN _ Hg _ _ Hi) as Hv. unfold stored. rewrite HN, HD. unfold ends. cbn. clear -Hv Hi HB HU. split_and!; [set_solver|set_solver|done|done].
  - intros E. destruct (IH _ Hk Hl' h E) as [Hh (HN & HD & HB & HU)]. split; [done|].
    unfold stored. rewrite HN, HD. unfold ends. cbn. clear -HB HU. split_and!; [set_solver|set_solver|done|done].
Qed.
Lemma mfor_bidirected_stored l g :
  gok g → (∀ e : arc, e ∈ l → e.1 ≠ e.2) → ∀ h, mfor l (λ e : arc, add_bidirected_raw e.1 e.2) g = (h, Ok tt) →
  gok h ∧ stored h (ends l ∪ g_nodes g) (g_dir g) (upairs l ∪ g_bi g) (g_un g).
Proof.
  revert g. induction l as [|[i j] l IH]; intros g Hg Hl h.
  { cbn. intros [= <-]. split; [done|]. unfold stored, ends, upairs. cbn. split_and!; [set_solver|done|set_solver|done]. }
  cbn [mfor fst snd]. unfold mthen, mbind'. assert (i ≠ j) as Hij by (apply (Hl (i, j)); left).
  assert (∀ e : arc, e ∈ l → e.1 ≠ e.2) as Hl' by (intros e He; apply Hl; by right).
  destruct (add_bidirected_raw_spec i j g Hg Hij) as [[-> Hi]|[[-> [Hn Hx]]|[[-> [Hn Hx]]|[-> (Hn & Ha & Hk)]]]]; try done.
  - intros E. destruct (IH g Hg Hl' h E) as [Hh (HN & HD & HB & HU)]. split; [done|].
    pose proof (over_upair _ _ _ _ (gok_biN _ Hg) Hi) as Hv. unfold stored. rewrite HN, HB. unfold ends, upairs. cbn. clear -Hv Hi HD HU. split_and!; [set_solver|done|set_solver|done].
  - intros E. destruct (IH _ Hk Hl' h E) as [Hh (HN & HD & HB & HU)]. split; [done|].
    unfold stored. rewrite HN, HB. unfold ends, upairs. cbn. clear -HD HU. split_and!; [set_solver|done|set_solver|done].
Qed.
Lemma mfor_undirected_stored l g :
  gok g → (∀ e : arc, e ∈ l → e.1 ≠ e.2) → ∀ h, mfor l (λ e : arc, add_undirected_raw e.1 e.2) g = (h, Ok tt) →
  gok h ∧ stored h (ends l ∪ g_nodes g) (g_dir g) (g_bi g) (upairs l ∪ g_un g).
Proof.
  revert g. induction l as [|[i j] l IH]; intros g Hg Hl h.
  { cbn. intros [= <-]. split; [done|]. unfold stored, ends, upairs. cbn. split_and!; [set_solver|done|done|set_solver]. }
  cbn [mfor fst snd]. unfold mthen, mbind'. assert (i ≠ j) as Hij by (apply (Hl (i, j)); left).
  assert (∀ e : arc, e ∈ l → e.1 ≠ e.2) as Hl' by (intros e He; apply Hl; by right).
  destruct (add_undirected_raw_spec i j g Hg Hij) as [[-> Hi]|[[-> [Hn Hx]]|[[-> [Hn Hx]]|[-> (Hn & Ha & Hk)]]]]; try done.
  - intros E. destruct (IH g Hg Hl' h E) as [Hh (HN & HD & HB & HU)]. split; [done|].
    pose proof (over_upair _ _ _ _ (gok_unN _ Hg) Hi) as Hv. unfold stored. rewrite HN, HU. unfold ends, upairs. cbn. clear -Hv Hi HD HB. split_and!; [set_solver|done|done|set_solver].
  - intros E. destruct (IH _ Hk Hl' h E) as [Hh (HN & HD & HB & HU)]. split; [done|].
    unfold stored. rewrite HN, HU. unfold ends, upairs. cbn. clear -HD HB. split_and!; [set_solver|done|done|set_solver].
Qed.
Lemma ag_make_stored (N : nset) (dir bi un : list arc) h :
  (∀ e : arc, e ∈ dir ++ bi ++ un → e.1 ≠ e.2) → ag_make N dir bi un = Ok h →
  gok h ∧ stored h (ends dir ∪ ends bi ∪ ends un ∪ N) (list_to_set dir) (upairs bi) (upairs un).
Proof.
  intros Hne. unfold ag_make, ag_new, mthen, mbind'.
  pose proof (mfor_directed_stored dir (ag_init N) (gok_init N)) as H1. feed specialize H1. { intros e He. apply Hne. set_solver. }
  destruct (mfor dir _ _) as [g1 [[]|e]]; [|done]. destruct (H1 _ eq_refl) as [G1 (N1 & D1 & B1 & U1)].
  pose proof (mfor_bidirected_stored bi g1 G1) as H2. feed specialize H2. { intros e He. apply Hne. set_solver. }
  destruct (mfor bi _ _) as [g2 [[]|e]]; [|done]. destruct (H2 _ eq_refl) as [G2 (N2 & D2 & B2 & U2)].
  pose proof (mfor_undirected_stored un g2 G2) as H3. feed specialize H3. { intros e He. apply Hne. set_solver. }
  destruct (mfor un _ _) as [g3 [[]|e]]; [|done]. destruct (H3 _ eq_refl) as [G3 (N3 & D3 & B3 & U3)].
  intros [= <-]. split; [done|]. unfold stored. rewrite N3, D3, B3, U3, N2, D2, B2, U2, N1, D1, B1, U1. cbn. clear. split_and!; set_solver.
Qed.
