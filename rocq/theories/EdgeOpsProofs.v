From stdpp Require Import base list gmap sorting.
From Coq Require Import NArith Lia.
From Verif Require Import ListExtra KeySer KeySerSpec SortedMap Types TypesProofs SymbolTable AnnoMem AnnoSpec AnnoMemProofs AnnoMemQueries
  GraphSpec Adjacency AdjacencySpec Storage StorageSpec GraphApply TokenOps EdgeOps EdgeOpsSpec.

Lemma cname_compare_lex a b : cname_compare a b =
  lex2 N.compare anno_key_compare (cn_type a, AnnoKey (cn_name a) (cn_layer a)) (cn_type b, AnnoKey (cn_name b) (cn_layer b)).
Proof. done. Qed.
Global Instance cname_compare_order : CmpOrder cname_compare.
Proof.
  constructor.
  - intros [t n l] [t' n' l']. rewrite cname_compare_lex, (cmp_eq (lex2 _ _)). cbn. naive_solver.
  - intros a b. rewrite !cname_compare_lex. apply (cmp_anti (lex2 _ _)).
  - intros a b c. rewrite !cname_compare_lex. apply (cmp_trans (lex2 _ _)).
Qed.
Lemma anno_key_lt_name k k' : anno_key_compare k k' = Lt → lex_compare (ak_name k) (ak_name k') ≠ Gt.
Proof. rewrite anno_key_compare_lex. unfold lex2. cbn. by destruct (lex_compare _ _). Qed.
Lemma cname_lt a b : cname_compare a b = Lt → (cn_type a < cn_type b)%N ∨ (cn_type a = cn_type b ∧ lex_compare (cn_name a) (cn_name b) ≠ Gt).
Proof.
  rewrite cname_compare_lex. unfold lex2. cbn [fst snd]. destruct (N.compare_spec (cn_type a) (cn_type b)) as [E|E|E]; [|by left|done].
  intros H. right. split; [done|]. exact (anno_key_lt_name _ _ H).
Qed.
Lemma cname_above t n c : cname_compare (CName t n []) c ≠ Gt ↔ (t < cn_type c)%N ∨ (t = cn_type c ∧ lex_compare n (cn_name c) ≠ Gt).
Proof.
  rewrite cname_compare_lex. unfold lex2. cbn [fst snd cn_type cn_name cn_layer].
  destruct (N.compare_spec t (cn_type c)) as [E|E|E].
  - rewrite anno_key_compare_lex. unfold lex2. cbn [fst snd ak_name ak_ns]. pose proof (lex_nil_le (cn_layer c)).
    destruct (lex_compare n (cn_name c)); split; intros; try done; try (right; done); try lia.
    all: destruct H0 as [?|[_ ?]]; [lia|done].
  - split; [by left|done].
  - split; [done|]. intros [?|[? _]]; lia.
Qed.
Lemma lex_antisym a b : lex_compare a b ≠ Gt → lex_compare b a ≠ Gt → a = b.
Proof.
  intros H1 H2. destruct (lex_compare a b) eqn:E; [by apply (cmp_eq lex_compare)| |done].
  apply (cmp_gt_lt lex_compare) in E. by rewrite E in H2.
Qed.
Lemma take_while_in p l : StronglySorted (λ a b, p b = true → p a = true) l → ∀ c, c ∈ take_while p l ↔ c ∈ l ∧ p c = true.
Proof.
  induction l as [|x l IH]; intros Hs c; cbn; [set_solver|]. apply StronglySorted_inv in Hs as [Hs Hf]. rewrite Forall_forall in Hf.
  destruct (p x) eqn:E.
  - rewrite !elem_of_cons, IH by done. naive_solver.
  - rewrite elem_of_cons. split; [by intros ?%elem_of_nil|]. intros [[->|Hc] Hp]; [congruence|]. specialize (Hf c Hc Hp). congruence.
Qed.
Lemma sublist_NoDup {A} (l k : list A) : sublist l k → NoDup k → NoDup l.
Proof.
  induction 1 as [|x l k H IH|x l k H IH]; intros Hk; [done| |].
  - apply NoDup_cons in Hk as [Hx Hk]. apply NoDup_cons. split; [|by apply IH].
    intros Hin. apply Hx. eapply elem_of_submseteq; [exact Hin|by apply sublist_submseteq].
  - apply NoDup_cons in Hk as [_ Hk]. by apply IH.
Qed.
Lemma sublist_filter' {A} (P : A → Prop) `{!∀ x, Decision (P x)} (l : list A) : sublist (filter P l) l.
Proof. induction l as [|x l IH]; [constructor|]. rewrite filter_cons. destruct (decide (P x)); by constructor. Qed.
Lemma take_while_sublist p l : sublist (take_while p l) l.
Proof. induction l as [|x l IH]; cbn; [constructor|]. destruct (p x); [by constructor|]. apply sublist_nil_l. Qed.

Section Graph.
Context (cs : components) (W : cname → option component) (HG : holds_graph cs W).

Lemma names_nodup : NoDup cs.*1.
Proof. apply (al_sorted_NoDup cname_compare), HG. Qed.
Lemma ranged t n c : c ∈ (al_range cname_compare cs (Included (CName t n [])) Unbounded).*1 ↔
  is_Some (W c) ∧ ((t < cn_type c)%N ∨ (t = cn_type c ∧ lex_compare n (cn_name c) ≠ Gt)).
Proof.
  rewrite <- (hg_names _ _ HG), <- cname_above. rewrite !elem_of_list_fmap. unfold al_range. setoid_rewrite elem_of_list_filter.
  cbn [above below]. split.
  - intros ([c' o] & -> & H & Hin). cbn [fst] in *. split; [by exists (c', o)|]. by destruct (cname_compare _ c').
  - intros [([c' o] & -> & Hin) H]. cbn [fst] in *. exists (c', o). cbn [fst]. split_and!; [done| |done]. by destruct (cname_compare _ c').
Qed.
Lemma ranged_sorted t n : StronglySorted (λ a b, cname_compare a b = Lt) (al_range cname_compare cs (Included (CName t n [])) Unbounded).*1.
Proof.
  pose proof (al_sorted_filter cname_compare (λ x, above cname_compare (Included (CName t n [])) x.1 && below cname_compare Unbounded x.1 = true) cs (hg_sorted _ _ HG)) as Hs.
  unfold al_range. unfold al_sorted in Hs. revert Hs. generalize (filter (λ x, above cname_compare (Included (CName t n [])) x.1 && below cname_compare Unbounded x.1 = true) cs).
  intros l Hs. induction Hs as [|x l Hs IH Hf]; cbn; constructor; [done|]. by apply Forall_fmap.
Qed.
Lemma sorted_impl {A} (R S : A → A → Prop) l : StronglySorted R l → (∀ a b, a ∈ l → b ∈ l → R a b → S a b) → StronglySorted S l.
Proof.
  induction 1 as [|x l Hs IH Hf]; intros H; constructor.
  - apply IH. intros a b Ha Hb. apply H; by right.
  - rewrite Forall_forall in Hf. apply Forall_forall. intros y Hy. apply H; [by left|by right|by apply Hf].
Qed.
Lemma all_components_in ct name c : c ∈ all_components cs ct name ↔
  is_Some (W c) ∧ (∀ t, ct = Some t → cn_type c = t) ∧ (∀ n, name = Some n → cn_name c = n).
Proof.
  unfold all_components. destruct ct as [t|]; [destruct name as [n|]|].
  - rewrite take_while_in.
    + rewrite ranged, andb_true_iff. unfold same_name, same_type. rewrite !bool_decide_eq_true. split.
      * intros ((Hw & _) & -> & ->). split_and!; [done| |]; by intros ? [= <-].
      * intros (Hw & Ht & Hn). specialize (Ht t eq_refl). specialize (Hn n eq_refl). subst. split_and!; try done.
        right. split; [done|]. by rewrite lex_refl.
    + eapply sorted_impl; [apply ranged_sorted|]. intros a b Ha _ Hlt. apply ranged in Ha as [_ Ha].
      rewrite !andb_true_iff. unfold same_name, same_type. rewrite !bool_decide_eq_true. intros [<- <-].
      apply cname_lt in Hlt as [?|[E1 E2]]; [destruct Ha as [?|[? _]]; lia|].
      destruct Ha as [?|[_ Ha]]; [lia|]. split; [|done]. symmetry. by apply lex_antisym.
  - rewrite take_while_in.
    + rewrite ranged. unfold same_type. rewrite bool_decide_eq_true. split.
      * intros ((Hw & _) & ->). split_and!; [done| |]; [by intros ? [= <-]|done].
      * intros (Hw & Ht & _). specialize (Ht t eq_refl). subst. split_and!; try done. right. split; [done|]. apply lex_nil_le.
    + eapply sorted_impl; [apply ranged_sorted|]. intros a b Ha _ Hlt. apply ranged in Ha as [_ Ha].
      unfold same_type. rewrite !bool_decide_eq_true. intros <-. apply cname_lt in Hlt. destruct Ha as [?|[? _]], Hlt as [?|[? _]]; lia.
  - rewrite elem_of_list_filter, (hg_names _ _ HG). destruct name as [n|]; unfold same_name.
    + rewrite bool_decide_eq_true. naive_solver.
    + naive_solver.
Qed.
Lemma all_components_nodup ct name : NoDup (all_components cs ct name).
Proof.
  assert (∀ t n, NoDup (al_range cname_compare cs (Included (CName t n [])) Unbounded).*1) as Hr.
  { intros t n. eapply sublist_NoDup; [|exact names_nodup]. apply fmap_sublist. apply sublist_filter'. }
  unfold all_components. destruct ct as [t|]; [destruct name as [n|]|].
  - eapply sublist_NoDup; [apply take_while_sublist|apply Hr].
  - eapply sublist_NoDup; [apply take_while_sublist|apply Hr].
  - apply NoDup_filter, names_nodup.
Qed.

Lemma get_storage_iff c gs : get_storage cs c = Some gs ↔ (c, Some gs) ∈ cs.
Proof.
  unfold get_storage. rewrite <- (al_get_iff cname_compare) by apply HG.
  destruct (al_get cname_compare cs c) as [[g|]|]; cbn; split; congruence.
Qed.
Lemma get_storage_holds c gs C : get_storage cs c = Some gs → W c = Some C → holds_component gs C.
Proof. rewrite get_storage_iff. apply HG. Qed.
Lemma get_storage_named c gs : get_storage cs c = Some gs → is_Some (W c).
Proof. rewrite get_storage_iff, <- (hg_names _ _ HG). intros H. apply elem_of_list_fmap. by exists (c, Some gs). Qed.
End Graph.

Section Label.
Context (rx : bytes → option (bytes → bool)).
Lemma right_key_iff ns name k : right_key ns name k = true ↔ key_matches ns name k.
Proof.
  unfold right_key, key_matches. rewrite andb_true_iff, bool_decide_eq_true. destruct ns as [n|].
  - rewrite bool_decide_eq_true. naive_solver.
  - naive_solver.
Qed.
Lemma annos_exist gs C a b (f : anno_key → bool) (g : bytes → bool) : holds_component gs C →
  existsb (λ x, f x.1 && g x.2) (am_get_annotations (gs_annos gs) (Edge a b)) = true ↔
  ∃ k v, f k = true ∧ co_labels C !! (Edge a b, k) = Some v ∧ g v = true.
Proof.
  intros [_ (ops & outs & Hr & HL)]. destruct (inv_run_new edge_compare ops _ outs Hr) as [_ (leak & I & _)].
  pose proof (get_annotations_lemma edge_compare _ leak _ (Edge a b) I) as [_ HA]. rewrite <- HL in HA.
  rewrite existsb_exists. split.
  - intros ([k v] & Hin & [Hf Hg]%andb_true_iff). apply elem_of_list_In, HA in Hin. by exists k, v.
  - intros (k & v & Hf & Hl & Hg). exists (k, v). rewrite <- elem_of_list_In, HA. split; [done|]. cbn. by rewrite Hf, Hg.
Qed.
Lemma check_label el gs C a b : holds_component gs C → check_edge_label rx el gs a b = true ↔ label_ok rx (co_labels C) el a b.
Proof.
  intros HC. unfold check_edge_label, label_ok. destruct el as [[ns name val|ns name val|ns name pat|ns name pat]|]; [| | | |done].
  - etransitivity; [exact (annos_exist gs C a b (right_key ns name) (λ v, match val with Some w => bool_decide (w = v) | None => true end) HC)|]. cbn beta.
    setoid_rewrite right_key_iff. destruct val as [w|].
    + setoid_rewrite bool_decide_eq_true. naive_solver.
    + naive_solver.
  - etransitivity; [exact (annos_exist gs C a b (right_key ns name) (λ v, negb (bool_decide (val = v))) HC)|]. cbn beta. setoid_rewrite right_key_iff.
    setoid_rewrite negb_true_iff. setoid_rewrite bool_decide_eq_false. naive_solver.
  - destruct (rx pat) as [re|] eqn:E; [|naive_solver].
    etransitivity; [exact (annos_exist gs C a b (right_key ns name) re HC)|]. cbn beta. setoid_rewrite right_key_iff. naive_solver.
  - destruct (rx pat) as [re|] eqn:E; [|naive_solver].
    etransitivity; [exact (annos_exist gs C a b (right_key ns name) (λ v, negb (re v)) HC)|]. cbn beta. setoid_rewrite right_key_iff.
    setoid_rewrite negb_true_iff. naive_solver.
Qed.
End Label.

Lemma allowed_iff dist n : allowed dist n ↔ in_distance (min_dist dist) (max_dist dist) n.
Proof. unfold allowed, in_distance, min_dist, max_dist. destruct dist; naive_solver. Qed.

Lemma dedup_from_spec x l : StronglySorted N.le (x :: l) → NoDup (x :: dedup_from x l) ∧ ∀ y, y ∈ x :: dedup_from x l ↔ y ∈ x :: l.
Proof.
  revert x. induction l as [|z l IH]; intros x Hs; cbn [dedup_from].
  - split; [apply NoDup_singleton|done].
  - pose proof Hs as Hs'. apply StronglySorted_inv in Hs as [Hs Hf]. apply Forall_cons in Hf as [Hxz Hf]. destruct (decide (x = z)) as [->|Hn].
    + destruct (IH z Hs) as [H1 H2]. split; [done|]. intros y. rewrite H2. set_solver.
    + destruct (IH z Hs) as [H1 H2]. split.
      * constructor; [|done]. rewrite H2, elem_of_cons. intros [->|Hin]; [done|].
        apply StronglySorted_inv in Hs as [_ Hz]. rewrite Forall_forall in Hz. specialize (Hz x Hin). lia.
      * intros y. rewrite elem_of_cons, H2. set_solver.
Qed.
Lemma dedup_spec l : NoDup (dedup (merge_sort N.le l)) ∧ ∀ y, y ∈ dedup (merge_sort N.le l) ↔ y ∈ l.
Proof.
  pose proof (StronglySorted_merge_sort N.le l) as Hs. pose proof (merge_sort_Permutation N.le l) as Hp.
  destruct (merge_sort N.le l) as [|x r] eqn:E; cbn [dedup].
  - split; [constructor|]. intros y. by rewrite <- Hp.
  - destruct (dedup_from_spec x r Hs) as [H1 H2]. split; [done|]. intros y. by rewrite H2, Hp.
Qed.

Section Linked.
Context (cs : components) (W : cname → option component) (HG : holds_graph cs W).

Record made (q : edge_query) (op : edge_op) : Prop := {
  md_gs : ∀ gs, gs ∈ eo_gs op ↔ ∃ c, q_component q c ∧ get_storage cs c = Some gs;
  md_all : ∀ c, q_component q c → is_Some (W c) → is_Some (get_storage cs c);
  md_dist : eo_dist op = q_dist q;
  md_label : eo_label op = q_label q
}.
Definition q_names (q : edge_query) : list cname :=
  match q with
  | QDominance name _ _ => all_components cs (Some t_dominance) (Some name)
  | QPointing name _ _ => all_components cs (Some t_pointing) (Some name)
  | QPartOf _ => [CName t_part_of [] annis]
  end.
Lemma q_names_in q c : c ∈ q_names q ∧ is_Some (W c) ↔ q_component q c ∧ is_Some (W c).
Proof.
  destruct q; cbn [q_names q_component].
  - rewrite (all_components_in cs W HG). naive_solver.
  - rewrite (all_components_in cs W HG). naive_solver.
  - by rewrite elem_of_list_singleton.
Qed.
Lemma create_eq cheap q : ∃ r k, create cs cheap q = new_edge_op cs (q_names q) (q_dist q) (q_label q) r k.
Proof. destruct q; by eexists _, _. Qed.
Lemma create_made cheap q op : create cs cheap q = Some op → made q op ∧ eo_inverse op = false.
Proof.
  destruct (create_eq cheap q) as (r & k & ->). unfold new_edge_op. destruct (mapM (get_storage cs) (q_names q)) as [l|] eqn:E; [|done].
  intros [= <-]. apply mapM_Some in E. split; [|done].
  assert (∀ c, c ∈ q_names q → is_Some (get_storage cs c)) as Hall.
  { intros c Hc. apply elem_of_list_lookup in Hc as [i Hi]. destruct (Forall2_lookup_l _ _ _ _ _ E Hi) as (gs & _ & Hg). by exists gs. }
  constructor; cbn; [|  |done|done].
  - intros gs. split.
    + intros Hin. apply elem_of_list_lookup in Hin as [i Hi]. destruct (Forall2_lookup_r _ _ _ _ _ E Hi) as (c & Hc & Hg).
      exists c. split; [|done]. apply (q_names_in q c). split; [by eapply elem_of_list_lookup_2|]. by eapply get_storage_named.
    + intros (c & Hc & Hg). assert (c ∈ q_names q) as Hin by (apply q_names_in; split; [done|by eapply get_storage_named]).
      apply elem_of_list_lookup in Hin as [i Hi]. destruct (Forall2_lookup_l _ _ _ _ _ E Hi) as (gs' & Hi' & Hg').
      assert (gs' = gs) as -> by congruence. by eapply elem_of_list_lookup_2.
  - intros c Hc Hw. apply Hall. by apply q_names_in.
Qed.
Lemma create_some cheap q :
  is_Some (create cs cheap q) ↔ loaded cs (q_component q) ∧ match q with QPartOf _ => is_Some (W (CName 7 [] annis)) | _ => True end.
Proof.
  destruct (create_eq cheap q) as (r & k & ->). unfold new_edge_op.
  assert (is_Some (mapM (get_storage cs) (q_names q)) ↔ ∀ c, c ∈ q_names q → is_Some (get_storage cs c)) as Hm.
  { rewrite mapM_is_Some. by rewrite Forall_forall. }
  transitivity (is_Some (mapM (get_storage cs) (q_names q))).
  { destruct (mapM _ _); cbn; split; intros [? [=]]; by eexists. }
  rewrite Hm. split.
  - intros H. assert (match q with QPartOf _ => is_Some (W (CName 7 [] annis)) | _ => True end) as Hw.
    { destruct q; [done|done|]. destruct (H (CName 7 [] annis)) as [gs Hg]; [by left|]. by eapply get_storage_named. }
    split; [|done]. intros c o Hin Hc.
    assert (is_Some (W c)) as Hwc by (apply (hg_names _ _ HG), elem_of_list_fmap; by exists (c, o)).
    destruct (H c) as [gs Hg]; [by apply q_names_in|]. apply (get_storage_iff cs W HG) in Hg.
    assert (o = Some gs) as ->; [|done].
    apply (al_get_iff cname_compare) in Hin, Hg; [congruence|apply HG|apply HG].
  - intros [H Hw] c Hc. assert (is_Some (W c)) as Hwc.
    { destruct q; cbn [q_names] in Hc; [| |by apply elem_of_list_singleton in Hc as ->]; by apply (all_components_in cs W HG) in Hc as [? _]. }
    assert (q_component q c) as Hq by (by apply q_names_in).
    apply (hg_names _ _ HG), elem_of_list_fmap in Hwc as ([c' o] & -> & Hin). cbn [fst] in *. destruct (H c' o Hin Hq) as [gs ->].
    exists gs. by apply (get_storage_iff cs W HG).
Qed.

End Linked.
Section Linked2.
Context (rx : bytes → option (bytes → bool)) (cs : components) (W : cname → option component) (HG : holds_graph cs W).
Notation made := (made cs W).
(** Connected in one storage with the label *)
Definition connected_by (q : edge_query) (C : component) (a b : N) : Prop :=
  path_in_range (co_edges C) a b (min_dist (q_dist q)) (max_dist (q_dist q)) ∧ label_ok rx (co_labels C) (q_label q) a b.
Lemma linked_made q op a b : made q op →
  linked rx W q a b ↔ ∃ gs C, gs ∈ eo_gs op ∧ holds_component gs C ∧ (∃ c, q_component q c ∧ W c = Some C ∧ get_storage cs c = Some gs) ∧ connected_by q C a b.
Proof.
  intros M. unfold linked, connected_by, path_in_range. setoid_rewrite allowed_iff. split.
  - intros (c & C & Hc & HW & Hp & Hl). destruct (md_all _ _ _ _ M c Hc ltac:(by exists C)) as [gs Hg]. exists gs, C. split_and!; try done.
    + apply (md_gs _ _ _ _ M). by exists c.
    + by eapply get_storage_holds.
    + by exists c.
  - intros (gs & C & _ & _ & (c & Hc & HW & _) & Hp & Hl). by exists c, C.
Qed.
Lemma made_storage q op gs : made q op → gs ∈ eo_gs op → ∃ c C, q_component q c ∧ W c = Some C ∧ get_storage cs c = Some gs ∧ holds_component gs C.
Proof.
  intros M (c & Hc & Hg)%(md_gs _ _ _ _ M). destruct (get_storage_named cs W HG c gs Hg) as [C HW]. exists c, C. split_and!; try done.
  by eapply get_storage_holds.
Qed.
Lemma filter_lemma q op a b : made q op →
  (if eo_inverse op then q_usable W q b a else q_usable W q a b) →
  edge_filter rx op a b = true ↔ if eo_inverse op then linked rx W q b a else linked rx W q a b.
Proof.
  intros M Hu. unfold edge_filter. rewrite existsb_exists.
  assert (∀ x y gs, q_usable W q x y → gs ∈ eo_gs op →
    gs_is_connected gs x y (min_dist (eo_dist op)) (max_dist (eo_dist op)) && check_edge_label rx (eo_label op) gs x y = true ↔
    ∃ C, holds_component gs C ∧ (∃ c, q_component q c ∧ W c = Some C ∧ get_storage cs c = Some gs) ∧ connected_by q C x y) as Hone.
  { intros x y gs Hxy Hin. rewrite (md_dist _ _ _ _ M), (md_label _ _ _ _ M), andb_true_iff.
    assert (∀ c C, q_component q c → W c = Some C → holds_component gs C →
      gs_is_connected gs x y (min_dist (q_dist q)) (max_dist (q_dist q)) = true ∧ check_edge_label rx (q_label q) gs x y = true ↔ connected_by q C x y) as Hc.
    { intros c C Hc HW HC. destruct (Hxy c C Hc HW) as (Hl & _ & Hd). rewrite (check_label rx (q_label q) gs C x y HC).
      rewrite (im_is_connected _ _ (proj1 HC) x y _ _ Hl); [done|]. destruct Hd as [?|[? _]]; [by right|by left]. }
    split.
    - intros H. destruct (made_storage q op gs M Hin) as (c & C & H1 & H2 & H3 & H4). exists C. split_and!; [done|by exists c|]. by apply (Hc c C).
    - intros (C & H4 & (c & H1 & H2 & H3) & H5). by apply (Hc c C). }
  destruct (eo_inverse op).
  - rewrite (linked_made q op b a M). split.
    + intros (gs & Hin%elem_of_list_In & H). apply (Hone b a gs Hu Hin) in H as (C & ?). exists gs, C. naive_solver.
    + intros (gs & C & Hin & H). exists gs. split; [by apply elem_of_list_In|]. apply (Hone b a gs Hu Hin). by exists C.
  - rewrite (linked_made q op a b M). split.
    + intros (gs & Hin%elem_of_list_In & H). apply (Hone a b gs Hu Hin) in H as (C & ?). exists gs, C. naive_solver.
    + intros (gs & C & Hin & H). exists gs. split; [by apply elem_of_list_In|]. apply (Hone a b gs Hu Hin). by exists C.
Qed.
Lemma candidates_lemma q op a b gs : made q op → gs ∈ eo_gs op →
  (if eo_inverse op then q_usable W q b a else q_usable W q a b) →
  b ∈ edge_candidates rx op a gs ↔
    ∃ C, holds_component gs C ∧ (∃ c, q_component q c ∧ W c = Some C ∧ get_storage cs c = Some gs) ∧
         if eo_inverse op then connected_by q C b a else connected_by q C a b.
Proof.
  intros M Hin Hu. unfold edge_candidates. rewrite (md_dist _ _ _ _ M), (md_label _ _ _ _ M).
  assert (∀ c C, q_component q c → W c = Some C → holds_component gs C →
    b ∈ (if eo_inverse op then
           filter (λ n, check_edge_label rx (q_label q) gs n a = true) (gs_connected_inverse gs a (min_dist (q_dist q)) (max_dist (q_dist q)))
         else filter (λ n, check_edge_label rx (q_label q) gs a n = true) (gs_connected gs a (min_dist (q_dist q)) (max_dist (q_dist q)))) ↔
    if eo_inverse op then connected_by q C b a else connected_by q C a b) as Hc.
  { intros c C Hc HW HC. destruct (eo_inverse op); destruct (Hu c C Hc HW) as (Hl & Hr & Hd); rewrite elem_of_list_filter.
    - rewrite (check_label rx (q_label q) gs C b a HC), (im_inverse _ _ (proj1 HC) a b _ _ Hl Hr); [unfold connected_by; tauto|].
      destruct Hd as [?|[_ ?]]; [by right|by left].
    - rewrite (check_label rx (q_label q) gs C a b HC), (im_connected _ _ (proj1 HC) a b _ _ Hl); [unfold connected_by; tauto|].
      destruct Hd as [?|[? _]]; [by right|by left]. }
  split.
  - intros H. destruct (made_storage q op gs M Hin) as (c & C & H1 & H2 & H3 & H4). exists C. split_and!; [done|by exists c|]. by apply (Hc c C).
  - intros (C & H4 & (c & H1 & H2 & H3) & H5). by apply (Hc c C).
Qed.
Lemma retrieve_in op a b : b ∈ edge_retrieve rx op a ↔ ∃ gs, gs ∈ eo_gs op ∧ b ∈ edge_candidates rx op a gs.
Proof.
  assert (b ∈ dedup (merge_sort N.le (mjoin (edge_candidates rx op a <$> eo_gs op))) ↔ ∃ gs, gs ∈ eo_gs op ∧ b ∈ edge_candidates rx op a gs) as H.
  { rewrite (proj2 (dedup_spec _) b), elem_of_list_join. setoid_rewrite elem_of_list_fmap. naive_solver. }
  unfold edge_retrieve. destruct (eo_gs op) as [|gs [|g r]] eqn:E.
  - exact H.
  - setoid_rewrite elem_of_list_singleton. naive_solver.
  - exact H.
Qed.
Lemma retrieve_lemma q op a b : made q op →
  (if eo_inverse op then q_usable W q b a else q_usable W q a b) →
  b ∈ edge_retrieve rx op a ↔ if eo_inverse op then linked rx W q b a else linked rx W q a b.
Proof.
  intros M Hu. rewrite retrieve_in.
  transitivity (∃ gs C, gs ∈ eo_gs op ∧ holds_component gs C ∧ (∃ c, q_component q c ∧ W c = Some C ∧ get_storage cs c = Some gs) ∧
    if eo_inverse op then connected_by q C b a else connected_by q C a b).
  - split.
    + intros (gs & Hin & H). apply (candidates_lemma q op a b gs M Hin Hu) in H as (C & ?). exists gs, C. naive_solver.
    + intros (gs & C & Hin & H). exists gs. split; [done|]. apply (candidates_lemma q op a b gs M Hin Hu). by exists C.
  - destruct (eo_inverse op); by rewrite (linked_made q op _ _ M).
Qed.
Lemma retrieve_nodup q op a : made q op →
  (∀ c C, q_component q c → W c = Some C → in_limit (co_edges C) (max_dist (q_dist q)) ∧ range_ok (min_dist (q_dist q)) (max_dist (q_dist q))) →
  NoDup (edge_retrieve rx op a).
Proof.
  intros M Hu. unfold edge_retrieve. destruct (eo_gs op) as [|gs [|g r]] eqn:E.
  - apply dedup_spec.
  - destruct (made_storage q op gs M) as (c & C & H1 & H2 & _ & [HC _]); [rewrite E; by left|]. destruct (Hu c C H1 H2) as [Hl Hr].
    unfold edge_candidates. rewrite (md_dist _ _ _ _ M). destruct (eo_inverse op); apply NoDup_filter.
    + by apply HC.
    + by apply HC.
  - apply dedup_spec.
Qed.
Lemma inverse_made q op op' sc nw : made q op → edge_inverse sc nw op = Some op' → made q op' ∧ eo_inverse op' = negb (eo_inverse op).
Proof. intros [M1 M2 M3 M4]. unfold edge_inverse. destruct (forallb _ _); [|done]. intros [= <-]. by split. Qed.

Lemma arity_storages_in gs : gs ∈ arity_storages cs ↔ ∃ c, (cn_type c = 2%N ∨ cn_type c = 3%N) ∧ get_storage cs c = Some gs.
Proof.
  unfold arity_storages. rewrite elem_of_app, !elem_of_list_omap. setoid_rewrite (all_components_in cs W HG). unfold t_dominance, t_pointing. split.
  - intros [(c & (_ & Ht & _) & Hg)|(c & (_ & Ht & _) & Hg)]; exists c; (split; [|done]); [left|right]; by apply Ht.
  - intros (c & [Ht|Ht] & Hg); [left|right]; exists c; (split; [|done]); (split_and!; [by eapply get_storage_named|by intros ? [= <-]|done]).
Qed.
Lemma arity_lemma range n : loaded cs (λ c, cn_type c = 2%N ∨ cn_type c = 3%N) →
  arity_filter cs range n = true ↔ ∃ S, children W n S ∧ allowed range (size S).
Proof.
  intros Hl. set (S := list_to_set (C := gset N) (mjoin ((λ gs, gs_out gs n) <$> arity_storages cs))).
  assert (children W n S) as HS.
  { intros x. unfold S. rewrite elem_of_list_to_set, elem_of_list_join. setoid_rewrite elem_of_list_fmap. split.
    - intros (l & Hx & gs & -> & Hin). apply arity_storages_in in Hin as (c & Hc & Hg). destruct (get_storage_named cs W HG c gs Hg) as [C HW].
      destruct (get_storage_holds cs W HG c gs C Hg HW) as [HC _]. exists c, C. split_and!; [done|done|]. by apply (im_out _ _ HC).
    - intros (c & C & Hc & HW & He). assert (is_Some (W c)) as Hwc by (by exists C).
      apply (hg_names _ _ HG), elem_of_list_fmap in Hwc as ([c' o] & -> & Hin). cbn [fst] in *. destruct (Hl c' o Hin Hc) as [gs ->].
      assert (get_storage cs c' = Some gs) as Hg by (by apply (get_storage_iff cs W HG)).
      exists (gs_out gs n). destruct (get_storage_holds cs W HG c' gs C Hg HW) as [HC _]. split; [by apply (im_out _ _ HC)|].
      exists gs. split; [done|]. apply arity_storages_in. by exists c'. }
  assert (arity_filter cs range n = true ↔ allowed range (size S)) as ->.
  { unfold arity_filter. change (list_to_set (mjoin ((λ gs, gs_out gs n) <$> arity_storages cs))) with S. rewrite allowed_iff, andb_true_iff, N.leb_le.
    unfold in_distance, max_dist. destruct range; cbn; [rewrite N.leb_le|]; naive_solver. }
  split; [by exists S|]. intros (S' & HS' & Hs). assert (S' = S) as ->; [|done]. apply set_eq. intros x. by rewrite (HS' x), (HS x).
Qed.
End Linked2.
