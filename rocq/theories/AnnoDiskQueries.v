From stdpp Require Import base list gmap fin_maps sorting.
From Coq Require Import NArith Lia.
From Verif Require Import KeySer KeySerSpec KeySerProofs SortedMap DiskMap DiskMapSpec DiskMapProofs Types
  TypesProofs SymbolTable SymTabIface AnnoMem AnnoSpec AnnoMemProofs AnnoMemQueries AnnoDisk AnnoDiskSpec
  AnnoDiskProofs ListExtra.

Lemma mapM_total {A B} (f : A → option B) (g : A → B) l : (∀ x, x ∈ l → f x = Some (g x)) →
  mapM f l = Some (g <$> l).
Proof.
  induction l as [|x l IH]; intros Hf; [done|]. simpl. rewrite (Hf x) by (by left). simpl.
  rewrite IH by (intros; apply Hf; by right). done.
Qed.

Lemma mapM_rel {A B} (f : A → option B) (l : list A) :
  (∀ x, x ∈ l → ∃ y, f x = Some y) → NoDup l →
  (∀ x y z, x ∈ l → y ∈ l → f x = Some z → f y = Some z → x = y) →
  ∃ k, mapM f l = Some k ∧ (∀ y, y ∈ k ↔ ∃ x, x ∈ l ∧ f x = Some y) ∧ NoDup k.
Proof.
  intros Hf Hnd. induction Hnd as [|x l Hx Hnd IH]; intros Hinj; simpl.
  - exists []. split_and!; [done| |constructor]. intros y. split; [by intros ?%elem_of_nil|].
    intros (x & ?%elem_of_nil & _). done.
  - destruct IH as (k & Ek & Hk & Hndk).
    { intros y Hy. apply Hf. by right. }
    { intros a b z Ha Hb. apply Hinj; by right. }
    destruct (Hf x) as [y Hy]; [by left|]. rewrite Hy. simpl. rewrite Ek. simpl. exists (y :: k).
    split_and!; [done| |].
    + intros z. rewrite elem_of_cons, Hk. split.
      * intros [->|(x' & ? & ?)]; [exists x; split; [by left|done]|exists x'; split; [by right|done]].
      * intros (x' & [->|Hx']%elem_of_cons & E); [left; congruence|right; eauto].
    + constructor; [|done]. intros (x' & Hx' & E)%Hk. destruct Hx.
      rewrite (Hinj x x' y); [done|by left|by right|done|done].
Qed.

Definition nulfree (v : bytes) : Prop := Forall (λ b, b ≠ 0%N) v.
Lemma lex_nul v1 v2 a b : nulfree v1 → nulfree v2 →
  lex_compare (v1 ++ 0%N :: a) (v2 ++ 0%N :: b) =
  match lex_compare v1 v2 with Eq => lex_compare a b | c => c end.
Proof.
  intros H1. revert v2. induction H1 as [|x v1 Hx H1 IH]; intros v2 H2; destruct H2 as [|y v2 Hy H2]; simpl.
  - done.
  - destruct y; done.
  - destruct x; done.
  - rewrite IH by done. by destruct (x ?= y)%N.
Qed.

Section queries.
Context {T : Type} `{Countable T} (P : T → Prop) (tcmp : T → T → comparison) `{!CmpOrder tcmp} (w : nat)
  (ser : T → bytes) (parse : bytes → res T).
Context (IO : item_ok P tcmp w ser parse).
Implicit Types (M : gmap (T * anno_key) bytes) (s : ad T).
Notation dinvar := (dinvar P tcmp ser).

Lemma dget_value s M i ak : dinvar s M → P i → ad_get_value ser s i ak = M !! (i, ak).
Proof.
  intros I Hi. unfold ad_get_value. destruct (st_get_symbol (d_symbols s) ak) as [k|] eqn:Ek.
  - apply st_ok_sym in Ek; [|apply I]. destruct (M !! (i, ak)) as [v|] eqn:HM.
    + apply (repr_get _ _ _ _ (a_c _ _ _ _ _ I)). by apply (a_RC P tcmp w ser parse IO s M i ak k v).
    + apply (repr_get_none _ _ _ (a_c _ _ _ _ _ I)). intros v Hv.
      apply (a_RC P tcmp w ser parse IO s M i ak k v) in Hv; [|done..]. congruence.
  - destruct (M !! (i, ak)) eqn:HM; [|done]. destruct (a_has _ _ _ _ _ I i ak) as [k Hk]; [by eexists|].
    apply st_ok_sym in Hk; [|apply I]. congruence.
Qed.

Lemma dhas_value s M i ak : dinvar s M → c1_clean (d_container s) → P i →
  ad_has_value ser s i ak = true ↔ is_Some (M !! (i, ak)).
Proof.
  intros I Hc Hi. unfold ad_has_value. destruct (st_get_symbol (d_symbols s) ak) as [k|] eqn:Ek.
  - apply st_ok_sym in Ek; [|apply I]. rewrite (repr_contains _ _ _ (a_c _ _ _ _ _ I) Hc). split.
    + intros [v Hv]. apply (a_RC P tcmp w ser parse IO s M i ak k v) in Hv; [|done..]. by eexists.
    + intros [v HM]. exists v. by apply (a_RC P tcmp w ser parse IO s M i ak k v).
  - split; [done|]. intros HM. destruct (a_has _ _ _ _ _ I i ak HM) as [k Hk].
    apply st_ok_sym in Hk; [|apply I]. congruence.
Qed.

Lemma parse_container s M i k ak : dinvar s M → P i → st_get_value (d_symbols s) k = Some ak →
  parse_container_key w parse s (container_key ser i k) = Some (i, ak).
Proof.
  intros I Hi Hk. unfold parse_container_key.
  rewrite (parse_symbol_key P tcmp w ser parse IO) by (by eapply (a_fits P tcmp ser s M)).
  unfold container_key. rewrite take_app_alt by (symmetry; apply (it_len _ _ _ _ _ IO)).
  rewrite (key_parse _ _ _ _ (it_key _ _ _ _ _ IO)) by done. unfold resolve. by rewrite Hk.
Qed.

Lemma dget_annotations s M i : dinvar s M → P i →
  ∃ l, ad_get_annotations w ser parse s i = Some l ∧ NoDup l.*1 ∧
    ∀ ak av, (ak, av) ∈ l ↔ M !! (i, ak) = Some av.
Proof.
  intros I Hi. unfold ad_get_annotations.
  destruct (container_range P tcmp w ser parse IO s M i I Hi) as (l & -> & Hs & Hl). simpl.
  set (g := λ e : bytes * bytes, (resolve s (default 0 (parse_symbol (drop w e.1))), e.2)).
  assert (∀ ak k v, st_get_value (d_symbols s) k = Some ak → g (container_key ser i k, v) = (ak, v)) as Hg.
  { intros ak k v Hk. unfold g. simpl.
    rewrite (parse_symbol_key P tcmp w ser parse IO) by (by eapply (a_fits P tcmp ser s M)). simpl.
    unfold resolve. by rewrite Hk. }
  rewrite (mapM_total _ g).
  2:{ intros [b v] Hin. apply Hl in Hin as (ak & k & HM & Hk & ->). simpl.
      rewrite (parse_container s M i k ak I Hi Hk). simpl. by rewrite (Hg ak). }
  eexists. split; [done|]. split.
  - rewrite <- list_fmap_compose. apply NoDup_fmap_inj_on.
    + apply (NoDup_fmap_1 fst). by apply (al_sorted_NoDup lex_compare).
    + intros [b1 v1] [b2 v2] H1 H2. apply Hl in H1 as (ak1 & k1 & HM1 & Hk1 & ->).
      apply Hl in H2 as (ak2 & k2 & HM2 & Hk2 & ->).
      cbn [compose]. rewrite (Hg ak1), (Hg ak2) by done. simpl. intros ->.
      rewrite (st_ok_inj _ ak2 k1 k2 (a_sym _ _ _ _ _ I) Hk1 Hk2). by simplify_eq.
  - intros ak av. rewrite elem_of_list_fmap. split.
    + intros ([b v] & E & Hin). apply Hl in Hin as (ak' & k & HM & Hk & ->).
      rewrite (Hg ak') in E by done. by simplify_eq.
    + intros HM. destruct (a_has _ _ _ _ _ I i ak) as [k Hk]; [by eexists|].
      exists (container_key ser i k, av). rewrite (Hg ak) by done. split; [done|]. apply Hl. eauto.
Qed.

Lemma dnumber s M : dinvar s M →
  ad_number_of_annotations s = Some (size M) ∧
  ∃ b, ad_is_empty s = Some b ∧ (b = true ↔ M = ∅).
Proof.
  intros I. split.
  - unfold ad_number_of_annotations. destruct (repr_iter _ _ (a_c _ _ _ _ _ I)) as (l & -> & Hs & Hl). simpl. f_equal.
    unfold size, map_size.
    set (g := λ e : T * anno_key * bytes, (container_key ser e.1.1 (default 0 (st_get_symbol (d_symbols s) e.1.2)), e.2)).
    assert (∀ ak k v i, st_get_value (d_symbols s) k = Some ak → g (i, ak, v) = (container_key ser i k, v)) as Hg.
    { intros ak k v i Hk. unfold g. simpl. apply st_ok_sym in Hk; [|apply I]. by rewrite Hk. }
    assert (l ≡ₚ g <$> map_to_list M) as ->; [|by rewrite fmap_length].
    apply NoDup_Permutation.
    + apply (NoDup_fmap_1 fst). by apply (al_sorted_NoDup lex_compare).
    + apply NoDup_fmap_inj_on; [apply NoDup_map_to_list|].
      intros [[i1 ak1] v1] [[i2 ak2] v2] HM1%elem_of_map_to_list HM2%elem_of_map_to_list.
      destruct (a_has _ _ _ _ _ I i1 ak1) as [k1 Hk1]; [by eexists|].
      destruct (a_has _ _ _ _ _ I i2 ak2) as [k2 Hk2]; [by eexists|].
      rewrite (Hg ak1 k1), (Hg ak2 k2) by done. intros [= E ->].
      destruct (container_key_inj P tcmp w ser parse IO i1 i2 k1 k2) as [-> ->];
        [by eapply I|by eapply I|by eapply (a_fits P tcmp ser s M)|by eapply (a_fits P tcmp ser s M)|done|].
      by simplify_eq.
    + intros [b v]. rewrite Hl, elem_of_list_fmap. split.
      * intros (i & ak & k & HM & Hk & ->). exists (i, ak, v). rewrite (Hg ak k) by done.
        split; [done|by apply elem_of_map_to_list].
      * intros ([[i ak] v'] & E & HM%elem_of_map_to_list).
        destruct (a_has _ _ _ _ _ I i ak) as [k Hk]; [by eexists|]. rewrite (Hg ak k) in E by done.
        simplify_eq. by exists i, ak, k.
  - destruct (repr_is_empty _ _ (a_c _ _ _ _ _ I)) as (b & E & Hb). exists b. split; [done|]. rewrite Hb. split.
    + intros Hn. apply map_empty. intros [i ak]. destruct (M !! (i, ak)) as [v|] eqn:HM; [|done].
      destruct (a_has _ _ _ _ _ I i ak) as [k Hk]; [by eexists|].
      destruct (Hn (container_key ser i k) v). by exists i, ak, k.
    + intros -> b' v (i & ak & k & HM & _). by rewrite lookup_empty in HM.
Qed.

(** Keys *)
Lemma dannotation_keys s M : dinvar s M →
  NoDup (ad_annotation_keys s) ∧ ∀ ak, ak ∈ ad_annotation_keys s ↔ ∃ i, is_Some (M !! (i, ak)).
Proof.
  intros I. destruct (a_sizes _ _ _ _ _ I) as [Hs Hc]. unfold ad_annotation_keys. split.
  - by apply (al_sorted_NoDup anno_key_compare).
  - intros ak. rewrite elem_of_list_fmap. split.
    + intros ([ak' n] & -> & Hin). apply (al_get_iff anno_key_compare) in Hin; [|done]. simpl. rewrite Hc in Hin.
      destruct (decide _) as [|Hn]; [done|]. by apply count_pos.
    + intros [i HM]. exists (ak, count_key M ak). split; [done|]. apply (al_get_iff anno_key_compare); [done|].
      rewrite Hc. rewrite decide_False; [done|]. intros H0. rewrite (count_zero _ _ i H0) in HM. by destruct HM.
Qed.

Lemma dqnames s M name : dinvar s M →
  NoDup (ad_get_qnames s name) ∧ ∀ ak, ak ∈ ad_get_qnames s name ↔ ak_name ak = name ∧ ∃ i, is_Some (M !! (i, ak)).
Proof.
  intros I. destruct (dannotation_keys s M I) as [Hnd Hin]. destruct (a_sizes _ _ _ _ _ I) as [Hs _].
  assert (ad_get_qnames s name = filter (λ k, ak_name k = name) (ad_annotation_keys s)) as ->.
  { unfold ad_get_qnames, ad_annotation_keys, al_range. rewrite take_name_filter.
    - clear -Hs. induction (d_sizes s) as [|[k n] l IH]; [done|]. apply al_sorted_inv in Hs as [Hs _].
      rewrite !filter_cons, !fmap_cons, !filter_cons. cbn [fst]. rewrite <- IH by done.
      destruct (decide (ak_name k = name)) as [<-|Hne].
      + rewrite decide_True; [by rewrite fmap_cons, filter_cons, decide_True by done|].
        simpl. unfold anno_key_compare. simpl. rewrite lex_refl. by destruct (ak_ns k).
      + destruct (decide _); [|done]. by rewrite fmap_cons, filter_cons, decide_False by done.
    - by apply al_sorted_filter.
    - apply Forall_forall. intros [k n] Hk. apply elem_of_list_filter in Hk as [Hk _]. simpl in *.
      rewrite andb_true_r in Hk. unfold anno_key_compare in Hk. simpl in Hk.
      intros Hlt. rewrite (cmp_anti lex_compare (ak_name k) name), Hlt in Hk. done. }
  split; [by apply NoDup_filter|]. intros ak. rewrite elem_of_list_filter, Hin. done.
Qed.

Lemma dsearch_symbols s M ns name : dinvar s M →
  NoDup (search_symbols s ns name) ∧
  (∀ k, k ∈ search_symbols s ns name → ∃ ak, st_get_value (d_symbols s) k = Some ak ∧ key_matches ns name ak) ∧
  ∀ k ak i, is_Some (M !! (i, ak)) → st_get_value (d_symbols s) k = Some ak → key_matches ns name ak →
    k ∈ search_symbols s ns name.
Proof.
  intros I. unfold search_symbols. destruct (dqnames s M name I) as [Hnd Hin].
  set (keys := match ns with Some ns => [AnnoKey name ns] | None => ad_get_qnames s name end).
  assert (NoDup keys) as Hndk by (unfold keys; destruct ns; [apply NoDup_singleton|done]).
  split_and!.
  - apply NoDup_omap_inj; [done|]. intros x y z _ _ Hx Hy.
    apply st_ok_sym in Hx; [|apply I]. apply st_ok_sym in Hy; [|apply I]. congruence.
  - intros k (ak & Hak & Hk)%elem_of_list_omap. exists ak. split; [by apply st_ok_sym; [apply I|]|].
    unfold keys in Hak. unfold key_matches. destruct ns as [ns|].
    + apply elem_of_list_singleton in Hak as ->. done.
    + apply Hin in Hak as [? _]. done.
  - intros k ak i HM Hk [Hn Hns]. apply elem_of_list_omap. exists ak.
    split; [|by apply st_ok_sym; [apply I|]]. unfold keys. destruct ns as [ns|].
    + destruct ak as [a b]. simpl in *. subst. by left.
    + apply Hin. eauto.
Qed.

(** Scanning the inverse index *)
Definition in_scan (lower upper : bytes) (j : T) (v : bytes) : Prop :=
  lex_compare (lower ++ 0%N :: node_min) (v ++ 0%N :: ser j) ≠ Gt ∧
  lex_compare (v ++ 0%N :: ser j) (upper ++ 0%N :: node_max) = Lt.

Lemma parse_qname s M j k ak v : dinvar s M → P j → st_get_value (d_symbols s) k = Some ak →
  parse_qname_key w parse s (qname_key (ser j) k v) = Some (j, ak).
Proof.
  intros I Hj Hk. unfold parse_qname_key.
  assert (length (qname_key (ser j) k v) = 8 + length v + 1 + w) as Hl.
  { unfold qname_key. rewrite !app_length, be_bytes_length, (it_len _ _ _ _ _ IO). simpl. lia. }
  rewrite decide_True by lia. rewrite Hl.
  assert (drop (8 + length v + 1 + w - w) (qname_key (ser j) k v) = ser j) as ->.
  { unfold qname_key. rewrite !(assoc_L (++)). apply drop_app_alt. rewrite !app_length, be_bytes_length. simpl. lia. }
  rewrite (key_parse _ _ _ _ (it_key _ _ _ _ _ IO)) by done.
  assert (take 8 (qname_key (ser j) k v) = be_bytes 8 (N.of_nat k)) as ->.
  { unfold qname_key. apply take_app_alt. by rewrite be_bytes_length. }
  unfold parse_symbol. rewrite <- (app_nil_r (be_bytes 8 _)).
  rewrite (uint_roundtrip 8) by (apply sym_fits8; by eapply (a_fits P tcmp ser s M)).
  rewrite Nat2N.id. unfold resolve. by rewrite Hk.
Qed.

Lemma scan_bounds k k' lower upper j v : sym_fits k → sym_fits k' →
  lower_ok lex_compare (Included (qname_key node_min k lower)) (qname_key (ser j) k' v) ∧
  upper_ok lex_compare (Excluded (qname_key node_max k upper)) (qname_key (ser j) k' v) ↔
  k' = k ∧ in_scan lower upper j v.
Proof.
  intros Hk Hk'. unfold lower_ok, upper_ok, qname_key, in_scan.
  rewrite !(lex_app_same (be_bytes 8 _) _ (be_bytes 8 _)) by (by rewrite !be_bytes_length).
  destruct (decide (k' = k)) as [->|Hne].
  - rewrite lex_refl. tauto.
  - split; [|naive_solver]. intros [H1 H2]. exfalso.
    rewrite (uint_order 8) in H1 by (by apply sym_fits8). rewrite (uint_order 8) in H2 by (by apply sym_fits8).
    destruct (N.of_nat k ?= N.of_nat k')%N eqn:E.
    + apply N.compare_eq_iff in E. lia.
    + apply N.compare_lt_iff in E. rewrite (proj2 (N.compare_gt_iff _ _)) in H2 by done. done.
    + done.
Qed.

Lemma scan_no_panic k lower upper : lex_compare (lower ++ 0%N :: node_min) (upper ++ 0%N :: node_max) ≠ Gt →
  range_panics lex_compare (Included (qname_key node_min k lower)) (Excluded (qname_key node_max k upper)) = false.
Proof.
  intros Hlu. unfold range_panics, qname_key. rewrite lex_app_same by (by rewrite !be_bytes_length). rewrite lex_refl.
  simpl app. by destruct (lex_compare _ _).
Qed.

Lemma scan_lemma s M lower upper syms : dinvar s M → 
  lex_compare (lower ++ 0%N :: node_min) (upper ++ 0%N :: node_max) ≠ Gt →
  NoDup syms → (∀ k, k ∈ syms → is_Some (st_get_value (d_symbols s) k)) →
  ∃ l, scan w parse s lower upper syms = Some l ∧ NoDup l ∧
    ∀ j ak, (j, ak) ∈ l ↔
      ∃ k v, k ∈ syms ∧ st_get_value (d_symbols s) k = Some ak ∧ M !! (j, ak) = Some v ∧ in_scan lower upper j v.
Proof.
  intros I Hlu Hnd Hsym. induction Hnd as [|k syms Hk Hnd IH]; simpl.
  { exists []. split_and!; [done|constructor|]. intros j ak. split; [by intros ?%elem_of_nil|].
    intros (k & v & ?%elem_of_nil & _). done. }
  destruct IH as (l2 & E2 & Hnd2 & Hl2); [intros k' ?; apply Hsym; by right|].
  destruct (Hsym k) as [ak Hak]; [by left|].
  destruct (repr_range _ _ _ _ (a_q _ _ _ _ _ I) (scan_no_panic k lower upper Hlu)) as (l & -> & Hs & Hl). simpl.
  assert (∀ b x, (b, x) ∈ l ↔ x = true ∧ ∃ j v, M !! (j, ak) = Some v ∧ in_scan lower upper j v ∧ b = qname_key (ser j) k v) as Hl'.
  { intros b x. rewrite Hl. split.
    - intros [(-> & j & ak' & k' & v & HM & Hk' & ->) Hb].
      apply scan_bounds in Hb as [-> Hin]; [|by eapply (a_fits P tcmp ser s M)..].
      assert (ak' = ak) as -> by congruence. eauto 10.
    - intros (-> & j & v & HM & Hin & ->). split; [split; [done|]; by exists j, ak, k, v|].
      apply scan_bounds; [by eapply (a_fits P tcmp ser s M)..|done]. }
  destruct (mapM_rel (λ e : bytes * bool, parse_qname_key w parse s e.1) l) as (l1 & -> & Hl1 & Hnd1).
  { intros [b x] Hb. apply Hl' in Hb as (-> & j & v & HM & Hin & ->). exists (j, ak). simpl.
    eapply parse_qname; [done|by eapply I|done]. }
  { apply (NoDup_fmap_1 fst). by apply (al_sorted_NoDup lex_compare). }
  { intros [b1 x1] [b2 x2] z H1 H2. apply Hl' in H1 as (-> & j1 & v1 & HM1 & Hin1 & ->).
    apply Hl' in H2 as (-> & j2 & v2 & HM2 & Hin2 & ->). simpl.
    rewrite (parse_qname s M j1 k ak), (parse_qname s M j2 k ak) by (done || by eapply I).
    intros [= <-] [= ->]. by simplify_eq. }
  simpl. rewrite E2. simpl. eexists. split; [done|].
  assert (∀ j ak', (j, ak') ∈ l1 ↔ ak' = ak ∧ ∃ v, M !! (j, ak) = Some v ∧ in_scan lower upper j v) as Hm1.
  { intros j ak'. rewrite Hl1. split.
    - intros ([b x] & Hb & E). apply Hl' in Hb as (-> & j' & v & HM & Hin & ->). simpl in E.
      rewrite (parse_qname s M j' k ak) in E by (done || by eapply I). simplify_eq. eauto.
    - intros (-> & v & HM & Hin). exists (qname_key (ser j) k v, true). split; [apply Hl'; eauto 10|]. simpl.
      eapply parse_qname; [done|by eapply I|done]. }
  split.
  - apply NoDup_app. split_and!; [done| |done]. intros [j ak'] (-> & v & HM & Hin)%Hm1.
    intros (k' & v' & Hk' & Hak' & _)%Hl2. destruct Hk.
    by rewrite (st_ok_inj _ ak k k' (a_sym _ _ _ _ _ I) Hak Hak').
  - intros j ak'. rewrite elem_of_app, Hm1, Hl2. split.
    + intros [(-> & v & HM & Hin)|(k' & v & Hk' & ?)].
      * exists k, v. split; [by left|done].
      * exists k', v. split; [by right|done].
    + intros (k' & v & [->|Hk']%elem_of_cons & Hak' & HM & Hin).
      * left. assert (ak' = ak) as -> by congruence. eauto.
      * right. eauto 10.
Qed.

(** The three kinds of ranges *)
Lemma min_le j : P j → lex_compare node_min (ser j) ≠ Gt.
Proof. apply (it_min _ _ _ _ _ IO). Qed.
Lemma lt_max j : P j → lex_compare (ser j) node_max = Lt.
Proof. apply (it_max _ _ _ _ _ IO). Qed.
Lemma node_min_max : lex_compare node_min node_max = Lt.
Proof. done. Qed.
Lemma char_max_nulfree : nulfree char_max.
Proof. by repeat constructor. Qed.

Lemma in_scan_exact val j v : P j → nulfree val → nulfree v → in_scan val val j v ↔ v = val.
Proof.
  intros Hj Hval Hv. unfold in_scan. rewrite !lex_nul by done. split.
  - intros [H1 H2]. destruct (lex_compare val v) eqn:E.
    + by apply (cmp_eq lex_compare) in E.
    + rewrite (cmp_anti lex_compare val v), E in H2. done.
    + done.
  - intros ->. rewrite lex_refl. split; [by apply min_le|by apply lt_max].
Qed.
Lemma in_scan_any j v : P j → value_ok v → in_scan [] char_max j v.
Proof.
  intros Hj [Hv Hc]. unfold in_scan. rewrite !lex_nul by (done || apply char_max_nulfree || constructor).
  rewrite (Hc v) by done. split; [|done]. destruct v; [|done]. by apply min_le.
Qed.
Lemma in_scan_prefix p j v : P j → value_ok v → p `prefix_of` v → in_scan p (p ++ char_max) j v.
Proof.
  intros Hj [Hv Hc] [r ->]. unfold in_scan. rewrite <- !(assoc_L (++)), !lex_app_l.
  apply Forall_app in Hv as [_ Hr].
  change (0%N :: node_min) with ([] ++ 0%N :: node_min). rewrite !lex_nul by (done || apply char_max_nulfree || constructor).
  rewrite (Hc r) by (by exists p). split; [|done]. destruct r; [|done]. by apply min_le.
Qed.

Definition values_ok M : Prop := ∀ i ak v, M !! (i, ak) = Some v → value_ok v.

Lemma matching_lemma s M ns name lower upper : dinvar s M →
  lex_compare (lower ++ 0%N :: node_min) (upper ++ 0%N :: node_max) ≠ Gt →
  ∃ l, scan w parse s lower upper (search_symbols s ns name) = Some l ∧ NoDup l ∧
    ∀ j ak, (j, ak) ∈ l ↔ key_matches ns name ak ∧ ∃ v, M !! (j, ak) = Some v ∧ in_scan lower upper j v.
Proof.
  intros I Hlu. destruct (dsearch_symbols s M ns name I) as (Hnd & H1 & H2).
  destruct (scan_lemma s M lower upper (search_symbols s ns name) I Hlu Hnd) as (l & El & Hndl & Hl).
  { intros k Hk. destruct (H1 k Hk) as (ak & ? & _). by eexists. }
  exists l. split_and!; [done..|]. intros j ak. rewrite Hl. split.
  - intros (k & v & Hk & Hak & HM & Hin). split; [|by eauto].
    destruct (H1 k Hk) as (ak' & ? & ?). by simplify_eq.
  - intros (Hkm & v & HM & Hin). destruct (a_has _ _ _ _ _ I j ak) as [k Hk]; [by eexists|].
    exists k, v. split_and!; [|done..]. eapply H2; [by eexists|done|done].
Qed.

Lemma matching_any s M ns name : dinvar s M → values_ok M →
  ∃ l, ad_matching_items w parse s ns name None = Some l ∧ NoDup l ∧
    ∀ j ak, (j, ak) ∈ l ↔ key_matches ns name ak ∧ is_Some (M !! (j, ak)).
Proof.
  intros I HV. unfold ad_matching_items. simpl.
  destruct (matching_lemma s M ns name [] char_max I) as (l & El & Hnd & Hl); [done|].
  exists l. split_and!; [done..|]. intros j ak. rewrite Hl. split.
  - intros (? & v & HM & _). split; [done|by eexists].
  - intros (? & v & HM). split; [done|]. exists v. split; [done|]. apply in_scan_any; [by eapply I|by eapply HV].
Qed.

Lemma filter_value_elem s M f l j ak : dinvar s M → P j →
  (j, ak) ∈ filter_value ser s f l ↔ (j, ak) ∈ l ∧ ∃ v, M !! (j, ak) = Some v ∧ f v = true.
Proof.
  intros I Hj. unfold filter_value. rewrite elem_of_list_filter. simpl. rewrite (dget_value s M j ak I Hj).
  destruct (M !! (j, ak)); naive_solver.
Qed.

Lemma dexact_search s M ns name value : dinvar s M → values_ok M →
  (∀ v, value = VSome v → nulfree v) →
  ∃ l, ad_exact_search w ser parse s ns name value = Some l ∧ NoDup l ∧
    ∀ j ak, (j, ak) ∈ l ↔ key_matches ns name ak ∧ ∃ v, M !! (j, ak) = Some v ∧ value_matches value v.
Proof.
  intros I HV Hval. destruct value as [|val|val]; simpl.
  - destruct (matching_any s M ns name I HV) as (l & El & Hnd & Hl). exists l. split_and!; [done..|].
    intros j ak. rewrite Hl. split; intros [? Hx]; (split; [done|]); [destruct Hx as [v ?]; by exists v|].
    destruct Hx as (v & ? & _). by exists v.
  - unfold ad_matching_items. simpl.
    destruct (matching_lemma s M ns name val val I) as (l & El & Hnd & Hl).
    { rewrite lex_app_l. done. }
    exists l. split_and!; [done..|]. intros j ak. rewrite Hl. f_equiv. split.
    + intros (v & HM & Hin). exists v. split; [done|].
      apply in_scan_exact in Hin; [done|by eapply I|by apply Hval|by eapply HV].
    + intros (v & HM & ->). exists val. split; [done|]. apply in_scan_exact; [by eapply I|by eapply HV..|done].
  - destruct (matching_any s M ns name I HV) as (l & -> & Hnd & Hl). simpl. eexists. split; [done|].
    split; [by apply NoDup_filter|]. intros j ak. split.
    + intros Hin. assert (P j) as Hj.
      { unfold filter_value in Hin. apply elem_of_list_filter in Hin as [_ Hin].
        apply Hl in Hin as [_ [v ?]]. by eapply I. }
      apply (filter_value_elem s M) in Hin as (Hin & v & HM & Hv); [|done..]. apply Hl in Hin as [? _].
      split; [done|]. exists v. split; [done|]. simpl. by apply negb_true_iff, bool_decide_eq_false in Hv.
    + intros (? & v & HM & Hv). apply (filter_value_elem s M); [done|by eapply I|]. split; [apply Hl; split; [done|by eexists]|].
      exists v. split; [done|]. apply negb_true_iff. by apply bool_decide_eq_false.
Qed.

Lemma dregex_search s M ns name (re : bytes → bool) (prefix : bytes) (negated : bool) : dinvar s M → values_ok M →
  (∀ v, re v = true → prefix `prefix_of` v) →
  ∃ l, ad_regex_search w ser parse s ns name (Some (re, prefix)) negated = Some l ∧ NoDup l ∧
    ∀ j ak, (j, ak) ∈ l ↔ key_matches ns name ak ∧ ∃ v, M !! (j, ak) = Some v ∧ re v = negb negated.
Proof.
  intros I HV Hre. simpl. destruct negated; simpl.
  - destruct (matching_any s M ns name I HV) as (l & -> & Hnd & Hl). simpl. eexists. split; [done|].
    split; [by apply NoDup_filter|]. intros j ak. split.
    + intros Hin. assert (P j) as Hj.
      { unfold filter_value in Hin. apply elem_of_list_filter in Hin as [_ Hin].
        apply Hl in Hin as [_ [v ?]]. by eapply I. }
      apply (filter_value_elem s M) in Hin as (Hin & v & HM & Hv); [|done..]. apply Hl in Hin as [? _].
      split; [done|]. exists v. split; [done|]. by apply negb_true_iff in Hv.
    + intros (? & v & HM & Hv). apply (filter_value_elem s M); [done|by eapply I|]. split; [apply Hl; split; [done|by eexists]|].
      exists v. split; [done|]. by apply negb_true_iff.
  - unfold ad_matching_by_prefix.
    destruct (matching_lemma s M ns name prefix (prefix ++ char_max) I) as (l & -> & Hnd & Hl).
    { rewrite <- (assoc_L (++)), lex_app_l. done. }
    simpl. eexists. split; [done|]. split; [by apply NoDup_filter|]. intros j ak. split.
    + intros Hin. assert (P j) as Hj.
      { unfold filter_value in Hin. apply elem_of_list_filter in Hin as [_ Hin].
        apply Hl in Hin as (_ & v & ? & _). by eapply I. }
      apply (filter_value_elem s M) in Hin as (Hin & v & HM & Hv); [|done..]. apply Hl in Hin as [? _]. eauto.
    + intros (? & v & HM & Hv). apply (filter_value_elem s M); [done|by eapply I|].
      split; [|by eauto]. apply Hl. split; [done|]. exists v. split; [done|].
      apply in_scan_prefix; [by eapply I|by eapply HV|by apply Hre].
Qed.

(** Node names *)
Lemma node_name_lemma s M nn name : dinvar s M → values_ok M → nulfree name →
  ∃ l, node_name_range nn s name = Some l ∧
    ∀ b x, (b, x) ∈ l ↔ x = true ∧ ∃ k j, st_get_value (d_symbols s) k = Some nn ∧ 
                     M !! (j, nn) = Some name ∧ b = qname_key (ser j) k name.
Proof.
  intros I HV Hn. unfold node_name_range. destruct (st_get_symbol (d_symbols s) nn) as [k|] eqn:Ek.
  - apply st_ok_sym in Ek; [|apply I].
    destruct (repr_range _ _ (Included (qname_key node_min k name)) (Included (qname_key node_max k name)) (a_q _ _ _ _ _ I))
      as (l & -> & Hs & Hl).
    { unfold range_panics, qname_key. by rewrite !lex_app_l. }
    exists l. split; [done|]. intros b x. rewrite Hl. split.
    + intros [(-> & j & ak' & k' & v & HM & Hk' & ->) [Hb1 Hb2]]. split; [done|].
      assert (in_scan name name j v ∧ k' = k) as [Hin ->].
      { apply and_comm. apply scan_bounds; [by eapply (a_fits P tcmp ser s M)..|]. split; [done|].
        unfold upper_ok in Hb2 |- *. destruct (lex_compare _ _) eqn:E; [|done|done]. exfalso.
        apply (cmp_eq lex_compare) in E. apply (f_equal (drop 8)) in E. unfold qname_key in E.
        rewrite !drop_app_alt in E by (by rewrite be_bytes_length). simpl in E.
        assert (lex_compare (v ++ 0%N :: ser j) (name ++ 0%N :: node_max) = Eq) as Hc by (by rewrite E, lex_refl).
        rewrite lex_nul in Hc by (done || by eapply HV). destruct (lex_compare v name); [|done|done].
        rewrite lt_max in Hc; [done|by eapply I]. }
      apply in_scan_exact in Hin as ->; [|by eapply I|done|by eapply HV].
      assert (ak' = nn) as -> by congruence. eauto.
    + intros (-> & k' & j & Hk' & HM & ->).
      assert (k' = k) as -> by (eapply st_ok_inj; [apply I|done|done]).
      split; [split; [done|]; by exists j, nn, k, name|].
      destruct (proj2 (scan_bounds k k name name j name (a_fits P tcmp ser s M k nn I Ek) (a_fits P tcmp ser s M k nn I Ek))) as [H1 H2].
      { split; [done|]. apply in_scan_exact; [by eapply I|done|done|done]. }
      split; [done|]. unfold upper_ok in H2 |- *. by rewrite H2.
  - exists []. split; [done|]. intros b x. split; [by intros ?%elem_of_nil|].
    intros (_ & k & j & Hk & _). apply st_ok_sym in Hk; [|apply I]. congruence.
Qed.

Lemma dnode_id s M nn name : dinvar s M → values_ok M → nulfree name →
  (∃ r, ad_node_id_from_name w parse nn s name = Some r ∧
     match r with Some j => M !! (j, nn) = Some name | None => ∀ j, M !! (j, nn) ≠ Some name end) ∧
  ∃ b, ad_has_node_name nn s name = Some b ∧ (b = true ↔ ∃ j, M !! (j, nn) = Some name).
Proof.
  intros I HV Hn. unfold ad_node_id_from_name, ad_has_node_name.
  destruct (node_name_lemma s M nn name I HV Hn) as (l & -> & Hl). simpl. destruct l as [|[b x] l].
  - assert (∀ j, M !! (j, nn) ≠ Some name) as Hno.
    { intros j HM. destruct (a_has _ _ _ _ _ I j nn) as [k Hk]; [by eexists|].
      assert ((qname_key (ser j) k name, true) ∈ ([] : list (bytes * bool))) as []%elem_of_nil by (apply Hl; eauto 10). }
    split; [by exists None|]. exists false. split; [done|]. split; [done|]. intros [j Hj]. by destruct (Hno j).
  - destruct (proj1 (Hl b x)) as (-> & k & j & Hk & HM & ->); [by left|]. split.
    + simpl. rewrite (parse_qname s M j k nn) by (done || by eapply I). simpl. by exists (Some j).
    + exists true. split; [done|]. split; [|done]. by exists j.
Qed.
End queries.

(** Comparison with the in-memory storage *)
Section agree.
Context {T : Type} `{Countable T} (P : T → Prop).
Implicit Types (M : gmap (T * anno_key) bytes).

Lemma as_run_content ops outs : AmErr ∉ outs → length outs = length ops →
  ∀ M, as_run M ops outs = fold_left (λ M o, as_step M o AmOk) ops M.
Proof.
  revert outs. induction ops as [|o ops IH]; intros outs He Hl M; destruct outs as [|r outs]; try done. simpl.
  apply not_elem_of_cons in He as [Hr He]. simpl in Hl.
  assert (as_step M o r = as_step M o AmOk) as -> by (destruct o, r; done).
  apply IH; [done|lia].
Qed.
Lemma as_outs_ok_length M ops outs : as_outs_ok M ops outs → length outs = length ops.
Proof.
  revert M outs. induction ops as [|o ops IH]; intros M [|r outs]; try done. simpl. intros [_ Ho].
  f_equal. by eapply IH.
Qed.
Lemma as_outs_ok_unique ops o1 o2 M : AmErr ∉ o1 → AmErr ∉ o2 →
  as_outs_ok M ops o1 → as_outs_ok M ops o2 → o1 = o2.
Proof.
  revert o1 o2 M. induction ops as [|o ops IH]; intros [|r1 o1] [|r2 o2] M; try done. simpl.
  intros [Hr1 H1]%not_elem_of_cons [Hr2 H2]%not_elem_of_cons [E1 R1] [E2 R2].
  assert (r1 = r2) as ->.
  { destruct o; simpl in *; try congruence.
    - destruct E1, E2; congruence.
    - destruct E1 as (b1 & -> & B1), E2 as (b2 & -> & B2). f_equal. destruct b1, b2; naive_solver. }
  f_equal. by eapply IH.
Qed.
Lemma content_values_ok ops : Forall (op_ok P) ops → values_ok (as_content ops).
Proof.
  intros Ho. unfold as_content. assert (values_ok (∅ : gmap (T * anno_key) bytes)) as HM.
  { intros i ak v. by rewrite lookup_empty. }
  revert HM. generalize (∅ : gmap (T * anno_key) bytes). induction Ho as [|o ops Ho1 Ho IH]; intros M HM; [done|].
  simpl. apply IH. destruct o; simpl.
  - intros i' ak' v'. rewrite lookup_insert_Some. intros [[_ <-]|[_ ?]]; [apply Ho1|by eapply HM].
  - intros i' ak' v' [_ ?]%lookup_delete_Some. by eapply HM.
  - intros i' ak' v' [? _]%map_filter_lookup_Some. by eapply HM.
  - intros i' ak' v'. by rewrite lookup_empty.
  - done.
Qed.
End agree.

Lemma node_item_ok :
  item_ok (λ i, (i < 18446744073709551615)%N) N.compare 8 (uint_create_key 8) (uint_parse_key 8).
Proof.
  assert (∀ i, (i < 18446744073709551615)%N → fits 8 i) as Hf by (intros i Hi; unfold fits; simpl; lia).
  constructor.
  - destruct u64_key_ok as [A B C]. constructor; [done|intros; apply B; by apply Hf|intros; apply C; by apply Hf].
  - intros i. apply be_bytes_length.
  - intros i Hi. rewrite (uint_order 8); [|done|by apply Hf]. by destruct i.
  - intros i Hi. rewrite (uint_order 8); [|by apply Hf|done]. by apply N.compare_lt_iff.
Qed.

Lemma edge_item_ok :
  item_ok (λ e, (source e < 18446744073709551615)%N ∧ fits 8 (target e)) edge_compare 16
    edge_create_key edge_parse_key.
Proof.
  assert (∀ i, (i < 18446744073709551615)%N → fits 8 i) as Hf by (intros i Hi; unfold fits; simpl; lia).
  assert (∀ a b c, length a = length b → lex_compare a b ≠ Gt → lex_compare a (b ++ c) ≠ Gt) as Hle.
  { intros a b c Hl Hc. rewrite <- (app_nil_r a). rewrite lex_app_same by done.
    destruct (lex_compare a b); try done. by destruct c. }
  constructor.
  - destruct edge_key_ok as [A B C]. constructor; [done|intros k []; apply B; auto|intros k1 k2 [] []; apply C; auto].
  - intros i. apply edge_key_length.
  - intros [s t] [Hs Ht]. cbn [source target] in Hs, Ht. unfold edge_create_key, uint_create_key. cbn [source target].
    apply Hle; [by rewrite !be_bytes_length|]. rewrite (uint_order 8); [|done|by apply Hf]. by destruct s.
  - intros [s t] [Hs Ht]. cbn [source target] in Hs, Ht. unfold edge_create_key, uint_create_key. cbn [source target].
    rewrite <- (app_nil_r (be_bytes 8 18446744073709551615)). rewrite lex_app_same by (by rewrite !be_bytes_length).
    rewrite (uint_order 8); [|by apply Hf|done]. by rewrite (proj2 (N.compare_lt_iff _ _)).
Qed.
