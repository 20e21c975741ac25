From stdpp Require Import base list gmap fin_maps sorting.
From Coq Require Import NArith Lia.
From Verif Require Import KeySer KeySerSpec ListExtra SortedMap Types TypesProofs SymbolTable
  SymbolTableSpec SymbolTableProofs SymTabIface AnnoMem AnnoSpec AnnoMemProofs.

Section queries.
Context {T : Type} `{Countable T} (tcmp : T → T → comparison) `{!CmpOrder tcmp}.
Implicit Types (s : am T) (M : gmap (T * anno_key) bytes) (vals : symtab bytes).

Notation inv := (inv tcmp).

Lemma sym_some s leak M i k v : inv s leak M → sym s i k = Some v ↔
  ∃ ak av, st_get_value (anno_keys s) k = Some ak ∧ st_get_value (anno_values s) v = Some av ∧
    M !! (i, ak) = Some av.
Proof. intros I. apply (c_sy _ _ _ _ _ _ _ _ (i_core _ _ _ _ I)). Qed.
Lemma M_sym s leak M i ak av : inv s leak M → M !! (i, ak) = Some av →
  ∃ k v, st_get_symbol (anno_keys s) ak = Some k ∧ st_get_symbol (anno_values s) av = Some v ∧
    st_get_value (anno_keys s) k = Some ak ∧ st_get_value (anno_values s) v = Some av ∧ sym s i k = Some v.
Proof.
  intros I HM. pose proof (i_core _ _ _ _ I) as C.
  destruct (c_syms _ _ _ _ _ _ _ _ C _ _ _ HM) as (k & v & Hk & Hv). exists k, v.
  rewrite !st_ok_sym by apply C. split_and!; try done. eapply sym_some; eauto.
Qed.

Lemma elem_al_get s leak M i l k v : inv s leak M → by_container s !! i = Some l →
  (k, v) ∈ l ↔ sym s i k = Some v.
Proof.
  intros I El. unfold sym. rewrite El. symmetry. apply al_get_iff; [apply _|]. by eapply i_cont.
Qed.

Lemma cont_nodup s leak M i l : inv s leak M → by_container s !! i = Some l → NoDup l.
Proof.
  intros I El. apply (NoDup_fmap_1 fst). apply (al_sorted_NoDup Nat.compare). by eapply i_cont.
Qed.

Lemma get_annotations_lemma s leak M i : inv s leak M →
  NoDup ((am_get_annotations s i).*1) ∧
  ∀ ak av, (ak, av) ∈ am_get_annotations s i ↔ M !! (i, ak) = Some av.
Proof.
  intros I. pose proof (i_core _ _ _ _ I) as C. unfold am_get_annotations.
  destruct (by_container s !! i) as [l|] eqn:El.
  - set (f := λ a : nat * nat, k ← st_get_value (anno_keys s) a.1; v ← st_get_value (anno_values s) a.2; Some (k, v)).
    assert (∀ a ak av, f a = Some (ak, av) ↔ st_get_value (anno_keys s) a.1 = Some ak ∧ st_get_value (anno_values s) a.2 = Some av) as Hf.
    { intros a ak av. unfold f. destruct (st_get_value (anno_keys s) a.1), (st_get_value (anno_values s) a.2); simpl; naive_solver. }
    split.
    + apply NoDup_fmap_inj_on.
      * apply NoDup_omap_inj; [by eapply cont_nodup|].
        intros [k1 v1] [k2 v2] [ak av] H1 H2 [Hk1 Hv1]%Hf [Hk2 Hv2]%Hf. simpl in *.
        rewrite (st_ok_inj _ ak k1 k2 (c_keys _ _ _ _ _ _ _ _ C)) by done.
        by rewrite (st_ok_inj _ av v1 v2 (c_vals _ _ _ _ _ _ _ _ C)).
      * intros [ak av] [ak' av'] H1 H2 E. simpl in E. subst ak'. f_equal.
        apply elem_of_list_omap in H1 as ([k1 v1] & Hin1 & [Hk1 Hv1]%Hf).
        apply elem_of_list_omap in H2 as ([k2 v2] & Hin2 & [Hk2 Hv2]%Hf). simpl in *.
        rewrite (st_ok_inj _ ak k1 k2 (c_keys _ _ _ _ _ _ _ _ C)) in Hin1 by done.
        apply (elem_al_get _ _ _ _ _ _ _ I El) in Hin1, Hin2. congruence.
    + intros ak av. rewrite elem_of_list_omap. split.
      * intros ([k v] & Hin & [Hk Hv]%Hf). simpl in *. apply (elem_al_get _ _ _ _ _ _ _ I El) in Hin.
        apply (sym_some _ _ _ _ _ _ I) in Hin as (a & b & Ha & Hb & HM). congruence.
      * intros HM. destruct (M_sym _ _ _ _ _ _ I HM) as (k & v & _ & _ & Hk & Hv & Hs).
        exists (k, v). split; [by apply (elem_al_get _ _ _ _ _ _ _ I El)|]. by apply Hf.
  - split; [constructor|]. intros ak av. split; [by intros ?%elem_of_nil|]. intros HM.
    destruct (M_sym _ _ _ _ _ _ I HM) as (k & v & _ & _ & _ & _ & Hs). unfold sym in Hs. by rewrite El in Hs.
Qed.

(** Sizes and qualified names *)
Lemma sizes_in s leak M ak n : inv s leak M →
  (ak, n) ∈ anno_key_sizes s ↔ n = count_key M ak ∧ n ≠ 0.
Proof.
  intros I. pose proof (i_core _ _ _ _ I) as C.
  rewrite <- (al_get_iff anno_key_compare) by apply C. rewrite (c_sizes _ _ _ _ _ _ _ _ C).
  destruct (decide _); naive_solver.
Qed.

Lemma annotation_keys_lemma s leak M : inv s leak M →
  StronglySorted (λ a b, anno_key_compare a b = Lt) (am_annotation_keys s) ∧
  ∀ ak, ak ∈ am_annotation_keys s ↔ ∃ i, is_Some (M !! (i, ak)).
Proof.
  intros I. pose proof (i_core _ _ _ _ I) as C. unfold am_annotation_keys. split.
  - pose proof (c_sorted _ _ _ _ _ _ _ _ C) as Hs. unfold al_sorted in Hs.
    clear C. induction Hs as [|x l Hs IH Hf]; simpl; [constructor|]. constructor; [done|].
    apply Forall_fmap. done.
  - intros ak. rewrite elem_of_list_fmap. split.
    + intros ([a n] & -> & Hin). apply (sizes_in _ _ _ _ _ I) in Hin as [-> Hn]. by apply count_pos.
    + intros [i [v Hv]]. exists (ak, count_key M ak). split; [done|].
      apply (sizes_in _ _ _ _ _ I). split; [done|]. intros Hz. by rewrite (count_zero M ak i Hz) in Hv.
Qed.

Lemma take_name_filter name l : al_sorted anno_key_compare l →
  Forall (λ x : anno_key * nat, lex_compare (ak_name x.1) name ≠ Lt) l →
  take_name name l = filter (λ k, ak_name k = name) (l.*1).
Proof.
  induction l as [|[k n] l IH]; intros Hs Hge; simpl; [done|].
  apply al_sorted_inv in Hs as [Hs Hf]. apply Forall_cons in Hge as [Hk Hge].
  rewrite filter_cons. destruct (decide (ak_name k = name)) as [E|E]; [by rewrite IH|].
  symmetry. apply list_filter_none. intros k' [[k2 n2] [-> Hin]]%elem_of_list_fmap Hn. simpl in *.
  rewrite Forall_forall in Hf. specialize (Hf _ Hin). simpl in Hf. unfold anno_key_compare in Hf.
  subst name. destruct (lex_compare (ak_name k) (ak_name k2)) eqn:E2.
  - apply (cmp_eq lex_compare) in E2. done.
  - done.
  - done.
Qed.

Lemma qnames_eq s leak M name : inv s leak M →
  am_get_qnames s name = filter (λ k, ak_name k = name) (am_annotation_keys s).
Proof.
  intros I. pose proof (i_core _ _ _ _ I) as C. pose proof (c_sorted _ _ _ _ _ _ _ _ C) as Hs.
  unfold am_get_qnames, am_annotation_keys, al_range. rewrite take_name_filter.
  - clear -Hs. induction (anno_key_sizes s) as [|[k n] l IH]; [done|].
    apply al_sorted_inv in Hs as [Hs _]. specialize (IH Hs).
    rewrite fmap_cons. destruct (decide (ak_name k = name)) as [E|E].
    + rewrite (filter_cons_True (λ k, ak_name k = name) k) by done. rewrite <- IH.
      rewrite filter_cons_True.
      { rewrite fmap_cons. by rewrite (filter_cons_True (λ k, ak_name k = name)). }
      simpl. rewrite andb_true_r. unfold anno_key_compare; simpl. subst name. rewrite lex_refl.
      by destruct (ak_ns k).
    + rewrite (filter_cons_False (λ k, ak_name k = name) k) by done. rewrite <- IH.
      rewrite (filter_cons _ (k, n)). destruct (decide _); [|done].
      rewrite fmap_cons. by rewrite (filter_cons_False (λ k, ak_name k = name)).
  - by apply al_sorted_filter.
  - apply Forall_forall. intros [k n] [Hr Hin]%elem_of_list_filter. simpl in *.
    rewrite andb_true_r in Hr. unfold anno_key_compare in Hr; simpl in Hr. intros E.
    apply (cmp_gt_lt lex_compare) in E. by rewrite E in Hr.
Qed.

Lemma sorted_nodup (l : list anno_key) :
  StronglySorted (λ a b, anno_key_compare a b = Lt) l → NoDup l.
Proof.
  induction 1 as [|x l Hs IH Hf]; constructor; [|done]. intros Hin.
  rewrite Forall_forall in Hf. specialize (Hf _ Hin). by rewrite (cmp_refl anno_key_compare) in Hf.
Qed.

Lemma qnames_lemma s leak M name : inv s leak M →
  NoDup (am_get_qnames s name) ∧
  ∀ ak, ak ∈ am_get_qnames s name ↔ ak_name ak = name ∧ ∃ i, is_Some (M !! (i, ak)).
Proof.
  intros I. rewrite (qnames_eq _ _ _ _ I). destruct (annotation_keys_lemma _ _ _ I) as [Hs Hin]. split.
  - apply NoDup_filter. by apply sorted_nodup.
  - intros ak. by rewrite elem_of_list_filter, Hin.
Qed.

Lemma get_all_keys_lemma s leak M i ns name : inv s leak M →
  NoDup (am_get_all_keys s i ns name) ∧
  ∀ ak, ak ∈ am_get_all_keys s i ns name ↔
    is_Some (M !! (i, ak)) ∧ match name with Some n => key_matches ns n ak | None => True end.
Proof.
  intros I. pose proof (i_core _ _ _ _ I) as C. unfold am_get_all_keys. destruct name as [name|].
  - destruct ns as [ns|].
    + rewrite (has_value_lemma _ _ _ _ _ _ I). case_bool_decide as Hb.
      * split; [apply NoDup_singleton|]. intros ak. rewrite elem_of_list_singleton. unfold key_matches.
        split; [intros ->; done|]. destruct ak; simpl. naive_solver.
      * split; [constructor|]. intros ak. unfold key_matches. split; [by intros ?%elem_of_nil|].
        destruct ak; simpl. naive_solver.
    + destruct (qnames_lemma _ _ _ name I) as [Hnd Hin]. split; [by apply NoDup_filter|].
      intros ak. rewrite elem_of_list_filter, Hin, (get_value_lemma _ _ _ _ _ _ I). unfold key_matches. naive_solver.
  - destruct (by_container s !! i) as [l|] eqn:El.
    + split.
      * apply NoDup_omap_inj; [by eapply cont_nodup|].
        intros [k1 v1] [k2 v2] ak H1 H2 Hk1 Hk2. simpl in *.
        assert (k1 = k2) as -> by (by apply (st_ok_inj _ ak k1 k2 (c_keys _ _ _ _ _ _ _ _ C))).
        apply (elem_al_get _ _ _ _ _ _ _ I El) in H1, H2. congruence.
      * intros ak. rewrite elem_of_list_omap. split.
        -- intros ([k v] & Hin & Hk). simpl in *. apply (elem_al_get _ _ _ _ _ _ _ I El) in Hin.
           apply (sym_some _ _ _ _ _ _ I) in Hin as (a & b & Ha & Hb & HM).
           assert (a = ak) by congruence. subst. split; [by eexists|done].
        -- intros [[av HM] _]. destruct (M_sym _ _ _ _ _ _ I HM) as (k & v & _ & _ & Hk & Hv & Hs).
           exists (k, v). split; [by apply (elem_al_get _ _ _ _ _ _ _ I El)|done].
    + split; [constructor|]. intros ak. split; [by intros ?%elem_of_nil|]. intros [[av HM] _].
      destruct (M_sym _ _ _ _ _ _ I HM) as (k & v & _ & _ & _ & _ & Hs). unfold sym in Hs. by rewrite El in Hs.
Qed.

(** Search *)
Lemma value_maps_lemma s leak M ns name : inv s leak M →
  NoDup ((value_maps s ns name).*1) ∧
  ∀ key m, (key, m) ∈ value_maps s ns name ↔
    key_matches ns name key ∧ ∃ k, st_get_symbol (anno_keys s) key = Some k ∧ by_anno s !! k = Some m.
Proof.
  intros I. pose proof (i_core _ _ _ _ I) as C. unfold value_maps.
  set (ks := match ns with Some ns => [AnnoKey name ns] | None => am_get_qnames s name end).
  set (f := λ key : anno_key, k ← st_get_symbol (anno_keys s) key; vals ← by_anno s !! k; Some (key, vals)).
  assert (NoDup ks) as Hnd.
  { unfold ks. destruct ns; [apply NoDup_singleton|]. eapply qnames_lemma; eauto. }
  assert (∀ key, key ∈ ks → key_matches ns name key) as Hks.
  { unfold ks, key_matches. intros key. destruct ns as [ns|].
    - rewrite elem_of_list_singleton. by intros ->.
    - destruct (qnames_lemma _ _ _ name I) as [_ Hin]. rewrite Hin. naive_solver. }
  assert (∀ key z, f key = Some z ↔ z.1 = key ∧ ∃ k, st_get_symbol (anno_keys s) key = Some k ∧ by_anno s !! k = Some z.2) as Hf.
  { intros key [key' m]. unfold f. simpl. destruct (st_get_symbol (anno_keys s) key) as [k|]; simpl.
    - destruct (by_anno s !! k) as [m'|] eqn:E; simpl; naive_solver.
    - naive_solver. }
  assert (∀ key m, (key, m) ∈ omap f ks ↔ key ∈ ks ∧ ∃ k, st_get_symbol (anno_keys s) key = Some k ∧ by_anno s !! k = Some m) as Hin.
  { intros key m. rewrite elem_of_list_omap. split.
    - intros (key' & Hk & [E Hex]%Hf). simpl in *. subst. done.
    - intros [Hk Hex]. exists key. split; [done|]. by apply Hf. }
  split.
  - apply NoDup_fmap_inj_on.
    + apply NoDup_omap_inj; [done|]. intros x y z _ _ [E1 _]%Hf [E2 _]%Hf. congruence.
    + intros [k1 m1] [k2 m2] H1 H2 E. simpl in E. subst k2. f_equal.
      apply Hin in H1 as (_ & ? & ? & ?), H2 as (_ & ? & ? & ?). congruence.
  - intros key m. rewrite Hin. split; [intros [? ?]; auto|]. intros [Hm (k & Hk & Hb)]. split; [|eauto].
    unfold ks. unfold key_matches in Hm. destruct Hm as [Hn Hns]. destruct ns as [ns|].
    + apply elem_of_list_singleton. destruct key; simpl in *. by subst.
    + apply (qnames_lemma _ _ _ name I). split; [done|].
      destruct (c_ne _ _ _ _ _ _ _ _ C _ _ Hb) as [Hne HX].
      destruct (map_choose m Hne) as (v & X & HvX). destruct (set_choose_L X (HX _ _ HvX)) as [i Hi].
      assert (in_anno (by_anno s) k v i) as Ha by (exists m, X; done).
      apply (c_ba _ _ _ _ _ _ _ _ C) in Ha. apply (sym_some _ _ _ _ _ _ I) in Ha as (a & b & Ha & Hb' & HM).
      apply st_ok_sym in Hk; [|apply C]. exists i. rewrite Hk in Ha. injection Ha as <-. by eexists.
Qed.

Lemma ba_value s leak M key k m i : inv s leak M → st_get_symbol (anno_keys s) key = Some k →
  by_anno s !! k = Some m → ∀ v X, m !! v = Some X →
  i ∈ X ↔ ∃ av, st_get_value (anno_values s) v = Some av ∧ M !! (i, key) = Some av.
Proof.
  intros I Hk Hm v X HX. pose proof (i_core _ _ _ _ I) as C. apply st_ok_sym in Hk; [|apply C].
  assert (i ∈ X ↔ in_anno (by_anno s) k v i) as ->.
  { unfold in_anno. split; [naive_solver|]. intros (m' & X' & ? & ? & ?). congruence. }
  rewrite (c_ba _ _ _ _ _ _ _ _ C), (sym_some _ _ _ _ _ _ I). split.
  - intros (a & b & ? & ? & ?). exists b. split; [done|congruence].
  - intros (b & ? & ?). eauto.
Qed.

Lemma value_ba s leak M key i av : inv s leak M → M !! (i, key) = Some av →
  ∃ k m v X, st_get_symbol (anno_keys s) key = Some k ∧ by_anno s !! k = Some m ∧
    st_get_symbol (anno_values s) av = Some v ∧ m !! v = Some X ∧ i ∈ X.
Proof.
  intros I HM. pose proof (i_core _ _ _ _ I) as C.
  destruct (M_sym _ _ _ _ _ _ I HM) as (k & v & Hk & Hv & _ & _ & Hs).
  apply (c_ba _ _ _ _ _ _ _ _ C) in Hs as (m & X & Hm & HX & Hi). exists k, m, v, X. done.
Qed.

Lemma all_items_lemma s leak M ns name : inv s leak M →
  NoDup (all_items (value_maps s ns name)) ∧
  ∀ i key, (i, key) ∈ all_items (value_maps s ns name) ↔
    key_matches ns name key ∧ is_Some (M !! (i, key)).
Proof.
  intros I. destruct (value_maps_lemma _ _ _ ns name I) as [Hnd Hvm]. unfold all_items.
  assert (∀ key m i, (key, m) ∈ value_maps s ns name →
    i ∈ (map_to_list m ≫= λ vi : nat * gset T, elements vi.2) ↔ is_Some (M !! (i, key))) as Hin.
  { intros key m i [Hkm (k & Hk & Hm)]%Hvm. rewrite elem_of_list_bind. split.
    - intros ([v X] & Hi%elem_of_elements & HX%elem_of_map_to_list). simpl in *.
      apply (ba_value _ _ _ _ _ _ _ I Hk Hm _ _ HX) in Hi as (av & _ & ?). by eexists.
    - intros [av HM]. destruct (value_ba _ _ _ _ _ _ I HM) as (k' & m' & v & X & Hk' & Hm' & Hv & HX & Hi).
      assert (k' = k) by congruence. subst. assert (m' = m) by congruence. subst.
      exists (v, X). split; [by apply elem_of_elements|by apply elem_of_map_to_list]. }
  split.
  - apply NoDup_bind_ext.
    + by apply (NoDup_fmap_1 fst).
    + intros [key m] Hkm. apply NoDup_fmap_inj_on.
      2:{ intros x y _ _ E. by injection E. }
      pose proof Hkm as [_ (k & Hk & Hm)]%Hvm.
      apply NoDup_bind_ext; [apply NoDup_map_to_list|intros; apply NoDup_elements|].
      intros [v1 X1] [v2 X2] i H1%elem_of_map_to_list H2%elem_of_map_to_list Hi1%elem_of_elements Hi2%elem_of_elements.
      simpl in *. pose proof (i_core _ _ _ _ I) as C.
      assert (sym s i k = Some v1) by (apply (c_ba _ _ _ _ _ _ _ _ C); exists m, X1; done).
      assert (sym s i k = Some v2) by (apply (c_ba _ _ _ _ _ _ _ _ C); exists m, X2; done).
      assert (v1 = v2) as -> by congruence. congruence.
    + intros [k1 m1] [k2 m2] [i key] H1 H2 Hi1 Hi2.
      apply elem_of_list_fmap in Hi1 as (? & [= _ ->] & _). apply elem_of_list_fmap in Hi2 as (? & [= _ ->] & _).
      simpl in *. f_equal. apply Hvm in H1 as (_ & ? & ? & ?), H2 as (_ & ? & ? & ?). congruence.
  - intros i key. rewrite elem_of_list_bind. split.
    + intros ([key' m] & Hi & Hkm). apply elem_of_list_fmap in Hi as (i' & [= <- ->] & Hi). simpl in *.
      apply (Hin _ _ _ Hkm) in Hi. split; [|done]. by apply Hvm in Hkm as [? _].
    + intros [Hk [av HM]]. destruct (value_ba _ _ _ _ _ _ I HM) as (k & m & v & X & Hk' & Hm & Hv & HX & Hi).
      assert ((key, m) ∈ value_maps s ns name) as Hkm by (apply Hvm; eauto).
      exists (key, m). split; [|done]. apply elem_of_list_fmap. exists i. split; [done|].
      apply (Hin _ _ _ Hkm). by eexists.
Qed.

Lemma exact_search_lemma s leak M ns name vs : inv s leak M →
  NoDup (am_exact_search s ns name vs) ∧
  ∀ i key, (i, key) ∈ am_exact_search s ns name vs ↔
    key_matches ns name key ∧ ∃ v, M !! (i, key) = Some v ∧ value_matches vs v.
Proof.
  intros I. destruct (all_items_lemma _ _ _ ns name I) as [Hnd Hin]. unfold am_exact_search.
  destruct vs as [|v|v]; simpl.
  - split; [done|]. intros i key. rewrite Hin. unfold is_Some. naive_solver.
  - pose proof (i_core _ _ _ _ I) as C.
    destruct (value_maps_lemma _ _ _ ns name I) as [Hndm Hvm].
    destruct (st_get_symbol (anno_values s) v) as [vsym|] eqn:Ev.
    + pose proof Ev as Ev'. apply st_ok_sym in Ev'; [|apply C]. split.
      * apply NoDup_bind_ext.
        -- by apply (NoDup_fmap_1 fst).
        -- intros [key m] _. simpl. destruct (m !! vsym); [|constructor].
           apply NoDup_fmap_inj_on; [apply NoDup_elements|]. intros x y _ _ E. by injection E.
        -- intros [k1 m1] [k2 m2] [i key] H1 H2 Hi1 Hi2. simpl in *.
           destruct (m1 !! vsym); [|by apply elem_of_nil in Hi1]. destruct (m2 !! vsym); [|by apply elem_of_nil in Hi2].
           apply elem_of_list_fmap in Hi1 as (? & [= _ ->] & _). apply elem_of_list_fmap in Hi2 as (? & [= _ ->] & _).
           f_equal. apply Hvm in H1 as (_ & ? & ? & ?), H2 as (_ & ? & ? & ?). congruence.
      * intros i key. rewrite elem_of_list_bind. split.
        -- intros ([key' m] & Hi & Hkm). simpl in *. apply Hvm in Hkm as [Hm (k & Hk & Hb)].
           destruct (m !! vsym) as [X|] eqn:EX; [|by apply elem_of_nil in Hi].
           apply elem_of_list_fmap in Hi as (i' & [= <- ->] & Hi%elem_of_elements). split; [done|].
           apply (ba_value _ _ _ _ _ _ _ I Hk Hb _ _ EX) in Hi as (av & Hav & HM).
           exists av. split; [done|]. congruence.
        -- intros [Hk (av & HM & ->)].
           destruct (value_ba _ _ _ _ _ _ I HM) as (k & m & v' & X & Hk' & Hm & Hv & HX & Hi).
           exists (key, m). split; [|apply Hvm; eauto]. simpl. assert (v' = vsym) by congruence. subst v'.
           rewrite HX. apply elem_of_list_fmap. exists i. split; [done|]. by apply elem_of_elements.
    + split; [constructor|]. intros i key. split; [by intros ?%elem_of_nil|].
      intros [_ (av & HM & ->)]. destruct (value_ba _ _ _ _ _ _ I HM) as (? & ? & ? & ? & ? & ? & ? & ?). congruence.
  - split; [by apply NoDup_filter|]. intros i key. rewrite elem_of_list_filter, Hin. simpl.
    rewrite (get_value_lemma _ _ _ _ _ _ I). destruct (M !! (i, key)) as [v'|].
    + rewrite negb_true_iff, bool_decide_eq_false. split; [naive_solver|].
      intros (? & ? & [= ->] & ?). split; [done|]. split; [done|by eexists].
    + split; [naive_solver|]. intros (? & ? & ? & ?). done.
Qed.

Lemma regex_search_lemma s leak M ns name re negated : inv s leak M →
  NoDup (am_regex_search s ns name re negated) ∧
  ∀ i key, (i, key) ∈ am_regex_search s ns name re negated ↔
    key_matches ns name key ∧ ∃ v, M !! (i, key) = Some v ∧
      match re with Some r => r v = negb negated | None => negated = true end.
Proof.
  intros I. destruct (all_items_lemma _ _ _ ns name I) as [Hnd Hin]. unfold am_regex_search, am_matching_items.
  destruct re as [re|].
  - split; [by apply NoDup_filter|]. intros i key. rewrite elem_of_list_filter, Hin. simpl.
    rewrite (get_value_lemma _ _ _ _ _ _ I). destruct (M !! (i, key)) as [v'|].
    + split.
      * intros (E & ? & _). split; [done|]. exists v'. split; [done|].
        destruct negated; simpl in *; [by apply negb_true_iff in E|done].
      * intros (? & ? & [= ->] & E). split; [|split; [done|by eexists]].
        destruct negated; simpl in *; [by apply negb_true_iff|done].
    + split; [naive_solver|]. intros (? & ? & ? & ?). done.
  - destruct negated.
    + destruct (exact_search_lemma _ _ _ ns name VAny I) as [Hnd' Hin']. split; [done|].
      intros i key. rewrite Hin'. simpl. naive_solver.
    + split; [constructor|]. intros i key. split; [by intros ?%elem_of_nil|naive_solver].
Qed.

(** Counting by name *)
Lemma size_filter_cons M k (ks : list anno_key) : k ∉ ks →
  size (filter (λ x, x.1.2 ∈ k :: ks) M) = count_key M k + size (filter (λ x, x.1.2 ∈ ks) M).
Proof.
  intros Hk. unfold count_key. induction M as [|[i a] v M HM IH] using map_ind.
  { by rewrite !map_filter_empty, !map_size_empty. }
  destruct (decide (a = k)) as [->|Hne].
  - rewrite (map_filter_insert_True _ M) by (simpl; by left).
    rewrite (map_filter_insert_True (λ x : T * anno_key * bytes, x.1.2 = k) M) by done.
    rewrite (map_filter_insert_False _ M) by done. rewrite (delete_notin M) by done.
    rewrite !map_size_insert_None by (rewrite map_filter_lookup_None; by left). lia.
  - rewrite (map_filter_insert_False (λ x : T * anno_key * bytes, x.1.2 = k) M) by done.
    rewrite (delete_notin M) by done.
    destruct (decide (a ∈ ks)) as [Hin|Hin].
    + rewrite (map_filter_insert_True (λ x : T * anno_key * bytes, x.1.2 ∈ k :: ks) M) by (simpl; by right).
      rewrite (map_filter_insert_True (λ x : T * anno_key * bytes, x.1.2 ∈ ks) M) by done.
      rewrite !map_size_insert_None by (rewrite map_filter_lookup_None; by left). lia.
    + rewrite (map_filter_insert_False (λ x : T * anno_key * bytes, x.1.2 ∈ k :: ks) M)
        by (simpl; rewrite elem_of_cons; naive_solver).
      rewrite (map_filter_insert_False (λ x : T * anno_key * bytes, x.1.2 ∈ ks) M) by done.
      rewrite (delete_notin M) by done. done.
Qed.

Lemma sum_sizes_lemma M (l : list (anno_key * nat)) : NoDup (l.*1) →
  (∀ k n, (k, n) ∈ l → n = count_key M k) →
  sum_sizes l = size (filter (λ x, x.1.2 ∈ l.*1) M).
Proof.
  induction l as [|[k n] l IH]; simpl; intros Hnd Hl.
  - symmetry. apply map_size_empty_iff. apply map_filter_empty_iff. intros ? ? _. apply not_elem_of_nil.
  - apply NoDup_cons in Hnd as [Hk Hnd]. rewrite size_filter_cons by done.
    rewrite (Hl k n) by by left. rewrite IH; [done|done|]. intros; apply Hl; by right.
Qed.

Lemma number_by_name_lemma s leak M ns name : inv s leak M →
  (ns = None → ∀ i k, ak_name k = name → is_Some (M !! (i, k)) → lex_compare (ak_ns k) char_max = Lt) →
  am_number_by_name s ns name = size (filter (λ x, key_matches ns name x.1.2) M).
Proof.
  intros I Hmax. pose proof (i_core _ _ _ _ I) as C. pose proof (c_sorted _ _ _ _ _ _ _ _ C) as Hs.
  unfold am_number_by_name.
  set (l := match ns with Some ns => al_range anno_key_compare _ _ _ | None => _ end).
  assert (al_sorted anno_key_compare l) as Hls by (unfold l, al_range; destruct ns; by apply al_sorted_filter).
  assert (∀ k n, (k, n) ∈ l ↔ (k, n) ∈ anno_key_sizes s ∧ key_matches ns name k) as Hl.
  { intros k n. unfold l, al_range, key_matches. destruct ns as [ns|].
    - rewrite elem_of_list_filter. simpl. rewrite andb_true_iff. rewrite (and_comm _ ((k, n) ∈ _)).
      apply and_iff_compat_l.
      assert (match anno_key_compare {| ak_name := name; ak_ns := ns |} k with Gt => false | _ => true end = true ↔
              anno_key_compare (AnnoKey name ns) k ≠ Gt) as -> by (destruct (anno_key_compare _ k); naive_solver).
      assert (match anno_key_compare k {| ak_name := name; ak_ns := ns |} with Gt => false | _ => true end = true ↔
              anno_key_compare k (AnnoKey name ns) ≠ Gt) as -> by (destruct (anno_key_compare k _); naive_solver).
      rewrite (cmp_anti anno_key_compare (AnnoKey name ns) k).
      assert (k = AnnoKey name ns ↔ ak_name k = name ∧ ak_ns k = ns) as <- by (destruct k; simpl; naive_solver).
      split.
      + intros [H1 H2]. symmetry. apply (cmp_eq anno_key_compare). by destruct (anno_key_compare _ k).
      + intros ->. by rewrite (cmp_refl anno_key_compare).
    - rewrite elem_of_list_filter. simpl. rewrite andb_true_iff. rewrite (and_comm _ ((k, n) ∈ _)).
      split.
      + intros [Hin [H1 H2]]. split_and!; [done| |done]. unfold anno_key_compare in *. simpl in *.
        rewrite (cmp_anti lex_compare name (ak_name k)) in H2.
        destruct (lex_compare name (ak_name k)) eqn:E; simpl in *; try done.
        by apply (cmp_eq lex_compare) in E.
      + intros [Hin [<- _]]. split_and!; [done| |].
        * unfold anno_key_compare; simpl. rewrite lex_refl. by destruct (ak_ns k).
        * unfold anno_key_compare; simpl. rewrite lex_refl.
          apply (sizes_in _ _ _ _ _ I) in Hin as [-> Hn]. destruct (count_pos M k Hn) as [i Hi].
          by rewrite (Hmax eq_refl i k eq_refl Hi). }
  rewrite (sum_sizes_lemma M).
  - f_equal. apply map_filter_ext. intros [i k] v HM. simpl. rewrite elem_of_list_fmap. split.
    + intros ([k' n] & -> & [_ ?]%Hl). done.
    + intros Hk. exists (k, count_key M k). split; [done|]. apply Hl. split; [|done].
      apply (sizes_in _ _ _ _ _ I). split; [done|]. intros Hz. by rewrite (count_zero M k i Hz) in HM.
  - by apply (al_sorted_NoDup anno_key_compare).
  - intros k n [Hin _]%Hl. by apply (sizes_in _ _ _ _ _ I) in Hin as [-> _].
Qed.

(** All values *)
Lemma set_size_count M k v (X : gset T) : (∀ i, i ∈ X ↔ M !! (i, k) = Some v) →
  size X = count_value M k v.
Proof.
  intros HX. unfold count_value. unfold size at 1, set_size. simpl.
  assert (elements X ≡ₚ (map_to_list (filter (λ x, x.1.2 = k ∧ x.2 = v) M)).*1.*1) as Hp.
  { apply NoDup_Permutation; [apply NoDup_elements| |].
    - rewrite <- list_fmap_compose. apply NoDup_fmap_inj_on; [apply NoDup_map_to_list|].
      intros [[i1 k1] v1] [[i2 k2] v2] H1%elem_of_map_to_list H2%elem_of_map_to_list E. simpl in E. subst i2.
      apply map_filter_lookup_Some in H1 as [_ [E1 E2]]. apply map_filter_lookup_Some in H2 as [_ [E3 E4]].
      simpl in *. by subst.
    - intros i. rewrite elem_of_elements, HX, <- list_fmap_compose, elem_of_list_fmap. split.
      + intros HM. exists ((i, k), v). split; [done|]. apply elem_of_map_to_list. by apply map_filter_lookup_Some.
      + intros ([[i1 k1] v1] & -> & Hin%elem_of_map_to_list). simpl.
        apply map_filter_lookup_Some in Hin as [? [E1 E2]]. simpl in *. by subst. }
  by rewrite Hp, !fmap_length.
Qed.

Lemma values_of_key s leak M ak k m : inv s leak M → st_get_symbol (anno_keys s) ak = Some k →
  by_anno s !! k = Some m → ∀ vi, vi ∈ map_to_list m →
  ∃ v, st_get_value (anno_values s) vi.1 = Some v ∧ size vi.2 = count_value M ak v ∧ ∃ i, M !! (i, ak) = Some v.
Proof.
  intros I Hk Hm [vs X] Hin%elem_of_map_to_list. simpl. pose proof (i_core _ _ _ _ I) as C.
  destruct (c_ne _ _ _ _ _ _ _ _ C _ _ Hm) as [_ HX]. destruct (set_choose_L X (HX _ _ Hin)) as [i Hi].
  pose proof (λ j, ba_value _ _ _ _ _ _ j I Hk Hm _ _ Hin) as HXM.
  apply HXM in Hi as (v & Hv & HM). exists v. split_and!; [done| |by exists i].
  apply set_size_count. intros j. rewrite HXM. split; [|eauto]. intros (v' & ? & ?). congruence.
Qed.

Lemma get_all_values_any s leak M ak k m : inv s leak M → st_get_symbol (anno_keys s) ak = Some k →
  by_anno s !! k = Some m →
  let l := omap (λ vi : nat * gset T, st_get_value (anno_values s) vi.1) (map_to_list m) in
  NoDup l ∧ ∀ v, v ∈ l ↔ ∃ i, M !! (i, ak) = Some v.
Proof.
  intros I Hk Hm. simpl. pose proof (i_core _ _ _ _ I) as C. split.
  - apply NoDup_omap_inj; [apply NoDup_map_to_list|].
    intros [v1 X1] [v2 X2] v H1%elem_of_map_to_list H2%elem_of_map_to_list E1 E2. simpl in *.
    assert (v1 = v2) as -> by (by apply (st_ok_inj _ v v1 v2 (c_vals _ _ _ _ _ _ _ _ C))). congruence.
  - intros v. rewrite elem_of_list_omap. split.
    + intros (vi & Hin & Hv). destruct (values_of_key _ _ _ _ _ _ I Hk Hm _ Hin) as (v' & Hv' & _ & i & HM).
      exists i. congruence.
    + intros [i HM]. destruct (value_ba _ _ _ _ _ _ I HM) as (k' & m' & vs & X & Hk' & Hm' & Hv & HX & Hi).
      assert (k' = k) by congruence. subst. assert (m' = m) by congruence. subst.
      exists (vs, X). split; [by apply elem_of_map_to_list|]. apply st_ok_sym in Hv; [done|apply C].
Qed.

(** Insertion sort *)
Lemma insert_sorted_perm {A} (cmp : A → A → comparison) x l : insert_sorted cmp x l ≡ₚ x :: l.
Proof.
  induction l as [|y l IH]; simpl; [done|]. destruct (cmp x y); [done|done|].
  rewrite IH. constructor.
Qed.
Lemma sort_list_perm {A} (cmp : A → A → comparison) l : sort_list cmp l ≡ₚ l.
Proof. induction l as [|x l IH]; simpl; [done|]. by rewrite insert_sorted_perm, IH. Qed.
Lemma insert_sorted_sorted {A} (cmp : A → A → comparison) (R : A → A → Prop) `{!Transitive R} x l :
  (∀ a b, cmp a b ≠ Gt → R a b) → (∀ a b, cmp a b = Gt → R b a) →
  StronglySorted R l → StronglySorted R (insert_sorted cmp x l).
Proof.
  intros Hle Hgt. induction 1 as [|y l Hs IH Hf]; simpl; [repeat constructor|].
  destruct (cmp x y) eqn:E.
  - assert (R x y) by (apply Hle; by rewrite E). constructor; [by constructor|]. constructor; [done|].
    eapply Forall_impl; [done|]. intros z ?. by etransitivity.
  - assert (R x y) by (apply Hle; by rewrite E). constructor; [by constructor|]. constructor; [done|].
    eapply Forall_impl; [done|]. intros z ?. by etransitivity.
  - constructor; [done|]. rewrite insert_sorted_perm. constructor; [by apply Hgt|done].
Qed.
Lemma sort_list_sorted {A} (cmp : A → A → comparison) (R : A → A → Prop) `{!Transitive R} l :
  (∀ a b, cmp a b ≠ Gt → R a b) → (∀ a b, cmp a b = Gt → R b a) → StronglySorted R (sort_list cmp l).
Proof.
  intros Hle Hgt. induction l as [|x l IH]; simpl; [constructor|]. by eapply insert_sorted_sorted.
Qed.

Lemma StronglySorted_app_snoc {A} (R : A → A → Prop) (l : list A) x :
  StronglySorted R l → Forall (λ y, R y x) l → StronglySorted R (l ++ [x]).
Proof.
  induction 1 as [|y l Hs IH Hf]; intros Hx; simpl; [repeat constructor|].
  apply Forall_cons in Hx as [Hyx Hx]. constructor; [by apply IH|]. apply Forall_app. split; [done|by constructor].
Qed.
Lemma StronglySorted_reverse {A} (R : A → A → Prop) l :
  StronglySorted R l → StronglySorted (λ a b, R b a) (reverse l).
Proof.
  induction 1 as [|x l Hs IH Hf]; [constructor|]. rewrite reverse_cons. apply StronglySorted_app_snoc; [done|].
  apply Forall_reverse. done.
Qed.
Lemma StronglySorted_fmap_in {A B} (R : A → A → Prop) (Q : B → B → Prop) (f : A → B) l :
  StronglySorted R l → (∀ x y, x ∈ l → y ∈ l → R x y → Q (f x) (f y)) → StronglySorted Q (f <$> l).
Proof.
  induction 1 as [|x l Hs IH Hf]; intros HQ; simpl; constructor.
  - apply IH. intros y z ? ?. apply HQ; by right.
  - apply Forall_fmap. rewrite Forall_forall in *. intros y Hy. apply HQ; [by left|by right|auto].
Qed.

Lemma get_all_values_lemma s leak M ak mff : inv s leak M →
  NoDup (am_get_all_values s ak mff) ∧
  (∀ v, v ∈ am_get_all_values s ak mff ↔ ∃ i, M !! (i, ak) = Some v) ∧
  (mff = true → StronglySorted (λ v w, count_value M ak w ≤ count_value M ak v) (am_get_all_values s ak mff)).
Proof.
  intros I. unfold am_get_all_values.
  assert (∀ (l : list bytes), l = [] → (∀ i v, M !! (i, ak) ≠ Some v) → NoDup l ∧ (∀ v, v ∈ l ↔ ∃ i, M !! (i, ak) = Some v)
      ∧ (mff = true → StronglySorted (λ v w, count_value M ak w ≤ count_value M ak v) l)) as Hempty.
  { intros l -> Hn. split_and!; [constructor| |intros; constructor]. intros v. split; [by intros ?%elem_of_nil|].
    intros [i ?]. by destruct (Hn i v). }
  destruct (st_get_symbol (anno_keys s) ak) as [k|] eqn:Ek.
  2:{ apply Hempty; [done|]. intros i v HM. destruct (value_ba _ _ _ _ _ _ I HM) as (? & ? & ? & ? & ? & ?). congruence. }
  destruct (by_anno s !! k) as [m|] eqn:Em.
  2:{ apply Hempty; [done|]. intros i v HM. destruct (value_ba _ _ _ _ _ _ I HM) as (? & ? & ? & ? & ? & ? & ?). congruence. }
  pose proof (get_all_values_any _ _ _ _ _ _ I Ek Em) as [Hnd Hin].
  destruct mff; [|split_and!; [apply Hnd|apply Hin|done]].
  set (f := λ vi : nat * gset T, v ← st_get_value (anno_values s) vi.1; Some (size vi.2, v)).
  assert ((omap f (map_to_list m)).*2 = omap (λ vi : nat * gset T, st_get_value (anno_values s) vi.1) (map_to_list m)) as E2.
  { clear. induction (map_to_list m) as [|vi l IH]; simpl; [done|].
    destruct (st_get_value (anno_values s) vi.1) as [b|] eqn:E.
    - assert (f vi = Some (size vi.2, b)) as -> by (unfold f; by rewrite E). simpl. f_equal. exact IH.
    - assert (f vi = None) as -> by (unfold f; by rewrite E). exact IH. }
  assert ((reverse (sort_list count_value_compare (omap f (map_to_list m)))).*2 ≡ₚ
          omap (λ vi : nat * gset T, st_get_value (anno_values s) vi.1) (map_to_list m)) as Hp.
  { rewrite <- E2. apply fmap_Permutation. by rewrite reverse_Permutation, sort_list_perm. }
  split_and!.
  - by rewrite Hp.
  - intros v. rewrite Hp. apply Hin.
  - intros _. apply (StronglySorted_fmap_in (λ a b : nat * bytes, b.1 ≤ a.1)).
    + apply StronglySorted_reverse. apply sort_list_sorted.
      * intros a b c ? ?. lia.
      * intros a b. unfold count_value_compare. destruct (Nat.compare_spec a.1 b.1); [lia|lia|done].
      * intros a b. unfold count_value_compare. destruct (Nat.compare_spec a.1 b.1); [lia|done|lia].
    + intros [n1 v1] [n2 v2]. rewrite !elem_of_reverse, !(sort_list_perm _ _).
      intros H1 H2. simpl. apply elem_of_list_omap in H1 as (vi1 & Hi1 & Hf1). apply elem_of_list_omap in H2 as (vi2 & Hi2 & Hf2).
      unfold f in Hf1, Hf2.
      destruct (values_of_key _ _ _ _ _ _ I Ek Em _ Hi1) as (w1 & Hw1 & E1 & _).
      destruct (values_of_key _ _ _ _ _ _ I Ek Em _ Hi2) as (w2 & Hw2 & E & _).
      rewrite Hw1 in Hf1. rewrite Hw2 in Hf2. simpl in *. injection Hf1 as <- <-. injection Hf2 as <- <-.
      by rewrite <- E, <- E1.
Qed.

Lemma node_name_items_lemma nn s leak M name : inv s leak M →
  match node_name_items nn s name with
  | Some X => X ≠ ∅ ∧ ∀ i, i ∈ X ↔ M !! (i, nn) = Some name
  | None => ∀ i, M !! (i, nn) ≠ Some name
  end.
Proof.
  intros I. pose proof (i_core _ _ _ _ I) as C.
  assert (∀ i, M !! (i, nn) = Some name → ∃ X, node_name_items nn s name = Some X) as Hex.
  { intros i HM. destruct (value_ba _ _ _ _ _ _ I HM) as (k & m & v & X & Hk & Hm & Hv & HX & Hi).
    exists X. unfold node_name_items. rewrite Hk; simpl. rewrite Hv; simpl. rewrite Hm; simpl. done. }
  destruct (node_name_items nn s name) as [X|] eqn:E.
  - unfold node_name_items in E. apply bind_Some in E as (k & Hk & E). apply bind_Some in E as (v & Hv & E).
    apply bind_Some in E as (m & Hm & HX). split.
    + destruct (c_ne _ _ _ _ _ _ _ _ C _ _ Hm) as [_ Hne]. by apply (Hne v).
    + intros i. rewrite (ba_value _ _ _ _ _ _ i I Hk Hm _ _ HX). apply st_ok_sym in Hv; [|apply C].
      split; [|eauto]. intros (av & ? & ?). congruence.
  - intros i HM. destruct (Hex i HM). done.
Qed.

Lemma node_id_lemma nn s leak M name : inv s leak M →
  match am_node_id_from_name nn s name with
  | Some i => M !! (i, nn) = Some name
  | None => ∀ i, M !! (i, nn) ≠ Some name
  end.
Proof.
  intros I. pose proof (node_name_items_lemma nn _ _ _ name I) as HX. unfold am_node_id_from_name.
  destruct (node_name_items nn s name) as [X|]; simpl; [|done]. destruct HX as [Hne HX].
  destruct (elements X) as [|i l] eqn:E; simpl.
  - exfalso. apply Hne. by apply elements_empty_inv in E; apply leibniz_equiv.
  - apply HX. apply elem_of_elements. rewrite E. by left.
Qed.
Lemma has_node_name_lemma nn s leak M name : inv s leak M →
  am_has_node_name nn s name = true ↔ ∃ i, M !! (i, nn) = Some name.
Proof.
  intros I. pose proof (node_name_items_lemma nn _ _ _ name I) as HX. unfold am_has_node_name.
  destruct (node_name_items nn s name) as [X|]; simpl.
  - destruct HX as [Hne HX]. rewrite bool_decide_eq_true. split; [|done]. intros _.
    destruct (set_choose_L X Hne) as [i Hi]. exists i. by apply HX.
  - split; [done|]. intros [i ?]. by destruct (HX i).
Qed.

Lemma keys_for_iterator_lemma s leak M ns name it : inv s leak M →
  (∀ i key, (i, key) ∈ am_get_keys_for_iterator s ns name it ↔
     i ∈ it ∧ is_Some (M !! (i, key)) ∧ match name with Some n => key_matches ns n key | None => True end) ∧
  (NoDup it → NoDup (am_get_keys_for_iterator s ns name it)).
Proof.
  intros I. pose proof (i_core _ _ _ _ I) as C. unfold am_get_keys_for_iterator.
  assert (∀ i k key, st_get_symbol (anno_keys s) key = Some k →
     (is_Some (sym s i k) ↔ is_Some (M !! (i, key)))) as Hsym.
  { intros i k key Hk. apply st_ok_sym in Hk; [|apply C].
    pose proof (core_sy_none _ _ _ _ _ _ _ _ i k key C Hk) as E.
    rewrite <- !not_eq_None_Some. naive_solver. }
  destruct name as [name|].
  - destruct ns as [ns|].
    + destruct (st_get_symbol (anno_keys s) (AnnoKey name ns)) as [k|] eqn:Ek.
      * set (f := λ item, all_annos ← by_container s !! item; _ ← al_get Nat.compare all_annos k; Some (item, AnnoKey name ns)).
        assert (∀ i z, f i = Some z ↔ is_Some (sym s i k) ∧ z = (i, AnnoKey name ns)) as Hf.
        { intros i z. unfold f, sym. destruct (by_container s !! i) as [l|]; simpl.
          - destruct (al_get Nat.compare l k); simpl; unfold is_Some; naive_solver.
          - unfold is_Some; naive_solver. }
        split.
        -- intros i key. rewrite elem_of_list_omap. unfold key_matches. split.
           ++ intros (i' & Hi & [Hs [= -> ->]]%Hf). rewrite Hsym in Hs by done. done.
           ++ intros (Hi & Hs & E1 & E2). exists i. split; [done|]. apply Hf.
              assert (key = AnnoKey name ns) as -> by (destruct key; simpl in *; by subst).
              by rewrite Hsym.
        -- intros Hnd. apply NoDup_omap_inj; [done|]. intros x y z _ _ [_ E1]%Hf [_ E2]%Hf. congruence.
      * split; [|intros; constructor]. intros i key. split; [by intros ?%elem_of_nil|]. unfold key_matches.
        intros (_ & [av HM] & E1 & E2). assert (key = AnnoKey name ns) as -> by (destruct key; simpl in *; by subst).
        destruct (M_sym _ _ _ _ _ _ I HM) as (? & ? & ? & _). congruence.
    + destruct (qnames_lemma _ _ _ name I) as [Hqnd Hq].
      set (syms := omap _ (am_get_qnames s name)).
      assert (∀ k key, (k, key) ∈ syms ↔ key ∈ am_get_qnames s name ∧ st_get_symbol (anno_keys s) key = Some k) as Hsy.
      { intros k key. unfold syms. rewrite elem_of_list_omap. split.
        - intros (key' & Hin & E). destruct (st_get_symbol (anno_keys s) key') eqn:E'; simpl in E; [|done].
          injection E as <- <-. done.
        - intros [Hin E]. exists key. split; [done|]. by rewrite E. }
      assert (NoDup syms) as Hsnd.
      { unfold syms. apply NoDup_omap_inj; [done|]. intros x y [k z] _ _ E1 E2.
        destruct (st_get_symbol (anno_keys s) x); simpl in E1; [|done]. destruct (st_get_symbol (anno_keys s) y); simpl in E2; [|done]. congruence. }
      set (f := λ item (sk : nat * anno_key), all_annos ← by_container s !! item; _ ← al_get Nat.compare all_annos sk.1; Some (item, sk.2)).
      assert (∀ i sk z, f i sk = Some z ↔ is_Some (sym s i sk.1) ∧ z = (i, sk.2)) as Hf.
      { intros i sk z. unfold f, sym. destruct (by_container s !! i) as [l|]; simpl.
        - destruct (al_get Nat.compare l sk.1); simpl; unfold is_Some; naive_solver.
        - unfold is_Some; naive_solver. }
      split.
      * intros i key. rewrite elem_of_list_bind. split.
        -- intros (i' & Hi & Hin). apply elem_of_list_omap in Hi as ([k key'] & Hk & [Hs [= -> ->]]%Hf).
           apply Hsy in Hk as [Hq1 Hk]. simpl in *. rewrite Hsym in Hs by done. split_and!; try done.
           by apply Hq in Hq1 as [? _].
        -- intros (Hi & Hs & Hn & _). exists i. split; [|done]. apply elem_of_list_omap.
           pose proof Hs as [av HM]. destruct (M_sym _ _ _ _ _ _ I HM) as (k & v & Hk & _).
           exists (k, key). split; [apply Hsy; split; [apply Hq; eauto|done]|]. apply Hf. simpl. by rewrite Hsym.
      * intros Hnd. apply NoDup_bind_ext; [done| |].
        -- intros i _. apply NoDup_omap_inj; [done|]. intros [k1 x] [k2 y] z H1 H2 [_ E1]%Hf [_ E2]%Hf.
           simpl in *. assert (x = y) by congruence. subst. apply Hsy in H1 as [_ ?], H2 as [_ ?]. congruence.
        -- intros i j z _ _ Hi Hj. apply elem_of_list_omap in Hi as (? & _ & [_ E1]%Hf).
           apply elem_of_list_omap in Hj as (? & _ & [_ E2]%Hf). congruence.
  - split.
    + intros i key. rewrite elem_of_list_bind. split.
      * intros (i' & Hi & Hin). apply elem_of_list_fmap in Hi as (key' & [= -> ->] & Hk).
        apply (get_all_keys_lemma _ _ _ _ None None I) in Hk as [? _]. done.
      * intros (Hi & Hs & _). exists i. split; [|done]. apply elem_of_list_fmap. exists key. split; [done|].
        by apply (get_all_keys_lemma _ _ _ _ None None I).
    + intros Hnd. apply NoDup_bind_ext; [done| |].
      * intros i _. apply NoDup_fmap_inj_on; [|intros x y _ _ E; by injection E].
        apply (get_all_keys_lemma _ _ _ _ None None I).
      * intros i j z _ _ Hi Hj. apply elem_of_list_fmap in Hi as (? & -> & _).
        apply elem_of_list_fmap in Hj as (? & [= -> _] & _). done.
Qed.
End queries.
Section numbers.
Context {T : Type} `{Countable T} (tcmp : T → T → comparison) `{!CmpOrder tcmp}.
Lemma number_ge_lemma (s : am T) leak M : inv tcmp s leak M → size M ≤ am_number_of_annotations s.
Proof. intros I. unfold am_number_of_annotations. rewrite (c_total _ _ _ _ _ _ _ _ (i_core _ _ _ _ I)). lia. Qed.
Lemma number_lemma (s : am T) M : inv tcmp s 0 M →
  am_number_of_annotations s = size M ∧ (am_is_empty s = true ↔ M = ∅).
Proof.
  intros I. pose proof (c_total _ _ _ _ _ _ _ _ (i_core _ _ _ _ I)) as E.
  unfold am_number_of_annotations, am_is_empty. split; [lia|].
  rewrite bool_decide_eq_true, E, Nat.add_0_r. apply map_size_empty_iff.
Qed.
End numbers.
