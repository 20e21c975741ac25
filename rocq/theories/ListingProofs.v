(** Proofs about the listings of a corpus. *)
From stdpp Require Import base list gmap sorting.
From Coq Require Import NArith Lia.
From Verif Require Import KeySer KeySerSpec KeySerProofs SortedMap Types SymbolTable SymTabIface DiskMap AnnoMem AnnoSpec AnnoMemProofs AnnoMemQueries
  AnnoDisk AnnoDiskSpec AnnoDiskProofs AnnoDiskQueries ListExtra Adjacency GraphApply Persist PersistSpec PersistProofs Listing ListingSpec.

(** ** The loop *)
Lemma list_annotations_in keys av lv mff l : list_annotations keys av lv mff = Some l →
  ∀ x, x ∈ l ↔ ∃ k r, k ∈ keys ∧ list_key av lv mff k = Some r ∧ x ∈ r.
Proof.
  revert l. induction keys as [|k keys IH]; intros l; cbn [list_annotations].
  { intros [= <-] x. split; [by intros ?%elem_of_nil|]. by intros (k & r & ?%elem_of_nil & _). }
  destruct (list_key av lv mff k) as [r|] eqn:Ek; [|done].
  destruct (list_annotations keys av lv mff) as [r2|]; [|done]. intros [= <-] x.
  rewrite elem_of_app, (IH r2 eq_refl). split.
  - intros [Hx|(k' & r' & Hk & Hr & Hx)]; [exists k, r; split; [by left|done]|exists k', r'; split; [by right|done]].
  - intros (k' & r' & [->|Hk]%elem_of_cons & Hr & Hx); [left; congruence|right; eauto].
Qed.
Lemma list_annotations_some keys av lv mff : (∀ k b, k ∈ keys → is_Some (av k b)) →
  is_Some (list_annotations keys av lv mff).
Proof.
  induction keys as [|k keys IH]; intros H; cbn [list_annotations]; [eauto|].
  destruct IH as [r2 ->]; [intros; apply H; by right|].
  assert (is_Some (list_key av lv mff k)) as [r ->]; [|eauto].
  unfold list_key. destruct lv; [|eauto]. destruct mff.
  - destruct (H k true) as [[|v vs] ->]; [by left|eauto..].
  - destruct (H k false) as [vs ->]; [by left|eauto].
Qed.
Lemma list_key_fst av lv mff k r x : list_key av lv mff k = Some r → x ∈ r → x.1 = k.
Proof.
  unfold list_key. destruct lv, mff.
  - destruct (av k true) as [[|v vs]|]; intros [= <-]; [by intros ?%elem_of_nil|]. by intros ->%elem_of_list_singleton.
  - destruct (av k false) as [vs|]; intros [= <-]. intros (v & -> & _)%elem_of_list_In%in_map_iff%elem_of_list_In || idtac.
    intros (v & <- & _)%elem_of_list_In%in_map_iff. done.
  - intros [= <-]. by intros ->%elem_of_list_singleton.
  - intros [= <-]. by intros ->%elem_of_list_singleton.
Qed.

Lemma list_key_nodup av lv mff k r : list_key av lv mff k = Some r → (∀ vs, av k false = Some vs → NoDup vs) → NoDup r.
Proof.
  unfold list_key. destruct lv, mff.
  - destruct (av k true) as [[|v vs]|]; intros [= <-] _; [constructor|apply NoDup_singleton].
  - destruct (av k false) as [vs|]; intros [= <-] H. apply (NoDup_fmap_2 (λ v, (k, v))). by apply H.
  - intros [= <-] _. apply NoDup_singleton.
  - intros [= <-] _. apply NoDup_singleton.
Qed.
Lemma list_annotations_nodup keys av lv mff l : list_annotations keys av lv mff = Some l → NoDup keys →
  (∀ k vs, av k false = Some vs → NoDup vs) → NoDup l.
Proof.
  intros H Hnd Hav. revert l H. induction Hnd as [|k keys Hk Hnd IH]; intros l; cbn [list_annotations].
  { intros [= <-]. constructor. }
  destruct (list_key av lv mff k) as [r|] eqn:Ek; [|done].
  destruct (list_annotations keys av lv mff) as [r2|] eqn:E2; [|done]. intros [= <-].
  apply NoDup_app. split_and!.
  - by eapply list_key_nodup; [|apply Hav].
  - intros x Hx Hx2. apply (list_annotations_in _ _ _ _ _ E2) in Hx2 as (k' & r' & Hk' & Er & Hx2).
    apply (list_key_fst _ _ _ _ _ _ Ek) in Hx. apply (list_key_fst _ _ _ _ _ _ Er) in Hx2. congruence.
  - by apply IH.
Qed.
(** With only the most frequent values there is at most one entry for a key *)
Lemma list_annotations_keys keys av l : list_annotations keys av true true = Some l →
  (∀ k, k ∈ keys → ∃ v vs, av k true = Some (v :: vs)) → l.*1 = keys.
Proof.
  revert l. induction keys as [|k keys IH]; intros l; cbn [list_annotations].
  { by intros [= <-]. }
  intros H Hav. destruct (Hav k) as (v & vs & E); [by left|]. unfold list_key in H. rewrite E in H.
  destruct (list_annotations keys av true true) as [r2|]; [|done]. injection H as <-. cbn. f_equal.
  apply IH; [done|]. intros k' ?. apply Hav. by right.
Qed.

Section lists.
Context {T : Type} `{Countable T} (M : gmap (T * anno_key) bytes) (keys : list anno_key) (av : anno_key → bool → option (list bytes)).
Context (Hnd : NoDup keys) (Hkeys : ∀ k, k ∈ keys ↔ ∃ i, is_Some (M !! (i, k))).
Context (Hav : ∀ k b, ∃ vs, av k b = Some vs ∧ NoDup vs ∧ ∀ v, v ∈ vs ↔ ∃ i, M !! (i, k) = Some v).

Lemma lists_some lv mff : is_Some (list_annotations keys av lv mff).
Proof. apply list_annotations_some. intros k b _. destruct (Hav k b) as (vs & -> & _). eauto. Qed.
Lemma lists_nodup lv mff l : list_annotations keys av lv mff = Some l → NoDup l.
Proof.
  intros E. eapply list_annotations_nodup; [done..|]. intros k vs Ek. destruct (Hav k false) as (vs' & E' & Hv & _).
  rewrite E' in Ek. injection Ek as <-. done.
Qed.
Lemma lists_names_lemma mff l : list_annotations keys av false mff = Some l → lists_names M l.
Proof.
  intros E. split; [by eapply lists_nodup|]. intros k v. rewrite (list_annotations_in _ _ _ _ _ E). cbn. split.
  - intros (k' & r & Hk & [= <-] & [= <- ->]%elem_of_list_singleton). split; [done|by apply Hkeys].
  - intros [-> Hk]. exists k, [(k, [])]. split; [by apply Hkeys|]. split; [done|by apply elem_of_list_singleton].
Qed.
Lemma lists_values_lemma l : list_annotations keys av true false = Some l → lists_values M l.
Proof.
  intros E. split; [by eapply lists_nodup|]. intros k v. rewrite (list_annotations_in _ _ _ _ _ E). unfold list_key. split.
  - intros (k' & r & Hk & Er & Hx). destruct (Hav k' false) as (vs & E' & _ & Hv). rewrite E' in Er. injection Er as <-.
    apply elem_of_list_In, in_map_iff in Hx as (v' & [= -> ->] & Hx). apply elem_of_list_In in Hx. by apply Hv.
  - intros [i Hi]. destruct (Hav k false) as (vs & E' & _ & Hv). exists k. rewrite E'. eexists.
    split; [apply Hkeys; eauto|]. split; [done|]. apply elem_of_list_In, in_map_iff. exists v. split; [done|].
    apply elem_of_list_In, Hv. eauto.
Qed.
Lemma lists_first l k v : list_annotations keys av true true = Some l → (k, v) ∈ l → ∃ vs, av k true = Some (v :: vs).
Proof.
  intros E Hx. apply (list_annotations_in _ _ _ _ _ E) in Hx as (k' & r & Hk & Er & Hx). unfold list_key in Er.
  destruct (av k' true) as [[|v' vs]|] eqn:Ea; [|injection Er as <-..|done].
  - injection Er as <-. by apply elem_of_nil in Hx.
  - apply elem_of_list_singleton in Hx as [= -> ->]. eauto.
Qed.
Lemma lists_one_lemma l : list_annotations keys av true true = Some l → lists_one_value M l.
Proof.
  intros E. assert (l.*1 = keys) as Ek.
  { apply (list_annotations_keys _ av); [done|]. intros k Hk. apply Hkeys in Hk as (i & v & Hi).
    destruct (Hav k true) as (vs & E' & _ & Hv). destruct vs as [|v' vs]; [|eauto].
    exfalso. apply (not_elem_of_nil v), Hv. eauto. }
  split; [by rewrite Ek|]. split; [intros k; by rewrite Ek|]. intros k v Hx. destruct (lists_first _ _ _ E Hx) as [vs E1].
  destruct (Hav k true) as (vs' & E' & _ & Hv). rewrite E1 in E'. injection E' as <-. apply Hv. by left.
Qed.
End lists.

(** ** Annotations in main memory *)
Lemma list_am_lemma {T} `{Countable T} (tcmp : T → T → comparison) `{!CmpOrder tcmp} (s : am T) leak M lv mff : inv tcmp s leak M →
  ∃ l, list_am (Some s) lv mff = Some l ∧
    if lv then if mff then lists_most_frequent M l else lists_values M l else lists_names M l.
Proof.
  intros I. destruct (annotation_keys_lemma tcmp s leak M I) as [Hs Hk].
  assert (NoDup (am_annotation_keys s)) as Hnd by (by apply sorted_nodup).
  assert (∀ k b, ∃ vs, Some (am_get_all_values s k b) = Some vs ∧ NoDup vs ∧ ∀ v, v ∈ vs ↔ ∃ i, M !! (i, k) = Some v) as Hav.
  { intros k b. eexists. split; [done|]. destruct (get_all_values_lemma tcmp s leak M k b I) as (? & ? & _). done. }
  destruct (lists_some M (am_annotation_keys s) (λ k b, Some (am_get_all_values s k b)) Hav lv mff) as [l E].
  exists l. split; [done|]. destruct lv; [|eapply lists_names_lemma; [exact Hnd|exact Hk|exact Hav|exact E]]. destruct mff; [|eapply lists_values_lemma; [exact Hnd|exact Hk|exact Hav|exact E]].
  split; [eapply lists_one_lemma; [exact Hnd|exact Hk|exact Hav|exact E]|]. intros k v v' Hx. destruct (lists_first _ _ _ _ _ E Hx) as [vs [= E1]].
  destruct (get_all_values_lemma tcmp s leak M k true I) as (_ & Hin & Hsort). specialize (Hsort eq_refl).
  rewrite E1 in Hin, Hsort. apply StronglySorted_inv in Hsort as [_ Hf]. rewrite Forall_forall in Hf.
  destruct (decide (v' ∈ v :: vs)) as [[->|Hv]%elem_of_cons|Hn]; [done|by apply Hf|].
  assert (count_value M k v' = 0) as ->; [|lia].
  unfold count_value. apply map_size_empty_iff, map_empty. intros [i k']. apply map_filter_lookup_None. right.
  intros v2 Hi [Hk2 Hv2]. cbn in Hk2, Hv2. subst. apply Hn, Hin. eauto.
Qed.

(** ** Annotations on disk *)
Section disk.
Context {T : Type} `{Countable T} (P : T → Prop) (tcmp : T → T → comparison) `{!CmpOrder tcmp} (w : nat)
  (ser : T → bytes) (parse : bytes → res T).
Context (IO : item_ok P tcmp w ser parse).
Implicit Types (M : gmap (T * anno_key) bytes) (s : ad T).
Notation dinvar := (dinvar P tcmp ser).

Lemma parse_value j k v : parse_qname_value w (qname_key (ser j) k v) = v.
Proof.
  unfold parse_qname_value, qname_key.
  replace (length _ - w - 1) with (length (be_bytes 8 (N.of_nat k) ++ v)).
  2:{ rewrite !app_length, (it_len _ _ _ _ _ IO). cbn. lia. }
  rewrite (assoc_L (++)), take_app. apply drop_app_alt. by rewrite be_bytes_length.
Qed.
Definition entries_of M (k : anno_key) : list (T * anno_key * bytes) := map_to_list (filter (λ x, x.1.2 = k) M).
Lemma entries_in M k i k' v : (i, k', v) ∈ entries_of M k ↔ k' = k ∧ M !! (i, k') = Some v.
Proof. unfold entries_of. rewrite elem_of_map_to_list, map_filter_lookup_Some. cbn. tauto. Qed.
Lemma values_range s M ak : dinvar s M →
  ∃ l, qname_range s ak = Some l ∧ (λ e : bytes * bool, parse_qname_value w e.1) <$> l ≡ₚ (entries_of M ak).*2.
Proof.
  intros I. unfold qname_range. destruct (st_get_symbol (d_symbols s) ak) as [k|] eqn:Ek.
  - assert (st_get_value (d_symbols s) k = Some ak) as Hk by (by apply st_ok_sym; [apply I|]).
    destruct (repr_range _ _ _ _ (a_q _ _ _ _ _ I) (scan_no_panic k [] char_max ltac:(done))) as (l & El & Hs & Hl).
    exists l. split; [done|].
    assert (l ≡ₚ (λ x : T * anno_key * bytes, (qname_key (ser x.1.1) k x.2, true)) <$> entries_of M ak) as ->.
    { apply NoDup_Permutation.
      - apply (NoDup_fmap_1 fst). by apply (al_sorted_NoDup lex_compare).
      - apply NoDup_fmap_2_strong; [|apply NoDup_map_to_list].
        intros [[i k1] v] [[j k2] v'] [-> Hi]%entries_in [-> Hj]%entries_in E. cbn [fst snd] in E.
        apply (f_equal fst) in E. cbn [fst] in E.
        apply (qname_key_inj P tcmp w ser parse IO) in E as (-> & _ & ->); [done|by eapply I|by eapply I|by eapply (a_fits P tcmp ser s M)..].
      - intros [b x]. rewrite Hl, elem_of_list_fmap. split.
        + intros [(-> & j & ak' & k' & v & HM & Hk' & ->) Hb].
          apply scan_bounds in Hb as [-> Hin]; [|by eapply (a_fits P tcmp ser s M)..].
          exists (j, ak', v). split; [done|]. apply entries_in. split; [congruence|done].
        + intros ([[j k1] v] & [= -> ->] & [-> HM]%entries_in). cbn [fst snd]. split; [split; [done|]; by exists j, ak, k, v|].
          apply scan_bounds; [by eapply (a_fits P tcmp ser s M)..|]. split; [done|].
          apply (in_scan_any P tcmp w ser parse IO); by eapply I. }
    rewrite <- list_fmap_compose.
    assert (∀ L : list (T * anno_key * bytes), ((λ e : bytes * bool, parse_qname_value w e.1) ∘ (λ x : T * anno_key * bytes, (qname_key (ser x.1.1) k x.2, true))) <$> L = L.*2) as ->; [|done].
    intros L. apply list_fmap_ext. intros i x _. cbn. apply parse_value.
  - exists []. split; [done|]. cbn. assert (entries_of M ak = []) as ->; [|done].
    apply elem_of_nil_inv. intros [[i k] v] [-> HM]%entries_in.
    destruct (a_has _ _ _ _ _ I i ak) as [k Hk]; [eauto|]. apply st_ok_sym in Hk; [|apply I]. congruence.
Qed.

(** Counting values *)
Lemma count_values_lookup l acc v :
  count_values l acc !! v =
    let n := default 0 (acc !! v) + length (filter (λ x, x = v) l) in if decide (v ∈ l) then Some n else acc !! v.
Proof.
  revert acc. induction l as [|x l IH]; intros acc; cbn [count_values].
  { rewrite decide_False by apply not_elem_of_nil. done. }
  rewrite IH, filter_cons. cbv zeta. destruct (decide (x = v)) as [->|Hne].
  - rewrite lookup_insert. rewrite (decide_True (P := v ∈ v :: l)) by left. cbn.
    destruct (decide (v ∈ l)) as [Hv|Hv]; [f_equal; lia|]. f_equal.
    assert (filter (λ x, x = v) l = []) as ->; [|cbn; lia].
    apply elem_of_nil_inv. intros y [-> Hy]%elem_of_list_filter. done.
  - rewrite lookup_insert_ne by done. destruct (decide (v ∈ l)) as [Hv|Hv].
    + by rewrite decide_True by (by right).
    + rewrite decide_False; [done|]. by intros [->|?]%elem_of_cons.
Qed.
Lemma entries_count M k v : length (filter (λ x, x = v) (entries_of M k).*2) = count_value M k v.
Proof.
  unfold count_value, size, map_size.
  assert (map_to_list (filter (λ x : T * anno_key * bytes, x.1.2 = k ∧ x.2 = v) M) ≡ₚ
          filter (λ x : T * anno_key * bytes, x.2 = v) (entries_of M k)) as ->.
  { apply NoDup_Permutation; [apply NoDup_map_to_list|apply NoDup_filter, NoDup_map_to_list|].
    intros [[i k'] v']. rewrite elem_of_map_to_list, elem_of_list_filter, entries_in, map_filter_lookup_Some. cbn. tauto. }
  induction (entries_of M k) as [|x l IH]; [done|]. cbn [fmap list_fmap]. rewrite !filter_cons.
  destruct (decide (x.2 = v)); cbn; by rewrite IH.
Qed.
Lemma entries_values M k v : v ∈ (entries_of M k).*2 ↔ ∃ i, M !! (i, k) = Some v.
Proof.
  rewrite elem_of_list_fmap. split.
  - intros ([[i k'] v'] & -> & [-> Hi]%entries_in). eauto.
  - intros [i Hi]. exists (i, k, v). split; [done|]. by apply entries_in.
Qed.

Lemma dget_all_values s M ak mff : dinvar s M →
  ∃ vs, ad_get_all_values w s ak mff = Some vs ∧ NoDup vs ∧ (∀ v, v ∈ vs ↔ ∃ i, M !! (i, ak) = Some v) ∧
    (mff = true → StronglySorted (λ v v', count_value M ak v ≤ count_value M ak v') vs).
Proof.
  intros I. unfold ad_get_all_values. destruct (values_range s M ak I) as (l & -> & Hp). cbn [mbind option_bind].
  set (values := _ <$> l) in *. destruct mff.
  - set (L := map_to_list (count_values values ∅)). eexists. split; [done|].
    assert (∀ v n, (v, n) ∈ L ↔ (∃ i, M !! (i, ak) = Some v) ∧ n = count_value M ak v) as HL.
    { intros v n. unfold L. rewrite elem_of_map_to_list, count_values_lookup, lookup_empty. cbn.
      rewrite <- entries_values, <- entries_count, <- Hp. destruct (decide (v ∈ values)); [|naive_solver].
      split; [by intros [= <-]|by intros [_ ->]]. }
    assert ((sort_list count_value_compare ((λ x : bytes * nat, (x.2, x.1)) <$> L)).*2 ≡ₚ L.*1) as Hp2.
    { rewrite sort_list_perm, <- list_fmap_compose. done. }
    split_and!.
    + rewrite Hp2. apply NoDup_fst_map_to_list.
    + intros v. rewrite Hp2, elem_of_list_fmap. split.
      * intros ([v' n] & -> & [? _]%HL). done.
      * intros Hv. exists (v, count_value M ak v). split; [done|]. by apply HL.
    + intros _. apply (StronglySorted_fmap_in (λ a b : nat * bytes, a.1 ≤ b.1)).
      * apply sort_list_sorted.
        -- intros a b c ? ?. lia.
        -- intros a b. unfold count_value_compare. destruct (Nat.compare_spec a.1 b.1); [lia|lia|done].
        -- intros a b. unfold count_value_compare. destruct (Nat.compare_spec a.1 b.1); [lia|done|lia].
      * intros [n1 v1] [n2 v2]. rewrite !sort_list_perm, !elem_of_list_fmap.
        intros ([v1' n1'] & [= -> ->] & [_ ->]%HL) ([v2' n2'] & [= -> ->] & [_ ->]%HL). done.
  - eexists. split; [done|]. split; [apply NoDup_remove_dups|]. split; [|done].
    intros v. by rewrite elem_of_remove_dups, Hp, entries_values.
Qed.

Lemma list_ad_lemma s M lv mff : dinvar s M →
  ∃ l, list_ad w (Some s) lv mff = Some l ∧
    if lv then if mff then lists_least_frequent M l else lists_values M l else lists_names M l.
Proof.
  intros I. destruct (dannotation_keys P tcmp ser s M I) as [Hnd Hk].
  assert (∀ k b, ∃ vs, ad_get_all_values w s k b = Some vs ∧ NoDup vs ∧ ∀ v, v ∈ vs ↔ ∃ i, M !! (i, k) = Some v) as Hav.
  { intros k b. destruct (dget_all_values s M k b I) as (vs & ? & ? & ? & _). eauto. }
  destruct (lists_some M (ad_annotation_keys s) (λ k b, ad_get_all_values w s k b) Hav lv mff) as [l E].
  exists l. split; [done|]. destruct lv; [|eapply lists_names_lemma; [exact Hnd|exact Hk|exact Hav|exact E]]. destruct mff; [|eapply lists_values_lemma; [exact Hnd|exact Hk|exact Hav|exact E]].
  split; [eapply lists_one_lemma; [exact Hnd|exact Hk|exact Hav|exact E]|]. intros k v i v' Hx Hi. destruct (lists_first _ _ _ _ _ E Hx) as [vs E1].
  destruct (dget_all_values s M k true I) as (vs' & E2 & _ & Hin & Hsort). specialize (Hsort eq_refl).
  rewrite E1 in E2. injection E2 as <-. apply StronglySorted_inv in Hsort as [_ Hf]. rewrite Forall_forall in Hf.
  assert (v' ∈ v :: vs) as [->|Hv]%elem_of_cons by (apply Hin; eauto); [done|by apply Hf].
Qed.
End disk.

(** ** Components *)
Lemma listed_components s ctype name d c : active s = Some d → d_gs d = Good <$> c →
  NoDup (list_components s ctype name) ∧
  ∀ x, x ∈ list_components s ctype name ↔ is_Some (c !! x) ∧ requested ctype name x.
Proof.
  intros Ha Hd. unfold list_components. rewrite Ha. split.
  - apply NoDup_ListNoDup. apply List.NoDup_filter, List.NoDup_filter. apply NoDup_ListNoDup, NoDup_fst_map_to_list.
  - intros x. rewrite elem_of_list_In, !filter_In, <- elem_of_list_In, elem_of_list_fmap. unfold requested.
    assert ((∃ y : comp * option adj, x = y.1 ∧ y ∈ map_to_list (omap listed (d_gs d))) ↔ is_Some (c !! x)) as ->.
    { split.
      - intros ([x' o] & -> & Hx%elem_of_map_to_list). rewrite Hd, lookup_omap, lookup_fmap in Hx. cbn.
        destruct (c !! x'); [eauto|done].
      - intros [g Hg]. exists (x, None). split; [done|]. apply elem_of_map_to_list. by rewrite Hd, lookup_omap, lookup_fmap, Hg. }
    assert (has_type ctype x = true ↔ ∀ t, ctype = Some t → x.1.1 = t) as ->.
    { unfold has_type. destruct ctype; [rewrite bool_decide_eq_true|]; naive_solver. }
    assert (has_name name x = true ↔ ∀ n, name = Some n → x.2 = n) as ->.
    { unfold has_name. destruct name; [rewrite bool_decide_eq_true|]; naive_solver. }
    tauto.
Qed.
Lemma saved_components ct s m c ctype name : hist ct Saved s m c →
  NoDup (list_components s ctype name) ∧
  ∀ x, x ∈ list_components s ctype name ↔ is_Some (c.2 !! x) ∧ requested ctype name x.
Proof.
  intros H. apply hist_inv in H as (Hb & (d & Hd & [[_ Hg] _]) & _). apply (listed_components s ctype name d); [|done].
  unfold active. by rewrite Hb.
Qed.
Lemma logged_components ct s m c l m' acts ctype name : hist ct Saved s (Some m) c → do_update ct s m l = Some (m', acts) →
  list_components (run_acts s acts) ctype name = list_components s ctype name.
Proof.
  intros H Hu. apply hist_inv in H as (Hb & (d & Hd & [[_ Hg] _]) & _).
  unfold do_update in Hu. destruct (ensure_loaded_all s m) as [m1|]; [|done]. cbn in Hu.
  destruct (apply_update ct (to_gstate m1) l) as [g|]; [|done]. cbn in Hu. injection Hu as <- <-.
  unfold list_components, active. cbn. rewrite Hb, Hd. done.
Qed.
