(** C11: the on-disk annotation storage answers like the in-memory one. The conditions ([item_ok],
    [op_ok], [no_overwrite], [tidy_history]) are in AnnoDiskSpec.v; the [_refuted] theorems show that none
    of them can be dropped. *)
From stdpp Require Import base list gmap fin_maps sorting.
From Coq Require Import NArith.
From Verif Require Import KeySer KeySerSpec SortedMap DiskMap Types TypesProofs SymbolTable AnnoMem AnnoSpec
  AnnoMemProofs AnnoMemQueries AnnoDisk AnnoDiskSpec AnnoDiskProofs AnnoDiskQueries.

(** Missing for the full C11: histories that replace values, values with NUL or U+10FFFF, and histories
    that remove annotations and have enough inserts to evict the memory tables. *)
Theorem C11_disk_and_memory_agree_partial {T} `{Countable T} (P : T → Prop) (tcmp : T → T → comparison)
  `{!CmpOrder tcmp} (w : nat) (ser : T → bytes) (parse : bytes → res T) :
  item_ok P tcmp w ser parse →
  ∀ n ops m outs, am_run tcmp am_new ops = (m, outs) →
  Forall (op_ok P) ops → no_overwrite ∅ ops → tidy_history n ops → (N.of_nat (length ops) <= usize_max)%N →
  ∃ d, ad_run tcmp w ser (ad_new n) ops = Some (d, outs) ∧
    (∀ i k, P i → ad_get_value ser d i k = am_get_value m i k) ∧
    (∀ i k, P i → ad_has_value ser d i k = am_has_value m i k) ∧
    (∀ i, P i → ∃ l, ad_get_annotations w ser parse d i = Some l ∧ l ≡ₚ am_get_annotations m i) ∧
    (∀ ns name vs, (∀ v, vs = VSome v → Forall (λ b, b ≠ 0%N) v) →
       ∃ l, ad_exact_search w ser parse d ns name vs = Some l ∧ l ≡ₚ am_exact_search m ns name vs) ∧
    (∀ ns name re prefix negated, (∀ v, re v = true → prefix `prefix_of` v) →
       ∃ l, ad_regex_search w ser parse d ns name (Some (re, prefix)) negated = Some l ∧
         l ≡ₚ am_regex_search m ns name (Some re) negated).
Proof.
  intros IO n ops m outs Hr Ho Hno Ht Hlen.
  destruct (inv_run_new tcmp ops m outs Hr) as [Hos (leak & I & _)].
  pose proof (run_no_err tcmp ops am_new 0 m outs Hr (le_n 0) (le_n 0) Hlen) as Herr.
  destruct (run_new P tcmp w ser parse IO n ops Ho Hno Ht Hlen) as (d & outs' & Hd & Herr' & Hos' & D & Hc).
  assert (outs' = outs) as -> by exact (as_outs_ok_unique P ops outs' outs ∅ Herr' Herr Hos' Hos).
  rewrite (as_run_content ops outs Herr (as_outs_ok_length _ _ _ Hos)) in I.
  pose proof (content_values_ok P ops Ho) as HV. unfold as_content in D, HV.
  remember (fold_left _ ops ∅) as M eqn:EM. clear EM. exists d. split_and!; [done| | | | |].
  - intros i k Hi. rewrite (dget_value P tcmp w ser parse IO d M i k D Hi).
    symmetry. exact (get_value_lemma tcmp m leak M i k I).
  - intros i k Hi. rewrite (has_value_lemma tcmp m leak M i k I).
    apply eq_bool_prop_intro. rewrite !Is_true_true, bool_decide_eq_true.
    exact (dhas_value P tcmp w ser parse IO d M i k D Hc Hi).
  - intros i Hi. destruct (dget_annotations P tcmp w ser parse IO d M i D Hi) as (l & E & Hnd & Hl).
    exists l. split; [done|]. destruct (get_annotations_lemma tcmp m leak M i I) as [Hnd' Hl'].
    apply NoDup_Permutation; [by apply (NoDup_fmap_1 fst)|by apply (NoDup_fmap_1 fst)|].
    intros [k v]. by rewrite Hl, Hl'.
  - intros ns name vs Hvs.
    destruct (dexact_search P tcmp w ser parse IO d M ns name vs D HV Hvs) as (l & E & Hnd & Hl).
    exists l. split; [done|]. destruct (exact_search_lemma tcmp m leak M ns name vs I) as [Hnd' Hl'].
    apply NoDup_Permutation; [done..|]. intros [i k]. by rewrite Hl, Hl'.
  - intros ns name re prefix negated Hre.
    destruct (dregex_search P tcmp w ser parse IO d M ns name re prefix negated D HV Hre) as (l & E & Hnd & Hl).
    exists l. split; [done|]. destruct (regex_search_lemma tcmp m leak M ns name (Some re) negated I) as [Hnd' Hl'].
    apply NoDup_Permutation; [done..|]. intros [i k]. by rewrite Hl, Hl'.
Qed.
Print Assumptions C11_disk_and_memory_agree_partial.

(** The on-disk storage against the specified content (AnnoSpec.v): counts, keys and node names. *)
Theorem C11_disk_content_partial {T} `{Countable T} (P : T → Prop) (tcmp : T → T → comparison)
  `{!CmpOrder tcmp} (w : nat) (ser : T → bytes) (parse : bytes → res T) :
  item_ok P tcmp w ser parse →
  ∀ n ops,
  Forall (op_ok P) ops → no_overwrite ∅ ops → tidy_history n ops → (N.of_nat (length ops) <= usize_max)%N →
  let M := as_content ops in
  ∃ d outs, ad_run tcmp w ser (ad_new n) ops = Some (d, outs) ∧ AmErr ∉ outs ∧ as_outs_ok ∅ ops outs ∧
    ad_number_of_annotations d = Some (size M) ∧
    (∃ b, ad_is_empty d = Some b ∧ (b = true ↔ M = ∅)) ∧
    NoDup (ad_annotation_keys d) ∧
    (∀ k, k ∈ ad_annotation_keys d ↔ ∃ i, is_Some (M !! (i, k))) ∧
    (∀ name k, k ∈ ad_get_qnames d name ↔ ak_name k = name ∧ ∃ i, is_Some (M !! (i, k))) ∧
    (∀ i k, is_Some (M !! (i, k)) → ∃ x, ad_largest_item d = Some x ∧ tcmp i x ≠ Gt) ∧
    (∀ nn name, Forall (λ b, b ≠ 0%N) name →
       (∃ r, ad_node_id_from_name w parse nn d name = Some r ∧
          match r with Some j => M !! (j, nn) = Some name | None => ∀ j, M !! (j, nn) ≠ Some name end) ∧
       ∃ b, ad_has_node_name nn d name = Some b ∧ (b = true ↔ ∃ j, M !! (j, nn) = Some name)).
Proof.
  intros IO n ops Ho Hno Ht Hlen M.
  destruct (run_new P tcmp w ser parse IO n ops Ho Hno Ht Hlen) as (d & outs & Hd & Herr & Hos & D & Hc).
  pose proof (content_values_ok P ops Ho) as HV. exists d, outs.
  split_and!; [done|done|done| | | | | | |].
  - apply (dnumber P tcmp w ser parse IO d M D).
  - apply (dnumber P tcmp w ser parse IO d M D).
  - apply (dannotation_keys P tcmp ser d M D).
  - apply (dannotation_keys P tcmp ser d M D).
  - intros name. apply (dqnames P tcmp ser d M name D).
  - exact (a_largest _ _ _ _ _ D).
  - intros nn name Hn. exact (dnode_id P tcmp w ser parse IO d M nn name D HV Hn).
Qed.
Print Assumptions C11_disk_content_partial.

(** The two item types used by the code meet [item_ok] (node ids below u64::MAX). *)
Theorem C11_items_ok :
  item_ok (λ i, (i < 18446744073709551615)%N) N.compare 8 (uint_create_key 8) (uint_parse_key 8) ∧
  item_ok (λ e, (source e < 18446744073709551615)%N ∧ fits 8 (target e)) edge_compare 16
    edge_create_key edge_parse_key.
Proof. exact (conj node_item_ok edge_item_ok). Qed.
Print Assumptions C11_items_ok.

Notation ndrun n := (ad_run N.compare 8 (uint_create_key 8) (ad_new n)).
Notation ndsearch := (ad_exact_search 8 (uint_create_key 8) (uint_parse_key 8)).
Definition key_a : anno_key := AnnoKey [97%N] [].

(** Replacing a value: searching for the old value still finds the item. *)
Theorem C11_overwrite_refuted :
  ∃ ops : list (am_op N), let m := (am_run N.compare am_new ops).1 in
    am_exact_search m None [97%N] (VSome [120%N]) = [] ∧
    match ndrun 10000 ops with
    | Some (d, _) => ndsearch d None [97%N] (VSome [120%N]) = Some [(1%N, key_a)]
    | None => False
    end.
Proof.
  exists [AmInsert 1%N key_a [120%N]; AmInsert 1%N key_a [121%N]]. split; vm_compute; reflexivity.
Qed.
Print Assumptions C11_overwrite_refuted.

(** A value with a NUL character: searching for a part of it finds the item. *)
Theorem C11_nul_value_refuted :
  ∃ ops : list (am_op N), let m := (am_run N.compare am_new ops).1 in
    am_exact_search m None [97%N] (VSome [120%N]) = [] ∧
    match ndrun 10000 ops with
    | Some (d, _) => ndsearch d None [97%N] (VSome [120%N]) = Some [(1%N, key_a)]
    | None => False
    end.
Proof. exists [AmInsert 1%N key_a [120%N; 0%N; 121%N]]. split; vm_compute; reflexivity. Qed.
Print Assumptions C11_nul_value_refuted.

(** A value starting with U+10FFFF: the item is not found by its name. *)
Theorem C11_char_max_value_refuted :
  ∃ ops : list (am_op N), let m := (am_run N.compare am_new ops).1 in
    am_exact_search m None [97%N] VAny = [(1%N, key_a)] ∧
    match ndrun 10000 ops with
    | Some (d, _) => ndsearch d None [97%N] VAny = Some []
    | None => False
    end.
Proof. exists [AmInsert 1%N key_a (char_max ++ [120%N])]. split; vm_compute; reflexivity. Qed.
Print Assumptions C11_char_max_value_refuted.

(** The largest node id is not found by an exact search. *)
Theorem C11_largest_id_refuted :
  ∃ ops : list (am_op N), let m := (am_run N.compare am_new ops).1 in
    am_exact_search m None [97%N] (VSome [120%N]) = [(18446744073709551615%N, key_a)] ∧
    match ndrun 10000 ops with
    | Some (d, _) => ndsearch d None [97%N] (VSome [120%N]) = Some []
    | None => False
    end.
Proof. exists [AmInsert 18446744073709551615%N key_a [120%N]]. split; vm_compute; reflexivity. Qed.
Print Assumptions C11_largest_id_refuted.

(** Removing after an eviction and adding the annotation again: the number of annotated items is counted
    wrongly, the key is dropped too early and the value is lost. (The memory tables hold two
    entries here instead of 10000.) *)
Theorem C11_removal_after_eviction_refuted :
  ∃ ops : list (am_op N), let m := (am_run N.compare am_new ops).1 in
    no_overwrite ∅ ops ∧
    am_get_value m 1%N key_a = Some [120%N] ∧
    match ndrun 2 ops with
    | Some (d, _) => ad_get_value (uint_create_key 8) d 1%N key_a = None
    | None => False
    end.
Proof.
  exists [AmInsert 1 key_a [120]; AmInsert 2 key_a [120]; AmInsert 3 key_a [120]; AmRemove 1 key_a;
          AmInsert 4 key_a [120]; AmInsert 5 key_a [120];
          AmInsert 1 key_a [120]; AmRemove 2 key_a; AmRemove 3 key_a; AmRemove 4 key_a; AmRemove 5 key_a]%N.
  split_and!.
  - simpl. split_and!; try done; intros v0 Hv; vm_compute in Hv; discriminate Hv.
  - vm_compute; reflexivity.
  - vm_compute; reflexivity.
Qed.
Print Assumptions C11_removal_after_eviction_refuted.

(** The values ordered by frequency: the in-memory storage starts with the most frequent one, the
    on-disk storage with the least frequent one. *)
Theorem C11_values_by_frequency_refuted :
  ∃ ops : list (am_op N), let m := (am_run N.compare am_new ops).1 in
    am_get_all_values m key_a true = [[120%N]; [121%N]] ∧
    match ndrun 10000 ops with
    | Some (d, _) => ad_get_all_values 8 d key_a true = Some [[121%N]; [120%N]]
    | None => False
    end.
Proof.
  exists [AmInsert 1%N key_a [120%N]; AmInsert 2%N key_a [120%N]; AmInsert 3%N key_a [121%N]].
  split; vm_compute; reflexivity.
Qed.
Print Assumptions C11_values_by_frequency_refuted.

(** A history that meets the conditions. *)
Definition C11_history : list (am_op N) :=
  [AmInsert 1 key_a [120]; AmInsert 2 (AnnoKey [97] [111]) [120]; AmInsert 1 (AnnoKey [98] []) [121];
   AmRemove 1 key_a; AmInsert 1 key_a [122]; AmRemoveItem 2; AmReload; AmInsert 3 key_a [122]]%N.
Example C11_example :
  Forall (op_ok (λ i, (i < 18446744073709551615)%N)) C11_history ∧ no_overwrite ∅ C11_history ∧
  tidy_history 10000 C11_history ∧
  match ndrun 10000 C11_history with
  | Some (d, outs) =>
      ad_get_value (uint_create_key 8) d 1%N key_a = Some [122%N] ∧
      ndsearch d None [97%N] VAny = Some [(1%N, key_a); (3%N, key_a)]
  | None => False
  end.
Proof.
  split_and!.
  - assert (∀ x, (0 < x < 244)%N → value_ok [x]) as Hv.
    { intros x Hx. split; [repeat constructor; lia|]. intros r [k E]. destruct r as [|y r]; [done|].
      destruct k; [|by destruct k]. injection E as -> <-. simpl.
      by rewrite (proj2 (N.compare_lt_iff _ _)) by lia. }
    repeat apply Forall_cons_2; try apply Forall_nil_2; simpl; try done; split; (done || by apply Hv).
  - simpl. split_and!; try done; intros v0 Hv; vm_compute in Hv; discriminate Hv.
  - right. vm_compute. lia.
  - vm_compute. split; reflexivity.
Qed.
