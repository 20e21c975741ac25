(** C08-C10: the in-memory annotation storage. [ops] is an arbitrary history of inserts, removals,
    clearing and save/load, [as_run ∅ ops outs] the specified content after it (AnnoSpec.v). *)
From stdpp Require Import base list gmap fin_maps sorting.
From Coq Require Import NArith.
From Verif Require Import KeySer KeySerSpec SortedMap Types TypesProofs SymbolTable AnnoMem AnnoSpec
  AnnoMemProofs AnnoMemQueries.

(** C08: results of the operations, and lookups. *)
Theorem C08_annotations_read_back {T} `{Countable T} (tcmp : T → T → comparison) `{!CmpOrder tcmp} :
  ∀ ops s outs, am_run tcmp am_new ops = (s, outs) →
  let M := as_run ∅ ops outs in
  as_outs_ok ∅ ops outs ∧
  (∀ i k, am_get_value s i k = M !! (i, k)) ∧
  (∀ i k, am_has_value s i k = true ↔ is_Some (M !! (i, k))) ∧
  (∀ i, NoDup ((am_get_annotations s i).*1) ∧
        ∀ k v, (k, v) ∈ am_get_annotations s i ↔ M !! (i, k) = Some v).
Proof.
  intros ops s outs Hr M. destruct (inv_run_new tcmp ops s outs Hr) as [Ho (leak & I & _)].
  split_and!; [done| | |].
  - intros i k. exact (get_value_lemma tcmp s leak M i k I).
  - intros i k. rewrite (has_value_lemma tcmp s leak M i k I). apply bool_decide_eq_true.
  - intros i. exact (get_annotations_lemma tcmp s leak M i I).
Qed.
Print Assumptions C08_annotations_read_back.

(** C08: an insert can only fail if the symbol tables are full. *)
Theorem C08_no_insert_error {T} `{Countable T} (tcmp : T → T → comparison) :
  ∀ ops s outs, am_run tcmp am_new ops = (s, outs) →
  (N.of_nat (length ops) <= usize_max)%N → AmErr ∉ outs.
Proof.
  intros ops s outs Hr Hn. exact (run_no_err tcmp ops am_new 0 s outs Hr (le_n 0) (le_n 0) Hn).
Qed.
Print Assumptions C08_no_insert_error.

(** C08: the keys of an item; without a name all keys are returned (whatever the namespace). *)
Theorem C08_keys_of_item {T} `{Countable T} (tcmp : T → T → comparison) `{!CmpOrder tcmp} :
  ∀ ops s outs, am_run tcmp am_new ops = (s, outs) →
  let M := as_run ∅ ops outs in
  ∀ i ns name, NoDup (am_get_all_keys s i ns name) ∧
    ∀ k, k ∈ am_get_all_keys s i ns name ↔
      is_Some (M !! (i, k)) ∧ match name with Some n => key_matches ns n k | None => True end.
Proof.
  intros ops s outs Hr M i ns name. destruct (inv_run_new tcmp ops s outs Hr) as [_ (leak & I & _)].
  exact (get_all_keys_lemma tcmp s leak M i ns name I).
Qed.
Print Assumptions C08_keys_of_item.

(** C08: looking up the keys of many items at once. *)
Theorem C08_keys_for_iterator {T} `{Countable T} (tcmp : T → T → comparison) `{!CmpOrder tcmp} :
  ∀ ops s outs, am_run tcmp am_new ops = (s, outs) →
  let M := as_run ∅ ops outs in
  ∀ ns name it,
    (∀ i k, (i, k) ∈ am_get_keys_for_iterator s ns name it ↔
       i ∈ it ∧ is_Some (M !! (i, k)) ∧ match name with Some n => key_matches ns n k | None => True end) ∧
    (NoDup it → NoDup (am_get_keys_for_iterator s ns name it)).
Proof.
  intros ops s outs Hr M ns name it. destruct (inv_run_new tcmp ops s outs Hr) as [_ (leak & I & _)].
  exact (keys_for_iterator_lemma tcmp s leak M ns name it I).
Qed.
Print Assumptions C08_keys_for_iterator.

(** C08: every annotated item is at most the reported largest item. *)
Theorem C08_largest_item_is_bound {T} `{Countable T} (tcmp : T → T → comparison) `{!CmpOrder tcmp} :
  ∀ ops s outs, am_run tcmp am_new ops = (s, outs) →
  ∀ i k, is_Some (as_run ∅ ops outs !! (i, k)) →
  ∃ x, am_largest_item s = Some x ∧ tcmp i x ≠ Gt.
Proof.
  intros ops s outs Hr i k Hi. destruct (inv_run_new tcmp ops s outs Hr) as [_ (leak & I & _)].
  exact (i_largest tcmp s leak _ I i k Hi).
Qed.
Print Assumptions C08_largest_item_is_bound.

(** C09: exact value search. *)
Theorem C09_exact_search {T} `{Countable T} (tcmp : T → T → comparison) `{!CmpOrder tcmp} :
  ∀ ops s outs, am_run tcmp am_new ops = (s, outs) →
  let M := as_run ∅ ops outs in
  ∀ ns name vs, NoDup (am_exact_search s ns name vs) ∧
    ∀ i k, (i, k) ∈ am_exact_search s ns name vs ↔
      key_matches ns name k ∧ ∃ v, M !! (i, k) = Some v ∧ value_matches vs v.
Proof.
  intros ops s outs Hr M ns name vs. destruct (inv_run_new tcmp ops s outs Hr) as [_ (leak & I & _)].
  exact (exact_search_lemma tcmp s leak M ns name vs I).
Qed.
Print Assumptions C09_exact_search.

(** C09: regular expression search for an arbitrary regex engine ([None]: the pattern is invalid). *)
Theorem C09_regex_search {T} `{Countable T} (tcmp : T → T → comparison) `{!CmpOrder tcmp} :
  ∀ ops s outs, am_run tcmp am_new ops = (s, outs) →
  let M := as_run ∅ ops outs in
  ∀ ns name re negated, NoDup (am_regex_search s ns name re negated) ∧
    ∀ i k, (i, k) ∈ am_regex_search s ns name re negated ↔
      key_matches ns name k ∧ ∃ v, M !! (i, k) = Some v ∧
        match re with Some r => r v = negb negated | None => negated = true end.
Proof.
  intros ops s outs Hr M ns name re negated. destruct (inv_run_new tcmp ops s outs Hr) as [_ (leak & I & _)].
  exact (regex_search_lemma tcmp s leak M ns name re negated I).
Qed.
Print Assumptions C09_regex_search.

(** C09: known keys, qualified names and values; the values are ordered by frequency on demand. *)
Theorem C09_keys_and_values {T} `{Countable T} (tcmp : T → T → comparison) `{!CmpOrder tcmp} :
  ∀ ops s outs, am_run tcmp am_new ops = (s, outs) →
  let M := as_run ∅ ops outs in
  (∀ k, k ∈ am_annotation_keys s ↔ ∃ i, is_Some (M !! (i, k))) ∧
  (∀ name k, k ∈ am_get_qnames s name ↔ ak_name k = name ∧ ∃ i, is_Some (M !! (i, k))) ∧
  (∀ k mff, NoDup (am_get_all_values s k mff) ∧
     (∀ v, v ∈ am_get_all_values s k mff ↔ ∃ i, M !! (i, k) = Some v) ∧
     (mff = true → StronglySorted (λ v w, count_value M k w ≤ count_value M k v) (am_get_all_values s k mff))).
Proof.
  intros ops s outs Hr M. destruct (inv_run_new tcmp ops s outs Hr) as [_ (leak & I & _)]. split_and!.
  - exact (proj2 (annotation_keys_lemma tcmp s leak M I)).
  - intros name. exact (proj2 (qnames_lemma tcmp s leak M name I)).
  - intros k mff. exact (get_all_values_lemma tcmp s leak M k mff I).
Qed.
Print Assumptions C09_keys_and_values.

(** C09: finding nodes by name. *)
Theorem C09_node_by_name {T} `{Countable T} (tcmp : T → T → comparison) `{!CmpOrder tcmp} :
  ∀ ops s outs, am_run tcmp am_new ops = (s, outs) →
  let M := as_run ∅ ops outs in
  ∀ nn name,
    match am_node_id_from_name nn s name with
    | Some i => M !! (i, nn) = Some name
    | None => ∀ i, M !! (i, nn) ≠ Some name
    end ∧
    (am_has_node_name nn s name = true ↔ ∃ i, M !! (i, nn) = Some name).
Proof.
  intros ops s outs Hr M nn name. destruct (inv_run_new tcmp ops s outs Hr) as [_ (leak & I & _)].
  exact (conj (node_id_lemma tcmp nn s leak M name I) (has_node_name_lemma tcmp nn s leak M name I)).
Qed.
Print Assumptions C09_node_by_name.

(** C10: the total number, for histories without [clear]. Missing for the full C10: [clear], see
    [C10_number_after_clear_refuted]. *)
Theorem C10_number_of_annotations_partial {T} `{Countable T} (tcmp : T → T → comparison) `{!CmpOrder tcmp} :
  ∀ ops s outs, am_run tcmp am_new ops = (s, outs) → AmClear ∉ ops →
  am_number_of_annotations s = size (as_run ∅ ops outs) ∧
  (am_is_empty s = true ↔ as_run ∅ ops outs = ∅).
Proof.
  intros ops s outs Hr Hc. destruct (inv_run_new tcmp ops s outs Hr) as [_ (leak & I & Hl)].
  rewrite (Hl Hc) in I. exact (number_lemma tcmp s _ I).
Qed.
Print Assumptions C10_number_of_annotations_partial.

(** C10 for all histories: the number is never too small (so decrementing cannot underflow). *)
Theorem C10_number_not_too_small {T} `{Countable T} (tcmp : T → T → comparison) `{!CmpOrder tcmp} :
  ∀ ops s outs, am_run tcmp am_new ops = (s, outs) →
  size (as_run ∅ ops outs) ≤ am_number_of_annotations s.
Proof.
  intros ops s outs Hr. destruct (inv_run_new tcmp ops s outs Hr) as [_ (leak & I & _)].
  exact (number_ge_lemma tcmp s leak _ I).
Qed.
Print Assumptions C10_number_not_too_small.

(** C10 is violated: [clear] does not reset the counter. *)
Theorem C10_number_after_clear_refuted :
  ∃ ops : list (am_op N), let '(s, outs) := am_run N.compare am_new ops in
    as_run ∅ ops outs = ∅ ∧ am_number_of_annotations s = 1.
Proof.
  exists [AmInsert 1%N (AnnoKey [97%N] []) [98%N]; AmClear]. vm_compute. split; reflexivity.
Qed.
Print Assumptions C10_number_after_clear_refuted.

(** C10: the number per name. Without a namespace only namespaces below U+10FFFF are counted, which
    is the restriction of this statement. *)
Theorem C10_number_by_name_partial {T} `{Countable T} (tcmp : T → T → comparison) `{!CmpOrder tcmp} :
  ∀ ops s outs, am_run tcmp am_new ops = (s, outs) →
  let M := as_run ∅ ops outs in
  ∀ ns name,
    (ns = None → ∀ i k, ak_name k = name → is_Some (M !! (i, k)) → lex_compare (ak_ns k) char_max = Lt) →
    am_number_by_name s ns name = size (filter (λ x, key_matches ns name x.1.2) M).
Proof.
  intros ops s outs Hr M ns name. destruct (inv_run_new tcmp ops s outs Hr) as [_ (leak & I & _)].
  exact (number_by_name_lemma tcmp s leak M ns name I).
Qed.
Print Assumptions C10_number_by_name_partial.

(** C10 is violated for the namespace U+10FFFF. *)
Theorem C10_number_by_name_refuted :
  ∃ (ops : list (am_op N)) name, let '(s, outs) := am_run N.compare am_new ops in
    size (filter (λ x, key_matches None name x.1.2) (as_run ∅ ops outs)) = 1 ∧
    am_number_by_name s None name = 0.
Proof.
  exists [AmInsert 1%N (AnnoKey [97%N] char_max) [98%N]], [97%N]. vm_compute. split; reflexivity.
Qed.
Print Assumptions C10_number_by_name_refuted.

(** A history with replaced values, a removed annotation, a removed item and a reload. *)
Definition C08_history : list (am_op N) :=
  [AmInsert 1 (AnnoKey [97] [110]) [120]; AmInsert 2 (AnnoKey [97] [111]) [120];
   AmInsert 1 (AnnoKey [98] []) [121]; AmInsert 3 (AnnoKey [97] [110]) [122];
   AmInsert 1 (AnnoKey [97] [110]) [122]; AmRemove 1 (AnnoKey [98] []);
   AmInsert 4 (AnnoKey [98] []) [119]; AmRemoveItem 4; AmReload]%N.
Example C08_example :
  let r := am_run N.compare am_new C08_history in
  r.2 = [AmOk; AmOk; AmOk; AmOk; AmOk; AmVal (Some [121%N]); AmOk; AmBool true; AmOk] ∧
  am_get_value r.1 1%N (AnnoKey [97%N] [110%N]) = Some [122%N] ∧
  length (am_exact_search r.1 None [97%N] VAny) = 3 ∧
  am_exact_search r.1 None [97%N] (VSome [120%N]) = [(2%N, AnnoKey [97%N] [111%N])] ∧
  length (am_exact_search r.1 None [97%N] (VNotSome [120%N])) = 2 ∧
  am_number_of_annotations r.1 = 3 ∧ am_number_by_name r.1 None [97%N] = 3.
Proof. cbv zeta. split_and!; vm_compute; reflexivity. Qed.
