(** C78: the frequency table of a query counts its results. *)
From stdpp Require Import base list gmap sorting.
From Coq Require Import NArith Lia.
From Verif Require Import KeySer Types SymbolTable AnnoMem SortMatches Adjacency TokenHelper TokenSearchSpec NodeSearchSpec GraphApply Joins JoinsSpec Query Paging Frequency
  ResultPages ResultPagesSpec ResultPagesProofs ResultPagesProps ExampleCorpus TokenOpsProps FrequencyResults FrequencyResultsSpec FrequencyResultsProofs.

(** There is one row for each combination of values which occurs in the results [L] of all the corpora, with the number of results with these
    values, the most frequent ones first. *)
Theorem C78_table : ∀ pos defs ss L, Forall source_ok ss → all_results (so_results <$> ss) L → ∃ table rows,
  frequency pos defs ((λ s, stored (so_db s) (so_items s)) <$> ss) = Some table ∧ rows_for pos defs ss L rows ∧
  sum_list table.*2 = length L ∧ NoDup table.*1 ∧ StronglySorted (λ a b, b.2 ≤ a.2) table ∧
  ∀ t n, (t, n) ∈ table ↔ n = length (filter (λ r, r = t) rows) ∧ n ≠ 0.
Proof. exact table_lemma. Qed.
Print Assumptions C78_table.

(** The numbers in the table add up to the number of results which counting returns. *)
Theorem C78_total : ∀ pos defs ss table, Forall source_ok ss →
  frequency pos defs ((λ s, stored (so_db s) (so_items s)) <$> ss) = Some table →
  N.of_nat (sum_list table.*2) = count (searches ((λ s, Run (so_items s) true) <$> ss)).
Proof.
  intros pos defs ss table HF E.
  assert (Forall2 finds_exactly (so_results <$> ss) ((λ s, Run (so_items s) true) <$> ss)) as HR.
  { apply Forall2_fmap, Forall_Forall2_diag. eapply Forall_impl; [exact HF|]. by intros s [_ Hs]. }
  destruct (results_lemma _ _ HR) as (L & _ & HL). destruct (C78_table pos defs ss L HF HL) as (table' & rows & E' & _ & Hs & _).
  rewrite E in E'. injection E' as <-. rewrite Hs. symmetry. by apply (C75_count (so_results <$> ss)).
Qed.
Print Assumptions C78_total.

(** A single label with a namespace: the number in the row [v] is the number of results whose node at this position has the label with the
    value [v]; results without the label are in the row with the empty string. *)
Theorem C78_one_label : ∀ pos ns name ref p ss L v n, Forall source_ok ss → all_results (so_results <$> ss) L → pos ref = Some p →
  (∀ x, x ∈ L → p < length x.2) →
  (∃ table, frequency pos [FreqDef (Some ns) name ref] ((λ s, stored (so_db s) (so_items s)) <$> ss) = Some table ∧ ([v], n) ∈ table) →
  ∃ K, NoDup K ∧ length K = n ∧ n ≠ 0 ∧ ∀ i g, (i, g) ∈ K ↔ (i, g) ∈ L ∧ ∃ s m, ss !! i = Some s ∧ g !! p = Some m ∧
    default [] (ct_labels (so_content s) !! (m.1, AnnoKey name ns)) = v.
Proof.
  intros pos ns name ref p ss L v n HF HL Hp Hlen (table & E & Hin).
  destruct (C78_table pos [FreqDef (Some ns) name ref] ss L HF HL) as (table' & rows & E' & Hr & _ & _ & _ & Ht).
  rewrite E in E'. injection E' as <-. destruct (proj1 (Ht _ _) Hin) as [Hn Hn0].
  set (ok := λ x : nat * group, match ss !! x.1, x.2 !! p with
    | Some s, Some m => bool_decide (default [] (ct_labels (so_content s) !! (m.1, AnnoKey name ns)) = v) | _, _ => false end).
  exists (filter (λ x, ok x = true) L). split_and!; [apply NoDup_filter, HL| |done|].
  - rewrite Hn. clear -Hr Hlen Hp. unfold rows_for in Hr. induction Hr as [|x row L rows (s & Hs & Hrow) Hr IH]; [done|].
    assert (length (filter (λ x, ok x = true) L) = length (filter (λ r, r = [v]) rows)) as IH' by (apply IH; intros y Hy; apply Hlen; by right). clear IH.
    unfold row_for in Hrow. rewrite filter_cons_True in Hrow by (by eexists). cbn [filter list_filter] in Hrow. apply Forall2_cons_inv_l in Hrow as (w & r' & Hw & Hnil & ->).
    apply Forall2_nil_inv_l in Hnil as ->. specialize (Hw p Hp). destruct (x.2 !! p) as [m|] eqn:Hm; [|apply lookup_ge_None in Hm; destruct (Nat.lt_irrefl p); eapply Nat.lt_le_trans; [exact (Hlen x ltac:(by left))|exact Hm]].
    assert (w = default [] (ct_labels (so_content s) !! (m.1, AnnoKey name ns))) as ->.
    { unfold value_for, label in Hw. cbn in Hw. destruct Hw as [Hw|[Hw ->]]; symmetry; exact (f_equal (default []) Hw). }
    assert (ok x = bool_decide (default [] (ct_labels (so_content s) !! (m.1, AnnoKey name ns)) = v)) as Ho.
    { unfold ok. rewrite Hs. unfold match_ in *. by rewrite Hm. }
    destruct (decide (default [] (ct_labels (so_content s) !! (m.1, AnnoKey name ns)) = v)) as [Hv|Hv].
    + rewrite filter_cons_True by (rewrite Ho; by apply bool_decide_eq_true). rewrite (filter_cons_True (λ r, r = [v])) by (by rewrite Hv). cbn. by rewrite IH'.
    + rewrite filter_cons_False by (rewrite Ho, bool_decide_eq_true; done). rewrite (filter_cons_False (λ r, r = [v])) by (by intros [=]). done.
  - intros i g. rewrite elem_of_list_filter. unfold ok. cbn. split.
    + intros [Ho Hi]. split; [done|]. destruct (ss !! i) as [s|]; [|done]. destruct (g !! p) as [m|]; [|done]. apply bool_decide_eq_true in Ho. by exists s, m.
    + intros [Hi (s & m & -> & -> & Ho)]. split; [|done]. by apply bool_decide_eq_true.
Qed.
Print Assumptions C78_one_label.

(** ** Example *)
(** The query of CorpusEngineProps.v in the same corpus twice: a node dominates a token before another token. The names of the first nodes are
    counted. *)
Example frequency_ex : ∃ out, let s := Source (corpus_of ops_ex ops_check) (content_of ops_ex) dominated_result out in
  Forall source_ok [s; s] ∧ all_results (so_results <$> [s; s]) twice ∧
  ∃ table, frequency (λ _, Some 0) [FreqDef (Some annis) (ak_name node_name_key) [120%N]] ((λ s, stored (so_db s) (so_items s)) <$> [s; s]) = Some table ∧ sum_list table.*2 = 4.
Proof.
  destruct dominated_exactly as (out & HF & _). exists out. intros s. destruct ops_corpus as (H1 & _).
  assert (Forall source_ok [s; s]) as Hs by (constructor; [by split|constructor; [by split|constructor]]).
  split_and!; [exact Hs|exact twice_all|]. destruct (C78_table (λ _, Some 0) [FreqDef (Some annis) (ak_name node_name_key) [120%N]] [s; s] twice Hs twice_all) as (table & rows & E & _ & Hsum & _).
  exists table. split; [exact E|]. rewrite Hsum. reflexivity.
Qed.
