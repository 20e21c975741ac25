(** Property theorems for the results of a query in several corpora: number and pages (C75). *)
From Coq Require Import NArith String Lia.
From stdpp Require Import base list gmap.
From Verif Require Import KeySer CompPath SortedMap Types SymbolTable AnnoMem AnnoSpec GraphSpec Storage StorageSpec GraphApply TokenHelper TokenSearchSpec ContextSpec
  NodeSearch NodeSearchSpec SortMatches Joins JoinsSpec EdgeOps EdgeOpsSpec Adjacency AdjacencySpec ExampleStorages ExampleCorpus ExampleGraph TokenOpsProps NodeSearchProps NonExistingProps Query QuerySpec QueryProofs AqlGrammar AqlParser EndToEnd EndToEndSpec CorpusEngine CorpusEngineSpec CorpusEngineProps
  QuickSort QuickSortSpec Paging PagingSpec ResultPages ResultPagesSpec ResultPagesProofs.

(** The plan of a query text finds exactly its results in a stored corpus. Missing: results with repeated matches for operators that are
    not reflexive (C34), and the limits of C74 *)
Theorem C75_corpus_partial rx c W exact db cs hash fuel rnd cheap same_cost narrow th order parallel loop_buffer index_buffer outer_left switch simplify text e alts out direct :
  let lits := get_alternatives_from_dnf (simplify e) in
  let E := corpus_engine rx exact db cs hash fuel rnd cheap same_cost narrow th order in
  let result g := ∃ i alt off, lits !! i = Some alt ∧ offset_of lits i off ∧
    alternative_result (found_for rx c) (operator_meaning rx c W) (unary_meaning W) off alt g in
  corpus_fine rx c W exact db cs hash th order → query_fine rx c W db cs fuel rnd lits → 0 < loop_buffer → 0 < index_buffer → simplifies simplify →
  parse_aql text = Parsed e → distinct_names (QuerySpec.terminals e) →
  (∀ c, c ∈ lits → ∃ s sp var, node_at c s (sp, var, false)) →
  (∀ i c off, lits !! i = Some c → offset_of lits i off → unary_mandatory off c) →
  (∀ c, c ∈ lits → no_optional c) ∨ length lits = 1 →
  (∀ alt, alt ∈ lits → all_reflexive E alt) ∨ (∀ g, result g → NoDup g) →
  answers E parallel loop_buffer index_buffer outer_left switch lits alts out →
  finds_exactly result (Run out direct).
Proof.
  intros lits E result F Q Hl Hi Hs Hp Hd Hm Hu Ho Hr Ha.
  destruct (C74_alternatives_partial rx c W exact db cs hash fuel rnd cheap same_cost narrow th order parallel loop_buffer index_buffer outer_left switch simplify text e alts out
    F Q Hl Hi Hs Hp Hd Hm Hu Ho Ha) as (H1 & H2 & H3 & H4).
  split_and!; [exact H1|exact H2|]. intros g. split; [exact (H3 g)|]. intros Hg. destruct (Hg) as (i & alt & off & Hi' & Hoff & HR).
  apply (H4 i alt off g Hi' Hoff HR). destruct Hr as [Hr|Hr]; [left; apply Hr; by eapply elem_of_list_lookup_2|right; by apply Hr].
Qed.
(** The number of results is the number of pairs of a corpus and a result *)
Theorem C75_count : ∀ Rs runs L, Forall2 finds_exactly Rs runs → all_results Rs L → count (searches runs) = N.of_nat (length L).
Proof. exact count_results. Qed.
(** A page is a slice of a list of all the results, ordered by corpus and, unless the order of the plan is used, by the comparison.
    Missing: an offset and limit of 2^64 or more (C28_large_limit_refuted), comparisons that are no total preorder (C29) *)
Theorem C75_page_partial : ∀ {D} cmp (desc : nat * group → D) fuel rnds Rs runs offset limit r, total_preorder cmp → Forall2 finds_exactly Rs runs →
  (∀ n, limit = Some n → offset + n < 2 ^ 64)%N → find cmp desc fuel rnds (searches runs) offset limit = Done r →
  ∃ L, all_results Rs L ∧ in_order cmp runs L ∧ r = page offset limit (desc <$> L).
Proof. intros D cmp desc fuel rnds Rs runs offset limit r. exact (find_results cmp desc fuel rnds Rs runs offset limit r). Qed.
(** The number of results is the number of all results that are returned without limit, and each result is returned once *)
Theorem C75_count_is_number_returned_partial : ∀ {D} cmp (desc : nat * group → D) fuel rnds Rs runs r, total_preorder cmp → Forall2 finds_exactly Rs runs →
  (∀ a b, desc a = desc b → a = b) → find cmp desc fuel rnds (searches runs) 0 None = Done r →
  count (searches runs) = N.of_nat (length r) ∧ NoDup r ∧ ∀ i g, desc (i, g) ∈ r ↔ ∃ R, Rs !! i = Some R ∧ R g.
Proof.
  intros D cmp desc fuel rnds Rs runs r Hc HF Hd E. destruct (C75_page_partial cmp desc fuel rnds Rs runs 0 None r Hc HF) as (L & HL & _ & ->); [intros n [=]|exact E|].
  cbn [page]. rewrite drop_0, fmap_length. split_and!; [by apply (C75_count Rs)|apply NoDup_fmap; [exact Hd|apply HL]|].
  intros i g. rewrite <- (proj2 HL i g), elem_of_list_fmap. split; [intros (a & Ea & Ha); by rewrite (Hd _ _ Ea)|intros H; eauto].
Qed.
(** All results are only returned if no plan has an error *)
Theorem C75_no_hidden_error : ∀ {D} cmp (desc : nat * group → D) fuel rnds runs r, find cmp desc fuel rnds (searches runs) 0 None = Done r →
  ∀ i run, runs !! i = Some run → JoinsSpec.no_error (r_items run).
Proof. intros D cmp desc. exact (results_no_error cmp desc). Qed.

(** ** Examples *)
(** The query of CorpusEngineProps.v in the same corpus twice *)
Definition dominated_result (g : group) : Prop := ∃ i alt off, get_alternatives_from_dnf (normalize dominated_expr) !! i = Some alt ∧
  offset_of (get_alternatives_from_dnf (normalize dominated_expr)) i off ∧
  alternative_result (found_for plain_rx (content_of ops_ex)) (operator_meaning plain_rx (content_of ops_ex) (graph_content tree_graph))
    (unary_meaning (graph_content tree_graph)) off alt g.
Definition dominated_list : list group := [[named_match 10; token_match 1; token_match 2]; [named_match 12; token_match 2; token_match 3]].
Notation ex_engine := (corpus_engine plain_rx plain_exact (corpus_of ops_ex ops_check) (graph_components tree_graph) elements 100 (λ _, 0)).
Lemma dominated_reflexive cheap same_cost narrow : all_reflexive (ex_engine cheap same_cost narrow (th_of ops_ex ops_check) (lin_of (ex_chains ops_ex))) dominated_alt.
Proof.
  intros lhs o rhs negated Hl. unfold dominated_alt in Hl. do 3 (apply elem_of_cons in Hl as [Hl|Hl]; [discriminate Hl|]).
  apply elem_of_cons in Hl as [Hl|Hl]; [|apply elem_of_list_singleton in Hl]; injection Hl as -> -> -> ->; vm_compute; reflexivity.
Qed.
Example dominated_exactly : ∃ out, finds_exactly dominated_result (Run out true) ∧ ∀ g, dominated_result g ↔ g ∈ dominated_list.
Proof.
  destruct (dominated_answered true (λ _, true) (λ _, true) true (λ _ _, true) (λ _, true)) as (alts & out & Ha & Hg).
  destruct dominated_hypotheses as (Hd & Hm & Hu & Ho). pose proof dominated_fine as Q.
  rewrite <- dominated_alts in Q, Hm, Hu, Ho. rewrite <- dominated_terminals in Hd.
  exists out. assert (finds_exactly dominated_result (Run out true)) as HF.
  { refine (C75_corpus_partial plain_rx (content_of ops_ex) (graph_content tree_graph) plain_exact (corpus_of ops_ex ops_check) (graph_components tree_graph) elements 100 (λ _, 0)
      true (λ _, true) (λ _, true) (th_of ops_ex ops_check) (lin_of (ex_chains ops_ex)) true 1 1 (λ _ _, true) (λ _, true) normalize dominated dominated_expr alts out true _ _ _ _ _ _ _ _ _ _ _ _).
    - exact example_fine.
    - exact Q.
    - lia.
    - lia.
    - apply normalize_ok.
    - exact dominated_parsed.
    - exact Hd.
    - exact Hm.
    - exact Hu.
    - left. exact Ho.
    - left. rewrite dominated_alts. intros alt ->%elem_of_list_singleton. apply dominated_reflexive.
    - exact Ha. }
  split; [exact HF|]. intros g. rewrite <- (proj2 (proj2 HF) g). exact (Hg g).
Qed.
(** The two results of each corpus *)
Definition twice : list (nat * group) := ((λ g, (0, g)) <$> dominated_list) ++ ((λ g, (1, g)) <$> dominated_list).
Example twice_all : all_results [dominated_result; dominated_result] twice.
Proof.
  destruct dominated_exactly as (_ & _ & HR). split; [apply (bool_decide_unpack _); vm_compute; exact I|]. intros i g. unfold twice.
  rewrite elem_of_app, !elem_of_list_fmap. split.
  - intros [(g' & [= -> ->] & Hg)|(g' & [= -> ->] & Hg)]; apply HR in Hg; eexists; split; try exact Hg; reflexivity.
  - intros (R & Hi & Hg). destruct i as [|[|i]]; cbn in Hi; [left|right|discriminate Hi]; injection Hi as <-; exists g; (split; [reflexivity|by apply HR]).
Qed.
Example twice_count : ∃ runs, Forall2 finds_exactly [dominated_result; dominated_result] runs ∧ count (searches runs) = 4%N.
Proof.
  destruct dominated_exactly as (out & HF & _). exists [Run out true; Run out true].
  assert (Forall2 finds_exactly [dominated_result; dominated_result] [Run out true; Run out true]) as H2 by (constructor; [exact HF|constructor; [exact HF|constructor]]).
  split; [exact H2|]. exact (C75_count _ _ twice H2 twice_all).
Qed.
(** Sorted by the length of the results, the corpora one after the other; the second page of two results *)
Definition by_length (a b : nat * group) : comparison := Nat.compare (length a.2) (length b.2).
Lemma by_length_total : total_preorder by_length.
Proof.
  constructor; unfold by_length.
  - intros a b. apply Nat.compare_antisym.
  - intros a b c. rewrite !Nat.compare_ngt_iff. lia.
Qed.
Definition m1 : match_ := (1%N, AnnoKey [] []).
Definition two_runs : list run := [Run [IOk [m1; m1]; IOk [m1]] false; Run [IOk []; IOk [m1; m1; m1]] true].
Example page_ex : Forall2 finds_exactly [λ g, g ∈ [[m1]; [m1; m1]]; λ g, g ∈ [[]; [m1; m1; m1]]] two_runs ∧
  find by_length id 10 (λ _ _, 0) (searches two_runs) 1 (Some 2%N) = Done [(0, [m1; m1]); (1, [])].
Proof.
  split; [|vm_compute; reflexivity]. constructor; [|constructor; [|constructor]].
  - split_and!; [split; intros H; repeat (apply elem_of_cons in H as [H|H]; [discriminate H|]); inversion H|apply (bool_decide_unpack _); vm_compute; exact I|]. intros g. cbn. rewrite !elem_of_cons, elem_of_nil. tauto.
  - split_and!; [split; intros H; repeat (apply elem_of_cons in H as [H|H]; [discriminate H|]); inversion H|apply (bool_decide_unpack _); vm_compute; exact I|]. intros g. cbn. rewrite !elem_of_cons, elem_of_nil. tauto.
Qed.
Print Assumptions C75_corpus_partial.
Print Assumptions C75_count.
Print Assumptions C75_page_partial.
Print Assumptions C75_count_is_number_returned_partial.

Print Assumptions C75_no_hidden_error.
