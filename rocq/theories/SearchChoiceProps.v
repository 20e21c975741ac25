(** C77: if the search for a node is replaced by a search for the nodes with outgoing edges, then no result of the query is lost. *)
From stdpp Require Import base list gmap.
From Coq Require Import NArith Lia.
From Verif Require Import KeySer KeySerSpec SortedMap Types SymbolTable AnnoMem AnnoSpec GraphSpec Adjacency AdjacencySpec Storage StorageSpec
  StorageProofs GraphApply RelAnnis TokenHelper TokenSearchSpec ContextSpec ContextProofs QuickSort TokenSearch NodeSearch NodeSearchSpec NodeSearchProofs
  NodeSearchProps SortMatches TokenOps TokenOpsSpec TokenOpsProps EdgeOps EdgeOpsSpec Query AqlGrammar CorpusEngine CorpusEngineSpec
  ExampleStorages ExampleCorpus ExampleAligned ExampleGraph SearchChoice SearchChoiceSpec SearchChoiceProofs.

(** ** Theorems *)
(** The search is replaced if and only if there is an operator which starts at this node and whose components have fewer nodes than the
    search is expected to find (and statistics). *)
Theorem C77_decision : ∀ db cs hs s output node off ops, is_Some (optimize db cs hs s output node off ops) ↔
  ∃ out b, output = Some out ∧ b ∈ ops ∧ b.1.2 - off = node ∧ omap gs_nodes (necessary db cs hs b.1.1.1) ≠ [] ∧
  sum_list (omap gs_nodes (necessary db cs hs b.1.1.1)) < out.
Proof.
  intros db cs hs s output node off ops. destruct output as [out|].
  - setoid_rewrite <- smaller_iff. destruct (optimize db cs hs s (Some out) node off ops) as [se|] eqn:E.
    + split; [intros _|by eexists]. destruct (decide (Exists (λ b, b.1.2 - off = node ∧ smaller (necessary db cs hs b.1.1.1) out = true) ops)) as [He|He].
      * apply Exists_exists in He as (b & Hb & H1 & H2). by exists out, b.
      * assert (optimize db cs hs s (Some out) node off ops = None) as En; [|by rewrite En in E].
        apply optimize_none. intros b Hb Hn. destruct (smaller _ out) eqn:Es; [|done]. destruct He. apply Exists_exists. by exists b.
    + split; [by intros []|]. intros (out' & b & [= <-] & Hb & Hn & Hs). pose proof (proj1 (optimize_none _ _ _ _ _ _ _ _) E b Hb Hn). congruence.
  - split; [|by intros (out & b & [=] & _)]. destruct ops; by intros [].
Qed.
Print Assumptions C77_decision.

(** The new search finds the nodes which meet the description and at which an edge of this operator starts; it never finds anything else. *)
Theorem C77_replaced : ∀ rx c W exact db cs hash th order hs fuel rnd sp se se' output node off ops,
  corpus_fine rx c W exact db cs hash th order → (∀ l, hs l ≡ₚ l) → (∀ b, b ∈ ops → operator_loaded cs b.1.1.1) →
  from_spec rx exact db fuel rnd sp = Some se → optimize db cs hs se output node off ops = Some se' →
  ∃ b l, b ∈ ops ∧ b.1.2 - off = node ∧ se_items se' = Done l ∧ ∀ n k, (n, k) ∈ l ↔ meets rx c sp n k ∧ has_edge c W b.1.1.1 n.
Proof.
  intros rx c W exact db cs hash th order hs fuel rnd sp se se' output node off ops F Hh Hl E Eop. destruct F as [H T A HG He Hs Eo Et _].
  exact (replaced_lemma rx c W exact db cs H HG order Eo hs Hh fuel rnd sp se se' output node off ops Hl E Eop).
Qed.
Print Assumptions C77_replaced.

(** If all the operators which start at this node are dominance, pointing or part-of relations or precedence with at least one step, and are
    not negated, then the new search finds the node of every result. Missing: the other operators, see the refutations. *)
Theorem C77_kept_partial : ∀ rx c W exact db cs hash th order hs fuel rnd sp se se' output node off ops specs a,
  corpus_fine rx c W exact db cs hash th order → (∀ l, hs l ≡ₚ l) → (∀ b, b ∈ ops → operator_loaded cs b.1.1.1) →
  from_spec rx exact db fuel rnd sp = Some se → optimize db cs hs se output node off ops = Some se' → specs (node + off) = Some sp →
  (∀ b, b ∈ ops → b.1.2 - off = node → b.1.2 = node + off ∧ b.1.1.2 = false ∧ directed b.1.1.1) →
  solution rx c W specs ops a → ∃ l k, se_items se' = Done l ∧ ((a (node + off)).1, k) ∈ l ∧ (a (node + off)).2 = reported sp k.
Proof.
  intros rx c W exact db cs hash th order hs fuel rnd sp se se' output node off ops specs a F Hh. destruct F as [H T A HG He Hs Eo Et _].
  exact (kept_lemma rx c W exact db cs H A HG order Eo hs Hh fuel rnd sp se se' output node off ops specs a).
Qed.
Print Assumptions C77_kept_partial.

(** For descriptions which report the annotation that was found, the results are the same with the new search as before. *)
Theorem C77_results_partial : ∀ rx c W exact db cs hash th order hs fuel rnd sp se se' output node off ops specs,
  corpus_fine rx c W exact db cs hash th order → (∀ l, hs l ≡ₚ l) → (∀ b, b ∈ ops → operator_loaded cs b.1.1.1) →
  from_spec rx exact db fuel rnd sp = Some se → optimize db cs hs se output node off ops = Some se' → specs (node + off) = Some sp →
  (∀ b, b ∈ ops → b.1.2 - off = node → b.1.2 = node + off ∧ b.1.1.2 = false ∧ directed b.1.1.1) → (∀ k, reported sp k = k) →
  ∃ l, se_items se' = Done l ∧ ∀ a, solution rx c W specs ops a ↔
    a (node + off) ∈ l ∧ solution rx c W (λ i, if decide (i = node + off) then None else specs i) ops a.
Proof.
  intros rx c W exact db cs hash th order hs fuel rnd sp se se' output node off ops specs F Hh Hl E Eop Hsp Hd Hr.
  destruct (C77_replaced rx c W exact db cs hash th order hs fuel rnd sp se se' output node off ops F Hh Hl E Eop) as (b & l & _ & _ & E1 & E2).
  exists l. split; [done|]. intros a. split.
  - intros Ha. destruct (C77_kept_partial rx c W exact db cs hash th order hs fuel rnd sp se se' output node off ops specs a F Hh Hl E Eop Hsp Hd Ha) as (l' & k & E1' & Hk & Hak).
    rewrite E1 in E1'. injection E1' as <-. rewrite Hr in Hak. split; [by destruct (a (node + off)); cbn in *; subst|].
    destruct Ha as [Hf Hb]. split; [|done]. intros i sp'. case_decide; [done|]. apply Hf.
  - intros [Hin [Hf Hb]]. split; [|done]. intros i sp' Hi. destruct (decide (i = node + off)) as [-> |Hn].
    + rewrite Hsp in Hi. injection Hi as <-. destruct (a (node + off)) as [n k]. apply E2 in Hin as [Hm _]. exists k. split; [done|]. cbn. by rewrite Hr.
    + apply Hf. by rewrite decide_False.
Qed.
Print Assumptions C77_results_partial.

(** ** Example: nine words, two of them in one text, a span over the third one which also dominates it *)
Definition word_ex : example := Ex [1; 2; 3; 4; 5; 6; 7; 8; 9]%N [10]%N [[1; 2]]%N [Edge 10 3]%N [Edge 10 3]%N [Edge 10 3]%N.
Lemma word_check : ex_check word_ex = true.
Proof. vm_compute. reflexivity. Qed.
Lemma word_aligned : ex_aligned_check word_ex = true.
Proof. vm_compute. reflexivity. Qed.
(** A storage with statistics *)
Definition with_nodes (k : nat) (gs : storage) : storage :=
  Storage (gs_out gs) (gs_in gs) (gs_sources gs) (gs_roots gs) (gs_connected gs) (gs_connected_inverse gs) (gs_distance gs)
    (gs_is_connected gs) (gs_annos gs) (Some (S k)).
Lemma with_nodes_implements k gs G : implements gs G → implements (with_nodes k gs) G.
Proof. intros []. constructor; try done. Qed.
Definition word_db : corpus :=
  Corpus (am_run N.compare am_new (ex_ops word_ex)).1 [with_nodes 1 (adj_of (ex_cov word_ex) (check_cov word_ex word_check))]
    (Some (with_nodes 1 (adj_of (ex_left word_ex) (check_left word_ex word_check))))
    (Some (with_nodes 1 (adj_of (ex_right word_ex) (check_right word_ex word_check)))) (Some (with_nodes 1 (lin_of (ex_chains word_ex)))) None.
Notation word_c := (content_of word_ex).
Lemma word_holds : holds_content word_db word_c.
Proof.
  pose proof (corpus_of_holds word_ex word_check) as [H1 H2 H3 H4 H5]. constructor.
  - exact H1.
  - constructor; [|constructor]. apply with_nodes_implements, adj_of_implements.
  - eexists. split; [reflexivity|]. apply with_nodes_implements, adj_of_implements.
  - eexists. split; [reflexivity|]. apply with_nodes_implements, adj_of_implements.
  - cbn [corpus_of cp_order] in H5. destruct H5 as [H5 H6]. cbn [word_db cp_order]. split; [by apply with_nodes_implements|exact H6].
Qed.
Definition word_dom : cname := CName 2 [] [97%N].
Definition word_cs : components := [(word_dom, Some (with_nodes 1 (chain_storage [[10; 3]]%N [])))].
Definition word_W (n : cname) : option component := if decide (n = word_dom) then Some (chain_component [[10; 3]]%N []) else None.
Lemma word_graph : holds_graph word_cs word_W.
Proof.
  constructor.
  - repeat constructor.
  - intros n. cbn. rewrite elem_of_list_singleton. unfold word_W. case_decide; [split; [by eexists|done]|]. split; [done|by intros []].
  - intros n gs C Hin HW. apply elem_of_list_singleton in Hin. injection Hin as -> ->. unfold word_W in HW. rewrite decide_True in HW by done. injection HW as <-.
    destruct (chain_holds [[10; 3]]%N []) as [H1 H2]; [vm_compute; reflexivity|]. split; [by apply with_nodes_implements|exact H2].
Qed.
Definition word_th : helper := Helper (cp_annos word_db) (with_nodes 1 (adj_of (ex_left word_ex) (check_left word_ex word_check)))
  (with_nodes 1 (adj_of (ex_right word_ex) (check_right word_ex word_check))) (cov_edges word_db).
Lemma word_fine : corpus_fine plain_rx word_c word_W plain_exact word_db word_cs elements word_th (with_nodes 1 (lin_of (ex_chains word_ex))).
Proof.
  constructor; [exact word_holds|apply ex_texts_ok; exact word_check|apply ex_aligned; [exact word_check|exact word_aligned]|exact word_graph|exact plain_ok|
    exact hash_elements|reflexivity|reflexivity|]. apply N.leb_le. vm_compute. reflexivity.
Qed.
Definition tok_label : spec := SExact (Some annis) (ak_name tok_key) None false.
Definition name_label : spec := SExact (Some annis) (ak_name node_name_key) None false.
Lemma word_found n : n ∈ ex_toks word_ex → found_for plain_rx word_c tok_label (n, tok_key).
Proof.
  intros Hn. exists tok_key. split; [|reflexivity]. split; [split; reflexivity|]. exists [n]. split; [|by left]. unfold label.
  assert (Forall (λ n, ct_labels word_c !! (n, tok_key) = Some [n]) (ex_toks word_ex)) as HF by (apply (bool_decide_unpack _); vm_compute; exact I).
  rewrite Forall_forall in HF. by apply HF.
Qed.
Lemma name_found n : n ∈ [1; 2; 3; 10]%N → found_for plain_rx word_c name_label (n, node_name_key).
Proof.
  intros Hn. exists node_name_key. split; [|reflexivity]. split; [split; reflexivity|]. exists [110; n]%N. split; [|by left]. unfold label.
  assert (Forall (λ n, ct_labels word_c !! (n, node_name_key) = Some [110; n]%N) [1; 2; 3; 10]%N) as HF by (apply (bool_decide_unpack _); vm_compute; exact I).
  rewrite Forall_forall in HF. by apply HF.
Qed.
(** The token 3 and its span have the same first and last token *)
Lemma word_token n : n ∈ ex_toks word_ex → token word_c n.
Proof.
  intros Hn. apply (ex_token word_ex word_check). split; [done|].
  assert (Forall (λ n, Forall (λ e, source e ≠ n) (ex_cov word_ex)) (ex_toks word_ex)) as HF by (apply (bool_decide_unpack _); vm_compute; exact I).
  rewrite Forall_forall in HF. by apply HF.
Qed.
Lemma self_covered n t : n ∈ ex_toks word_ex → covered word_c n t ↔ t = n.
Proof.
  intros Hn. pose proof (word_token n Hn) as Ht. unfold covered. split; [|intros ->; by split; [|left]].
  intros [_ [-> |[_ Hf]]]; done.
Qed.
Lemma span_no_token : 10%N ∉ ex_toks word_ex.
Proof. apply (bool_decide_unpack _). vm_compute. exact I. Qed.
Lemma span_covered t : covered word_c 10 t ↔ t = 3%N.
Proof.
  unfold covered. split.
  - intros [Ht [-> |[Hc _]]].
    + apply (ex_token word_ex word_check) in Ht as [Ht _]. by apply span_no_token in Ht.
    + apply ex_covers in Hc. apply elem_of_list_singleton in Hc. by injection Hc.
  - intros ->. split; [apply word_token; apply (bool_decide_unpack _); exact I|]. right. split; [apply ex_covers; by left|].
    intros Ht. apply (ex_token word_ex word_check) in Ht as [Ht _]. by apply span_no_token in Ht.
Qed.
Lemma reach_refl (G : gset edge) n : reachable (edge_rel G) n n.
Proof. by exists []. Qed.
Lemma ends_token n : n ∈ ex_toks word_ex → first_covered word_c n n ∧ last_covered word_c n n.
Proof. intros Hn. split; (split; [by apply self_covered|]); intros t ->%self_covered; try done; apply reach_refl. Qed.
Lemma ends_span : first_covered word_c 10 3 ∧ last_covered word_c 10 3.
Proof. split; (split; [by apply span_covered|]); intros t ->%span_covered; apply reach_refl. Qed.
Lemma one_step : steps (ct_order word_c) (RBound 1 1) 1%N 2%N.
Proof. exists [2%N]. split; [|cbn; lia]. split; [|reflexivity]. unfold edge_rel. apply (bool_decide_unpack _). vm_compute. exact I. Qed.

(** What is computed: the search is replaced, [x] is found before, and [kept] tells if it is found afterwards *)
Definition replaced_check (sp : spec) (ops : list (aql_bop * bool * nat * nat)) (x : N) (kept : bool) : bool :=
  match from_spec plain_rx plain_exact word_db 1 (λ _, 0) sp with
  | Some se =>
      match se_items se with
      | Done l =>
          match optimize word_db word_cs id se (Some (length l)) 0 0 ops with
          | Some se' => match se_items se' with Done l' => bool_decide (x ∈ l.*1) && Bool.eqb kept (bool_decide (x ∈ l'.*1)) | _ => false end
          | None => false
          end
      | _ => false
      end
  | None => false
  end.
Lemma replaced_checked sp ops x kept : replaced_check sp ops x kept = true → ∃ se l se' l',
  from_spec plain_rx plain_exact word_db 1 (λ _, 0) sp = Some se ∧ se_items se = Done l ∧ x ∈ l.*1 ∧
  optimize word_db word_cs id se (Some (length l)) 0 0 ops = Some se' ∧ se_items se' = Done l' ∧ (if kept then x ∈ l'.*1 else x ∉ l'.*1).
Proof.
  unfold replaced_check. destruct (from_spec _ _ _ _ _ sp) as [se|]; [|discriminate]. destruct (se_items se) as [l| |] eqn:E1; [|discriminate..].
  destruct (optimize _ _ _ _ _ _ _ ops) as [se'|] eqn:E2; [|discriminate]. destruct (se_items se') as [l'| |] eqn:E3; [|discriminate..].
  intros [H1%bool_decide_eq_true_1 H2]%andb_true_iff. exists se, l, se', l'. split_and!; try done. apply Bool.eqb_prop in H2. subst kept. by case_bool_decide.
Qed.
Definition two_specs (sp : spec) (i : nat) : option spec := match i with 0 => Some sp | 1 => Some name_label | _ => None end.
Definition two_matches (x y : match_) (i : nat) : match_ := match i with 0 => x | _ => y end.
Lemma two_solution sp x y ops : found_for plain_rx word_c sp x → found_for plain_rx word_c name_label y →
  (∀ b, b ∈ ops → holds_between plain_rx word_c word_W b (two_matches x y)) → solution plain_rx word_c word_W (two_specs sp) ops (two_matches x y).
Proof. intros H1 H2 Hb. split; [|done]. intros [|[|i]] sp' Hi; cbn in Hi; [injection Hi as <-; exact H1|injection Hi as <-; exact H2|discriminate Hi]. Qed.

(** The operands: for near, the words 2 and 1, else the word 3 and its span *)
Definition lost_first (o : aql_bop) : N := match o with BNear _ _ => 2%N | _ => 3%N end.
Definition lost_second (o : aql_bop) : N := match o with BNear _ _ => 1%N | _ => 10%N end.
(** Refutation: results are lost for the other operators on texts. With words that are the last ones of their texts as first operand, near,
    overlap, inclusion and identical coverage miss results, and the alignments miss all words. The estimate is the real number of matches. *)
Theorem C77_lost_refuted : ∃ c W db cs th order se l, corpus_fine plain_rx c W plain_exact db cs elements th order ∧
  from_spec plain_rx plain_exact db 1 (λ _, 0) tok_label = Some se ∧ se_items se = Done l ∧
  ∀ o, o ∈ [BNear None (RBound 1 1); BOverlap; BInclusion; BIdentCov; BLeft; BRight] → ∃ a se' l',
    solution plain_rx c W (two_specs tok_label) [(o, false, 0, 1)] a ∧
    optimize db cs id se (Some (length l)) 0 0 [(o, false, 0, 1)] = Some se' ∧ se_items se' = Done l' ∧ (a 0).1 ∉ l'.*1.
Proof.
  assert (∀ o, o ∈ [BNear None (RBound 1 1); BOverlap; BInclusion; BIdentCov; BLeft; BRight] →
    replaced_check tok_label [(o, false, 0, 1)] (lost_first o) false = true) as HC.
  { intros o Ho. repeat (apply elem_of_cons in Ho as [-> |Ho]; [vm_compute; reflexivity|]). by apply elem_of_nil in Ho. }
  destruct (replaced_checked _ _ _ _ (HC BOverlap ltac:(right; left))) as (se & l & _ & _ & E & E1 & _).
  exists word_c, word_W, word_db, word_cs, word_th, (with_nodes 1 (lin_of (ex_chains word_ex))), se, l.
  split_and!; [exact word_fine|exact E|exact E1|]. intros o Ho.
  destruct (replaced_checked _ _ _ _ (HC o Ho)) as (se2 & l2 & se' & l' & E' & E1' & _ & E2 & E3 & Hx). rewrite E in E'. injection E' as <-.
  rewrite E1 in E1'. injection E1' as <-.
  exists (two_matches (lost_first o, tok_key) (lost_second o, node_name_key)), se', l'. split_and!; [|exact E2|exact E3|exact Hx].
  apply two_solution.
  - apply word_found. destruct o; apply (bool_decide_unpack _); exact I.
  - apply name_found. destruct o; apply (bool_decide_unpack _); exact I.
  - intros b ->%elem_of_list_singleton. unfold holds_between, operator_meaning. cbn [fst snd two_matches].
    assert (3%N ∈ ex_toks word_ex ∧ 2%N ∈ ex_toks word_ex ∧ 1%N ∈ ex_toks word_ex) as (T3 & T2 & T1) by (split_and!; apply (bool_decide_unpack _); exact I).
    destruct (ends_token 3 T3) as [F3 L3]. destruct (ends_token 2 T2) as [F2 L2]. destruct (ends_token 1 T1) as [F1 L1]. destruct ends_span as [F10 L10].
    repeat (apply elem_of_cons in Ho as [-> |Ho]; [|]); [..|by apply elem_of_nil in Ho]; cbn [related op_holds lost_first lost_second].
    + right. exists 1%N, 2%N. split_and!; [exact L1|exact F2|exact one_step].
    + right. exists 3%N, 3%N, 3%N, 3%N. split_and!; try done; apply reach_refl.
    + exists 3%N, 3%N, 3%N, 3%N. split_and!; try done; apply reach_refl.
    + by exists 3%N, 3%N.
    + by exists 3%N.
    + by exists 3%N.
Qed.
Print Assumptions C77_lost_refuted.

(** Refutation: a negated operator restricts the search in the same way, so the nodes without such edges, for which it holds, are not found:
    for "annis:tok & annis:node_name & #1 !> #2 & #1 . #2", the words 1 and 2 are a result, but no word is found for #1. *)
Definition negated_ops : list (aql_bop * bool * nat * nat) :=
  [(BDominance [] (RBound 1 1) None, true, 0, 1); (BPrecedence None (RBound 1 1), false, 0, 1)].
Theorem C77_negated_refuted : ∃ c W db cs th order se l a se' l', corpus_fine plain_rx c W plain_exact db cs elements th order ∧
  from_spec plain_rx plain_exact db 1 (λ _, 0) tok_label = Some se ∧ se_items se = Done l ∧
  solution plain_rx c W (two_specs tok_label) negated_ops a ∧
  optimize db cs id se (Some (length l)) 0 0 negated_ops = Some se' ∧ se_items se' = Done l' ∧ (a 0).1 ∉ l'.*1.
Proof.
  assert (replaced_check tok_label negated_ops 1%N false = true) as HC by (vm_compute; reflexivity).
  destruct (replaced_checked _ _ _ _ HC) as (se & l & se' & l' & E & E1 & _ & E2 & E3 & Hx).
  exists word_c, word_W, word_db, word_cs, word_th, (with_nodes 1 (lin_of (ex_chains word_ex))), se, l, (two_matches (1%N, tok_key) (2%N, node_name_key)), se', l'.
  split_and!; [exact word_fine|exact E|exact E1| |exact E2|exact E3|exact Hx]. apply two_solution.
  - apply word_found. apply (bool_decide_unpack _). exact I.
  - apply name_found. apply (bool_decide_unpack _). exact I.
  - intros b Hb. apply elem_of_cons in Hb as [-> |Hb]; [|apply elem_of_list_singleton in Hb as ->]; unfold holds_between, operator_meaning; cbn [fst snd two_matches related].
    + intros (n & C & _ & HW & (p & [Hp _] & Hl) & _). unfold word_W in HW. case_decide; [|done]. injection HW as <-.
      destruct p as [|x p]; [cbn in Hl; lia|]. destruct Hp as [He _]. unfold edge_rel in He. cbn [co_edges chain_component] in He.
      apply elem_of_list_to_set, elem_of_list_singleton in He. discriminate He.
    + assert (2%N ∈ ex_toks word_ex ∧ 1%N ∈ ex_toks word_ex) as (T2 & T1) by (split_and!; apply (bool_decide_unpack _); exact I).
      cbn [op_holds]. exists 1%N, 2%N. split_and!; [apply (ends_token 1 T1)|apply (ends_token 2 T2)|exact one_step].
Qed.
Print Assumptions C77_negated_refuted.

(** The hypotheses of the positive theorems are met: the span, found by its name, dominates a word; the search for names is replaced and the
    span is kept, the words are not. *)
Definition kept_ops : list (aql_bop * bool * nat * nat) := [(BDominance [] (RBound 1 1) None, false, 0, 1)].
Example kept_example : ∃ se se' l',
  from_spec plain_rx plain_exact word_db 1 (λ _, 0) name_label = Some se ∧ optimize word_db word_cs id se (Some 10) 0 0 kept_ops = Some se' ∧
  se_items se' = Done l' ∧ l' = [(10%N, node_name_key)] ∧ (∀ k, reported name_label k = k) ∧
  (∀ b, b ∈ kept_ops → operator_loaded word_cs b.1.1.1 ∧ b.1.2 = 0 ∧ b.1.1.2 = false ∧ directed b.1.1.1) ∧
  solution plain_rx word_c word_W (two_specs name_label) kept_ops (two_matches (10%N, node_name_key) (3%N, node_name_key)).
Proof.
  assert (match from_spec plain_rx plain_exact word_db 1 (λ _, 0) name_label with
          | Some se => match optimize word_db word_cs id se (Some 10) 0 0 kept_ops with
                       | Some se' => match se_items se' with Done l' => bool_decide (l' = [(10%N, node_name_key)]) | _ => false end
                       | None => false end
          | None => false end = true) as HC by (vm_compute; reflexivity).
  destruct (from_spec plain_rx plain_exact word_db 1 (λ _, 0) name_label) as [se|] eqn:E; [|discriminate HC].
  destruct (optimize word_db word_cs id se (Some 10) 0 0 kept_ops) as [se'|] eqn:E1; [|discriminate HC].
  destruct (se_items se') as [l'| |] eqn:E2; [|discriminate HC..]. apply bool_decide_eq_true_1 in HC.
  exists se, se', l'. split_and!; [reflexivity|exact E1|exact E2|exact HC|reflexivity| |].
  - intros b ->%elem_of_list_singleton. split_and!; [|reflexivity|reflexivity|cbn; lia]. intros n o Hin _. apply elem_of_list_singleton in Hin. injection Hin as _ ->. by eexists.
  - apply two_solution; [apply name_found; apply (bool_decide_unpack _); exact I..|]. intros b ->%elem_of_list_singleton.
    unfold holds_between, operator_meaning. cbn [fst snd two_matches related]. exists word_dom, (chain_component [[10; 3]]%N []).
    split_and!; [split; reflexivity|unfold word_W; by rewrite decide_True| |exact I]. exists [3%N]. split; [|cbn; lia]. split.
    + split; [|reflexivity]. unfold edge_rel. cbn [co_edges chain_component]. apply elem_of_list_to_set. left.
    + apply (bool_decide_unpack _). vm_compute. exact I.
Qed.
