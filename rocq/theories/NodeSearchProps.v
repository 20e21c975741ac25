(** C53: the searches for single nodes. *)
From stdpp Require Import base list gmap.
From Coq Require Import NArith.
From Verif Require Import KeySer SortedMap Types SymbolTable AnnoMem AnnoSpec GraphSpec Adjacency AdjacencySpec
  Storage StorageSpec StorageProofs GraphApply TokenHelper SortMatches QuickSort TokenSearch TokenSearchSpec TokenSearchProps Joins JoinsSpec
  NodeSearch NodeSearchSpec NodeSearchProofs.

(** The matches of a search are the nodes which meet the description, with the annotation to be reported. *)
Theorem C53_results : ∀ rx exact db c fuel rnd s se, holds_content db c → exact_ok rx exact → s ≠ SAnyTok →
  from_spec rx exact db fuel rnd s = Some se →
  ∃ l, se_items se = Done l ∧ ∀ n k, (n, k) ∈ l ↔ ∃ k', meets rx c s n k' ∧ k = reported s k'.
Proof.
  intros rx exact db c fuel rnd s se H He Hs E. destruct (items_lemma rx exact db c H He fuel rnd s se E Hs) as (l & E1 & E2 & _). by exists l.
Qed.
Print Assumptions C53_results.

(** "tok": under the conditions of C39. *)
Theorem C53_any_token_partial : ∀ rx exact db c fuel rnd se l, holds_content db c → texts_ok c →
  (is_Some (cp_order db) → cp_all_in_order db = Some true → ∀ n, token c n → n ∈ all_nodes (ct_order c)) →
  (∀ gs n, cp_order db = Some gs → token c n → n ∉ all_nodes (ct_order c) → gs_connected gs n 0 Unbounded = [n]) →
  from_spec rx exact db fuel rnd SAnyTok = Some se → se_items se = Done l →
  NoDup l ∧ ∀ n k, (n, k) ∈ l ↔ ∃ k', meets rx c SAnyTok n k' ∧ k = reported SAnyTok k'.
Proof.
  intros rx exact db c fuel rnd se l H T Hf Hl [= <-] E. cbn in E.
  destruct (C39_tokens_partial db c fuel rnd H T Hf Hl) as [_ HH]. destruct (HH l E) as (ns & -> & Hnd & Hin & _). split.
  - apply NoDup_fmap; [by intros ? ? [= ->]|done].
  - intros n k. rewrite elem_of_list_fmap. cbn. split.
    + intros (n' & [= -> ->] & Hn%Hin). exists tok_key. done.
    + intros (k' & [-> Hn] & ->). exists n. split; [done|]. by apply Hin.
Qed.
Print Assumptions C53_any_token_partial.

(** Each match is found once. Missing: searches for metadata without a namespace in corpora with several namespaces (see below). *)
Theorem C53_once_partial : ∀ rx exact db c fuel rnd s se l, holds_content db c → exact_ok rx exact → s ≠ SAnyTok → meta_unique c s →
  from_spec rx exact db fuel rnd s = Some se → se_items se = Done l → NoDup l.
Proof.
  intros rx exact db c fuel rnd s se l H He Hs Hu E El. destruct (items_lemma rx exact db c H He fuel rnd s se E Hs) as (l' & E1 & _ & E2).
  rewrite E1 in El. injection El as <-. by apply E2.
Qed.
Print Assumptions C53_once_partial.

(** A search is refused if and only if its regular expression is not valid. *)
Theorem C53_invalid_pattern : ∀ rx exact db fuel rnd s,
  from_spec rx exact db fuel rnd s = None ↔ ∃ p, pattern s = Some p ∧ rx p = None.
Proof. exact from_spec_none. Qed.
Print Assumptions C53_invalid_pattern.

(** The description of a search which is used by index joins (annotation name, conditions, constant annotation) describes exactly its
    matches: the premise of C32. *)
Theorem C53_description_agrees : ∀ rx exact db c fuel rnd s se l, holds_content db c → exact_ok rx exact → s ≠ SAnyTok →
  from_spec rx exact db fuel rnd s = Some se → se_items se = Done l →
  search_agrees (search_keys db se) (se_cond se) (se_const se) l ∧ conds_total (se_cond se).
Proof.
  intros rx exact db c fuel rnd s se l H He Hs E El. destruct (items_lemma rx exact db c H He fuel rnd s se E Hs) as (l' & E1 & E2 & _).
  rewrite E1 in El. injection El as <-. by eapply agrees_lemma.
Qed.
Print Assumptions C53_description_agrees.
Theorem C53_any_token_agrees_partial : ∀ rx exact db c fuel rnd se l, holds_content db c → texts_ok c →
  (is_Some (cp_order db) → cp_all_in_order db = Some true → ∀ n, token c n → n ∈ all_nodes (ct_order c)) →
  (∀ gs n, cp_order db = Some gs → token c n → n ∉ all_nodes (ct_order c) → gs_connected gs n 0 Unbounded = [n]) →
  from_spec rx exact db fuel rnd SAnyTok = Some se → se_items se = Done l →
  search_agrees (search_keys db se) (se_cond se) (se_const se) l ∧ conds_total (se_cond se).
Proof.
  intros rx exact db c fuel rnd se l H T Hf Hl E El. apply (agrees_lemma rx exact db c H fuel rnd SAnyTok se l E).
  by eapply C53_any_token_partial.
Qed.
Print Assumptions C53_any_token_agrees_partial.

(** The replacement of a search by one for the source nodes of components finds the nodes which meet the description and are sources
    of an edge in one of the components. Missing: the reported annotation is always the one which was found, and nodes can be found
    more than once (see below). *)
Theorem C53_component_search_partial : ∀ rx exact db c fuel rnd s se comps Gs, holds_content db c → Forall2 implements comps Gs →
  from_spec rx exact db fuel rnd s = Some se →
  ∃ l, se_items (component_search db se comps None) = Done l ∧
  ∀ n k, (n, k) ∈ l ↔ meets rx c s n k ∧ ∃ G, G ∈ Gs ∧ is_source G n.
Proof.
  intros rx exact db c fuel rnd s se comps Gs H Hi E.
  destruct (component_lemma rx exact db c H fuel rnd s se comps None E) as (l & E1 & E2). exists l. split; [done|].
  intros n k. by rewrite E2, (component_nodes_in comps Gs n Hi).
Qed.
Print Assumptions C53_component_search_partial.
(** With one component and no constant annotation, the matches are the ones of the original search which have an outgoing edge. *)
Theorem C53_one_component : ∀ rx exact db c fuel rnd s se gs G, holds_content db c → exact_ok rx exact → implements gs G →
  from_spec rx exact db fuel rnd s = Some se → se_const se = None → s ≠ SAnyTok →
  ∃ l l', se_items se = Done l ∧ se_items (component_search db se [gs] None) = Done l' ∧ NoDup l' ∧
  ∀ n k, (n, k) ∈ l' ↔ (n, k) ∈ l ∧ is_source G n.
Proof.
  intros rx exact db c fuel rnd s se gs G H He Hi E Ec Hs.
  destruct (items_lemma rx exact db c H He fuel rnd s se E Hs) as (l & E1 & E2 & _).
  destruct (C53_component_search_partial rx exact db c fuel rnd s se [gs] [G] H ltac:(by constructor) E) as (l' & E3 & E4).
  exists l, l'. split_and!; [done|done| |].
  - apply (component_once rx exact db c H fuel rnd s se [gs] None l' E); [|done]. cbn. rewrite app_nil_r. apply (im_sources_nd _ _ Hi).
  - intros n k. rewrite E4, E2. destruct (desc_lemma rx exact db fuel rnd s se E) as (_ & _ & Hr). rewrite Ec in Hr. cbn in Hr.
    setoid_rewrite <- Hr. setoid_rewrite elem_of_list_singleton. naive_solver.
Qed.
Print Assumptions C53_one_component.

(** A corpus with a document (node 1) which has the annotation "t" in the namespaces "a" and "b", and with the texts of
    TokenSearchProps.v as two pointing components *)
Definition doc_ops : list (am_op N) :=
  [AmInsert 1%N (AnnoKey [116%N] [97%N]) [120%N]; AmInsert 1%N (AnnoKey [116%N] [98%N]) [120%N]; AmInsert 5%N (AnnoKey [112%N] []) [121%N]].
Definition doc_content : content := Content (as_run ∅ doc_ops (am_run N.compare am_new doc_ops).2) [] ∅ ∅ ∅.
Definition doc_corpus : corpus := Corpus (am_run N.compare am_new doc_ops).1 [] (Some empty_adj) (Some empty_adj) None None.
Lemma doc_holds : holds_content doc_corpus doc_content.
Proof.
  constructor.
  - exists doc_ops, (am_run N.compare am_new doc_ops).2. split; [apply surjective_pairing|reflexivity].
  - constructor.
  - exists empty_adj. split; [reflexivity|]. apply empty_implements.
  - exists empty_adj. split; [reflexivity|]. apply empty_implements.
  - reflexivity.
Qed.
(** A simple engine: a pattern matches itself, and the empty pattern is not valid *)
Definition plain_rx (p : bytes) : option (bytes → bool) := if decide (p = []) then None else Some (λ v, bool_decide (v = p)).
Definition plain_exact (p : bytes) : option bytes := Some p.
Lemma plain_ok : exact_ok plain_rx plain_exact.
Proof.
  intros p v re [= <-] E w. unfold plain_rx in E. destruct (decide (p = [])); [discriminate E|]. injection E as <-. apply bool_decide_eq_true.
Qed.
Definition search_items (db : corpus) (s : spec) : option (out (list match_)) := se_items <$> from_spec plain_rx plain_exact db 1 (λ _, 0) s.
Example node_search_example :
  search_items doc_corpus (SExact None [116%N] (Some [120%N]) false) = Some (Done [(1%N, AnnoKey [116%N] [97%N]); (1%N, AnnoKey [116%N] [98%N])]) ∧
  search_items doc_corpus (SRegex (Some [98%N]) [116%N] [120%N] true) = Some (Done [(1%N, node_type_key)]) ∧
  search_items doc_corpus (SNotExact None [116%N] [120%N] false) = Some (Done []) ∧
  search_items doc_corpus (STokRegex [] true) = None ∧
  meta_unique doc_content (SExact (Some [97%N]) [116%N] None true).
Proof.
  split_and!; try (vm_compute; reflexivity).
  intros n [] [] [H1 H2] [H3 H4] _ _. cbn in *. by subst.
Qed.

(** Refutation: a search for metadata without a namespace finds the document twice: duplicates are removed before the annotations are
    replaced by the constant one. *)
Theorem C53_meta_duplicates_refuted : ∃ db c s se l, holds_content db c ∧ s ≠ SAnyTok ∧
  from_spec plain_rx plain_exact db 1 (λ _, 0) s = Some se ∧ se_items se = Done l ∧ ¬ NoDup l.
Proof.
  exists doc_corpus, doc_content, (SExact None [116%N] None true).
  assert (search_items doc_corpus (SExact None [116%N] None true) = Some (Done [(1%N, node_type_key); (1%N, node_type_key)])) as Hi
    by (vm_compute; reflexivity).
  unfold search_items in Hi. destruct (from_spec _ _ _ _ _ _) as [se|]; [|discriminate Hi]. exists se.
  eexists. split_and!; [exact doc_holds|discriminate|reflexivity|by injection Hi|].
  intros Hn. apply NoDup_cons in Hn as [Hn _]. apply Hn. by left.
Qed.
Print Assumptions C53_meta_duplicates_refuted.

(** Refutation: the replacement by a search for source nodes finds node 5 twice if it has an outgoing edge in two components. *)
Theorem C53_component_search_duplicates_refuted : ∃ db c s se comps G1 G2 l, holds_content db c ∧ s ≠ SAnyTok ∧
  from_spec plain_rx plain_exact db 1 (λ _, 0) s = Some se ∧ Forall2 implements comps [G1; G2] ∧
  se_items se = Done [(5%N, AnnoKey [112%N] [])] ∧ se_items (component_search db se comps None) = Done l ∧ ¬ NoDup l.
Proof.
  set (s := SExact None [112%N] None false).
  assert (match from_spec plain_rx plain_exact doc_corpus 1 (λ _, 0) s with
          | Some se => match se_items se, se_items (component_search doc_corpus se [order_lin; order_lin] None) with
                       | Done l, Done l' => bool_decide (l = [(5%N, AnnoKey [112%N] [])]) && bool_decide (l' = [(5%N, AnnoKey [112%N] []); (5%N, AnnoKey [112%N] [])])
                       | _, _ => false end
          | None => false end = true) as HH by (vm_compute; reflexivity).
  destruct (from_spec plain_rx plain_exact doc_corpus 1 (λ _, 0) s) as [se|] eqn:E; [|discriminate HH].
  destruct (se_items se) as [l| |] eqn:E1; [|discriminate HH|discriminate HH].
  destruct (se_items (component_search doc_corpus se [order_lin; order_lin] None)) as [l'| |] eqn:E2; [|discriminate HH|discriminate HH].
  apply andb_true_iff in HH as [H1%bool_decide_eq_true H2%bool_decide_eq_true].
  assert (implements order_lin (ct_order ex_content)) as Hi by (exact (proj1 (hc_order _ _ (ex_holds_lin None)))).
  exists doc_corpus, doc_content, s, se, [order_lin; order_lin], (ct_order ex_content), (ct_order ex_content), l'.
  split_and!; [exact doc_holds|discriminate|exact E| |by rewrite E1, H1|exact E2|].
  - constructor; [exact Hi|]. constructor; [exact Hi|constructor].
  - rewrite H2. intros Hn. apply NoDup_cons in Hn as [Hn _]. apply Hn. by left.
Qed.
Print Assumptions C53_component_search_duplicates_refuted.

(** Refutation: the replacement does not report the constant annotation: the tokens are found as annis::tok. *)
Theorem C53_component_search_annotation_refuted : ∃ db c s se gs G l l', holds_content db c ∧ implements gs G ∧ s ≠ SAnyTok ∧
  from_spec plain_rx plain_exact db 1 (λ _, 0) s = Some se ∧ se_items se = Done l ∧ se_items (component_search db se [gs] None) = Done l' ∧
  l = [(5%N, node_type_key)] ∧ l' = [(5%N, tok_key)].
Proof.
  set (s := STokExact [5%N] true). set (db := ex_corpus order_lin None).
  assert (match from_spec plain_rx plain_exact db 1 (λ _, 0) s with
          | Some se => match se_items se, se_items (component_search db se [order_lin] None) with
                       | Done l, Done l' => bool_decide (l = [(5%N, node_type_key)]) && bool_decide (l' = [(5%N, tok_key)])
                       | _, _ => false end
          | None => false end = true) as HH by (vm_compute; reflexivity).
  destruct (from_spec plain_rx plain_exact db 1 (λ _, 0) s) as [se|] eqn:E; [|discriminate HH].
  destruct (se_items se) as [l| |] eqn:E1; [|discriminate HH|discriminate HH].
  destruct (se_items (component_search db se [order_lin] None)) as [l'| |] eqn:E2; [|discriminate HH|discriminate HH].
  apply andb_true_iff in HH as [H1%bool_decide_eq_true H2%bool_decide_eq_true].
  exists db, ex_content, s, se, order_lin, (ct_order ex_content), l, l'.
  split_and!; [apply ex_holds_lin|exact (proj1 (hc_order _ _ (ex_holds_lin None)))|discriminate|exact E|exact E1|exact E2|exact H1|exact H2].
Qed.
Print Assumptions C53_component_search_annotation_refuted.
