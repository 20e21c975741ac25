(** C46: negated operators. *)
From stdpp Require Import base list gmap.
From Coq Require Import NArith Lia.
From Verif Require Import KeySer SortedMap Types SymbolTable AnnoMem AnnoSpec GraphSpec Adjacency AdjacencySpec Storage StorageSpec GraphApply
  TokenHelper TokenSearchSpec QuickSort TokenSearch TokenSearchProps NodeSearch NodeSearchSpec NodeSearchProps ContextSpec ExampleStorages ExampleCorpus ExampleAligned
  TokenOps TokenOpsSpec TokenOpsProofs TokenOpsMore TokenOpsProps EdgeOps EdgeOpsSpec EdgeOpsProofs ExampleGraph EdgeOpsProps
  NonExisting NonExistingSpec NonExistingProofs.

(** A negated operator holds for two matches iff the operator does not. *)
Theorem C46_negated : ∀ op R, decides op R → decides (negated op) (λ a b, ¬ R a b).
Proof.
  intros op R [Hc _]. split; [|done]. intros a b. cbn. rewrite negb_true_iff. rewrite <- not_true_iff_false. by rewrite Hc.
Qed.
Print Assumptions C46_negated.

(** "not exists" is never an error, and it holds for a match iff no node of the optional search is related to it; whether the operator
    is used with an index, inverted or checked for all nodes. *)
Theorem C46_not_exists : ∀ rx exact db c fuel rnd s target_left op inverse R m, holds_content db c → exact_ok rx exact →
  s ≠ SAnyTok → valid_pattern rx s → decides op R → (∀ i, inverse = Some i → decides i (λ a b, R b a)) →
  ∃ b, not_exists rx exact db fuel rnd s target_left op inverse m = Some b ∧ (b = true ↔ ¬ exists_related rx c s target_left R m.1).
Proof.
  intros rx exact db c fuel rnd s tl op inv R m H He Hs Hv Ho Hi. apply (not_exists_lemma rx exact db c H fuel rnd); [done|done|done|].
  by apply search_done.
Qed.
Print Assumptions C46_not_exists.
(** Searches for all tokens, under the conditions of C39 and if the sort of the tokens succeeds. *)
Theorem C46_not_exists_token_partial : ∀ rx exact db c fuel rnd target_left op inverse R m items, holds_content db c → texts_ok c →
  (is_Some (cp_order db) → cp_all_in_order db = Some true → ∀ n, token c n → n ∈ all_nodes (ct_order c)) →
  (∀ gs n, cp_order db = Some gs → token c n → n ∉ all_nodes (ct_order c) → gs_connected gs n 0 Unbounded = [n]) →
  token_search fuel rnd db = Done items → decides op R → (∀ i, inverse = Some i → decides i (λ a b, R b a)) →
  ∃ b, not_exists rx exact db fuel rnd SAnyTok target_left op inverse m = Some b ∧ (b = true ↔ ¬ exists_related rx c SAnyTok target_left R m.1).
Proof.
  intros rx exact db c fuel rnd tl op inv R m items H T Hf Hl E Ho Hi. apply (not_exists_lemma rx exact db c H fuel rnd); [done|done|done|].
  eexists _, items. split_and!; [reflexivity|exact E|]. by apply (C53_any_token_partial rx exact db c fuel rnd _ items H T Hf Hl eq_refl).
Qed.
Print Assumptions C46_not_exists_token_partial.
(** With an index and the optional search on the right side, without any condition on the token search. *)
Theorem C46_not_exists_index : ∀ rx exact db c fuel rnd s check retrieve inverse R m, holds_content db c → valid_pattern rx s →
  decides (IndexOp check retrieve) R →
  ∃ b, not_exists rx exact db fuel rnd s false (IndexOp check retrieve) inverse m = Some b ∧ (b = true ↔ ¬ exists_related rx c s false R m.1).
Proof. intros rx exact db c fuel rnd s f ret inv R m H Hv Hd. by apply not_exists_index. Qed.
Print Assumptions C46_not_exists_index.

(** All operators which can be negated in a query. First, the ones on tokens. *)
Theorem C46_token_operators_partial : ∀ rx exact db c fuel rnd s target_left hash th order same_cost seg_edges op m,
  holds_content db c → texts_ok c → aligned c → cp_order db = Some order → th_new db = Some th → hash_order hash →
  exact_ok rx exact → s ≠ SAnyTok → valid_pattern rx s →
  op ≠ OOverlap true → (∀ a b, op_usable c seg_edges op a b) → candidates_usable c seg_edges op →
  (∀ a b, op_check (negated (token_binop hash th order op)) a b = true ↔ ¬ op_holds c seg_edges op a.1 b.1) ∧
  ∃ b, not_exists rx exact db fuel rnd s target_left (token_binop hash th order op) (token_binop hash th order <$> op_inverse order same_cost op) m = Some b ∧
       (b = true ↔ ¬ exists_related rx c s target_left (op_holds c seg_edges op) m.1).
Proof.
  intros rx exact db c fuel rnd s tl hash th order sc se op m H T A Eo Et Hh He Hs Hv Hn Hu Hcu.
  assert (decides (token_binop hash th order op) (op_holds c se op)) as HD.
  { split.
    - intros a b. cbn. apply (C38_check_partial db c H T A order th Eo Et se op a b (Hu _ _)). intros ->. done.
    - intros a n. by apply (C38_candidates_partial db c H T A order th hash Eo Et Hh se op a n). }
  split.
  { intros a b. apply (C46_negated _ _ HD). }
  apply C46_not_exists; [done|done|done|done|done|].
  intros i Hi. destruct (op_inverse order sc op) as [op'|] eqn:Ei; [|done]. injection Hi as <-.
  assert (∀ a b, op_check (token_binop hash th order op') a b = true ↔ op_holds c se op b.1 a.1) as HC.
  { intros a b. cbn. rewrite (C38_inverse th order sc op op' b a Ei). exact (proj1 HD b a). }
  split; [exact HC|]. intros a n.
  assert (op' ≠ OOverlap true ∧ (∀ a b, op_usable c se op' a b) ∧ candidates_usable c se op') as (Hn' & Hu' & Hcu').
  { destruct op; cbn in Ei; try (injection Ei as <-); try done. destruct (sc _); [injection Ei as <-; done|done]. }
  transitivity (op_check (token_binop hash th order op') a (n, tok_key) = true); [|apply HC].
  rewrite (C38_candidates_partial db c H T A order th hash Eo Et Hh se op' a n (Hu' _ _) Hcu').
  symmetry. cbn. apply (C38_check_partial db c H T A order th Eo Et se op' a (n, tok_key) (Hu' _ _)). intros ->. done.
Qed.
Print Assumptions C46_token_operators_partial.
(** Operators on edges *)
Theorem C46_edge_operators_partial : ∀ rx exact db c fuel rnd s target_left cs W cheap q op same_cost narrow m,
  holds_content db c → exact_ok rx exact → s ≠ SAnyTok → valid_pattern rx s →
  holds_graph cs W → create cs cheap q = Some op → (∀ a b, q_usable W q a b) →
  (∀ a b, op_check (negated (edge_binop rx op)) a b = true ↔ ¬ linked rx W q a.1 b.1) ∧
  ∃ b, not_exists rx exact db fuel rnd s target_left (edge_binop rx op) (edge_binop rx <$> edge_inverse same_cost narrow op) m = Some b ∧
       (b = true ↔ ¬ exists_related rx c s target_left (linked rx W q) m.1).
Proof.
  intros rx exact db c fuel rnd s tl cs W cheap q op sc nw m H He Hs Hv HG E Hu.
  assert (decides (edge_binop rx op) (linked rx W q)) as HD.
  { split.
    - intros a b. by apply (C54_check_partial rx cs W cheap q op a.1 b.1).
    - intros a n. by apply (C54_candidates_partial rx cs W cheap q op a.1 n). }
  split.
  { intros a b. apply (C46_negated _ _ HD). }
  apply C46_not_exists; [done|done|done|done|done|].
  intros i Hi. destruct (edge_inverse sc nw op) as [op'|] eqn:Ei; [|done]. injection Hi as <-. split.
  - intros a b. by apply (C54_inverse_partial rx cs W cheap q op op' sc nw b.1 a.1).
  - intros a n. by apply (C54_inverse_partial rx cs W cheap q op op' sc nw n a.1).
Qed.
Print Assumptions C46_edge_operators_partial.
(** The same node *)
Theorem C46_same_node : ∀ rx exact db c fuel rnd s target_left m, holds_content db c → exact_ok rx exact → s ≠ SAnyTok → valid_pattern rx s →
  ∃ b, not_exists rx exact db fuel rnd s target_left same_node_binop (Some same_node_binop) m = Some b ∧ (b = true ↔ ¬ ∃ k, meets rx c s m.1 k).
Proof.
  intros rx exact db c fuel rnd s tl m H He Hs Hv.
  assert (decides same_node_binop (=)) as HD by (split; intros ? ?; apply C54_same_node).
  destruct (C46_not_exists rx exact db c fuel rnd s tl same_node_binop (Some same_node_binop) eq m H He Hs Hv HD) as (b & Eb & Hb).
  { intros i [= <-]. split; [intros a b; rewrite (proj1 HD a b); naive_solver|intros a n; rewrite (proj2 HD a n); naive_solver]. }
  exists b. split; [done|]. rewrite Hb. unfold exists_related. apply not_iff_compat. destruct tl; naive_solver.
Qed.
Print Assumptions C46_same_node.

(** ** Examples *)
(** Which nodes precede no span which is named "n10"? The node 10 does not precede itself; with an index, and inverted without one *)
Definition named (n : N) : spec := SExact (Some annis) (ak_name node_name_key) (Some [110; n]%N) false.
Definition before (op : binop) (inverse : option binop) (target_left : bool) (target : N) (n : N) : option bool :=
  not_exists plain_rx plain_exact (corpus_of ops_ex ops_check) 1 (λ _, 0) (named target) target_left op inverse (n, tok_key).
Notation ops_binop := (token_binop elements (th_of ops_ex ops_check) (lin_of (ex_chains ops_ex))).
Example not_exists_ex :
  before (ops_binop (OPrecedence None RUnbound)) None false 13 10 = Some false ∧
  before (ops_binop (OPrecedence None RUnbound)) None false 10 13 = Some true ∧
  before (ops_binop (OPrecedence None RUnbound)) None true 13 10 = Some true ∧
  before (ops_binop (OPrecedence None RUnbound)) None true 10 13 = Some false ∧
  before (ops_binop (OPrecedence None RUnbound)) (Some (ops_binop (OInversePrecedence None RUnbound))) true 10 13 = Some false.
Proof. split_and!; vm_compute; reflexivity. Qed.
Example not_exists_hypotheses : valid_pattern plain_rx (named 13) ∧ named 13 ≠ SAnyTok ∧ exact_ok plain_rx plain_exact ∧
  (∀ a b, op_usable (content_of ops_ex) seg_of (OPrecedence None RUnbound) a b).
Proof.
  split_and!; [intros p [=]|discriminate|exact plain_ok|]. intros a b. apply ops_usable. split; [by left|by left].
Qed.

(** An invalid pattern is no error: then every node with such an annotation counts as a match, or, without an index, no node at all
    fulfils "not exists". *)
Theorem C46_invalid_pattern_refuted : ∃ rx exact db c s m, holds_content db c ∧ exact_ok rx exact ∧ s ≠ SAnyTok ∧
  (¬ ∃ n k, meets rx c s n k) ∧
  not_exists rx exact db 1 (λ _, 0) s false same_node_binop (Some same_node_binop) m = Some false ∧
  not_exists rx exact db 1 (λ _, 0) s true (BaseOp (λ _ _, false)) None m = Some false.
Proof.
  exists no_rx, (λ _, None), (corpus_of ops_ex ops_check), (content_of ops_ex), (SRegex (Some (ak_ns tok_key)) (ak_name tok_key) [40%N] false), (1%N, tok_key).
  split_and!; [apply corpus_of_holds|intros p v re [=]|discriminate| |vm_compute; reflexivity|vm_compute; reflexivity].
  intros (n & k & _ & v & re & _ & [=] & _).
Qed.
Print Assumptions C46_invalid_pattern_refuted.

(** Since candidates for overlaps are incomplete for spans with holes (C38_overlap_refuted), so is "not exists": the span 11 overlaps
    with 10, and 10 still fulfils "not exists". *)
Theorem C46_overlap_refuted : ∃ db c th order hash s m, holds_content db c ∧ texts_ok c ∧ aligned c ∧ cp_order db = Some order ∧
  th_new db = Some th ∧ hash_order hash ∧ valid_pattern plain_rx s ∧
  (∃ n k, meets plain_rx c s n k ∧ op_check (token_binop hash th order (OOverlap false)) m (n, k) = true) ∧
  not_exists plain_rx plain_exact db 1 (λ _, 0) s false (token_binop hash th order (OOverlap false)) None m = Some true.
Proof.
  assert (ex_check hole_ex = true) as Hc by (vm_compute; reflexivity). assert (ex_aligned_check hole_ex = true) as Ha by (vm_compute; reflexivity).
  pose proof (corpus_of_holds hole_ex Hc) as H. pose proof (ex_texts_ok hole_ex Hc) as T.
  exists (corpus_of hole_ex Hc), (content_of hole_ex), (th_of hole_ex Hc), (lin_of (ex_chains hole_ex)), elements, (named 11), (10%N, tok_key).
  assert (valid_pattern plain_rx (named 11)) as Hv by (intros p [=]).
  split_and!; [exact H|exact T|by apply ex_aligned|reflexivity|reflexivity|apply hash_elements|exact Hv| |].
  - exists 11%N, node_name_key. split; [|vm_compute; reflexivity]. split; [by split|]. exists [110; 11]%N.
    split; [|by right]. vm_compute. reflexivity.
  - set (ret := op_retrieve elements (th_of hole_ex Hc) (lin_of (ex_chains hole_ex)) (OOverlap false)).
    destruct (index_lemma plain_rx (corpus_of hole_ex Hc) (content_of hole_ex) H (named 11) ret (10%N, tok_key) (λ n, n ∈ ret (10%N, tok_key)) Hv) as (b & Eb & Hb); [done|].
    change (index_not_exists plain_rx (corpus_of hole_ex Hc) (named 11) ret (10%N, tok_key) = Some true). rewrite Eb. f_equal. apply Hb.
    intros (x & k & (Hk & v & Hl & Hv') & Hin). destruct Hv' as [?|[= <-]]; [done|].
    assert (map_Forall (λ (nk : N * anno_key) (v : bytes), v = [110; 11]%N → nk.1 = 11%N) (ct_labels (content_of hole_ex))) as HM
      by (apply (bool_decide_eq_true _); vm_compute; reflexivity).
    pose proof (HM (x, k) _ Hl eq_refl) as Ex. cbn in Ex. subst x. exact (hole_missing Hc tok_key Hin).
Qed.
Print Assumptions C46_overlap_refuted.
