(** C38: candidates and checks of the operators on tokens *)
From stdpp Require Import base list gmap.
From Coq Require Import NArith Lia.
From Verif Require Import KeySer SortedMap Types SymbolTable AnnoMem AnnoSpec GraphSpec Adjacency AdjacencySpec Storage StorageSpec GraphApply
  TokenHelper TokenSearchSpec ContextSpec ExampleStorages ExampleCorpus ExampleAligned TokenOps TokenOpsSpec TokenOpsProofs TokenOpsMore.

(** The check of an operator is successful iff the operator holds for the tokens of both nodes *)
Theorem C38_check_partial : ∀ db c, holds_content db c → texts_ok c → aligned c →
  ∀ order th, cp_order db = Some order → th_new db = Some th →
  ∀ seg_edges op a b, op_usable c seg_edges op a.1 b.1 → (op = OOverlap true → a.1 = b.1 → a.2 = b.2) →
  op_filter th order op a b = true ↔ op_holds c seg_edges op a.1 b.1.
Proof. intros db c H T A order th Eo Eth se op a b HU Hk. exact (op_filter_borders db c H T order Eo th Eth se op a b A HU Hk). Qed.
Print Assumptions C38_check_partial.

(** The candidates for [a] are exactly the nodes for which the operator holds *)
Theorem C38_candidates_partial : ∀ db c, holds_content db c → texts_ok c → aligned c →
  ∀ order th hash, cp_order db = Some order → th_new db = Some th → hash_order hash →
  ∀ seg_edges op a b, op_usable c seg_edges op a.1 b → candidates_usable c seg_edges op →
  b ∈ op_retrieve hash th order op a ↔ op_holds c seg_edges op a.1 b.
Proof. intros db c H T A order th hash Eo Eth Hh se op a b. exact (op_candidates db c H T order Eo th Eth hash Hh se op a b A). Qed.
Print Assumptions C38_candidates_partial.

(** Candidates and check agree for all corpora with well-formed (not necessarily correct) edges to left-most and right-most tokens *)
Theorem C38_agreement_partial : ∀ db c, holds_content db c → texts_ok c → well_aligned c →
  ∀ order th hash, cp_order db = Some order → th_new db = Some th → hash_order hash →
  ∀ seg_edges op a b key, (∀ reflexive, op ≠ OOverlap reflexive) → op_usable c seg_edges op a.1 b → candidates_usable c seg_edges op →
  b ∈ op_retrieve hash th order op a ↔ op_filter th order op a (b, key) = true.
Proof. intros db c H T A order th hash Eo Eth Hh se op a b key. exact (op_agree db c H T order Eo th Eth hash Hh se op a b key A). Qed.
Print Assumptions C38_agreement_partial.

(** No candidate is found twice *)
Theorem C38_candidates_once_partial : ∀ db c, holds_content db c → texts_ok c → well_aligned c →
  ∀ order th hash, cp_order db = Some order → th_new db = Some th → hash_order hash →
  ∀ seg_edges op a, op_usable c seg_edges op a.1 a.1 → candidates_usable c seg_edges op → NoDup (op_retrieve hash th order op a).
Proof. intros db c H T A order th hash Eo Eth Hh se op a. exact (op_nodup db c H T order Eo th Eth hash Hh se op a A). Qed.
Print Assumptions C38_candidates_once_partial.

(** An inverse operator holds for (b, a) iff the operator holds for (a, b) *)
Theorem C38_inverse : ∀ th order same_cost op op' a b, op_inverse order same_cost op = Some op' →
  op_filter th order op' b a = op_filter th order op a b.
Proof. exact op_inverse_filter. Qed.
Print Assumptions C38_inverse.

(** For nodes which cover all tokens between their first and their last one: they overlap iff they share a token, and one includes the
    other one iff it covers all of its tokens *)
Theorem C38_overlap_tokens : ∀ c, chains (ct_order c) → ∀ a b, contiguous c a → contiguous c b →
  (∃ l r, first_covered c a l ∧ last_covered c a r) → (∃ l r, first_covered c b l ∧ last_covered c b r) → ∀ seg_edges,
  op_holds c seg_edges (OOverlap false) a b ↔ ∃ t, covered c a t ∧ covered c b t.
Proof. exact overlap_tokens. Qed.
Print Assumptions C38_overlap_tokens.
Theorem C38_inclusion_tokens : ∀ c, chains (ct_order c) → ∀ a b, contiguous c a → contiguous c b →
  (∃ l r, first_covered c a l ∧ last_covered c a r) → (∃ l r, first_covered c b l ∧ last_covered c b r) → ∀ seg_edges,
  op_holds c seg_edges OInclusion a b ↔ ∀ t, covered c b t → covered c a t.
Proof. intros c Hch a b Ha Hb Fa Fb se. exact (inclusion_tokens c Hch a b Ha Hb Fa Fb se). Qed.
Print Assumptions C38_inclusion_tokens.

(** ** Examples *)
(** Texts 1→2→3→4 and 5→6, spans 10 of 1 and 2, 11 of 2 and 3, 12 of 1, 2 and 3, 13 of 3 and 4, 14 without tokens *)
Definition ops_ex : example :=
  Ex [1; 2; 3; 4; 5; 6]%N [10; 11; 12; 13; 14]%N [[1; 2; 3; 4]; [5; 6]]%N
     [Edge 10 1; Edge 10 2; Edge 11 2; Edge 11 3; Edge 12 1; Edge 12 2; Edge 12 3; Edge 13 3; Edge 13 4]%N
     [Edge 10 1; Edge 11 2; Edge 12 1; Edge 13 3]%N [Edge 10 2; Edge 11 3; Edge 12 3; Edge 13 4]%N.
Lemma ops_check : ex_check ops_ex = true.
Proof. vm_compute. reflexivity. Qed.
Lemma ops_aligned_check : ex_aligned_check ops_ex = true.
Proof. vm_compute. reflexivity. Qed.
Lemma ops_contiguous_check : ex_contiguous_check ops_ex = true.
Proof. vm_compute. reflexivity. Qed.
Definition th_of (x : example) (Hc : ex_check x = true) : helper := Helper (cp_annos (corpus_of x Hc))
  (adj_of (ex_left x) (check_left x Hc)) (adj_of (ex_right x) (check_right x Hc)) (cov_edges (corpus_of x Hc)).
Lemma th_of_new x Hc : th_new (corpus_of x Hc) = Some (th_of x Hc).
Proof. reflexivity. Qed.
(** A segmentation with the order 10→13 *)
Definition seg_chain : list (list N) := [[10; 13]]%N.
Definition seg_gs : storage := lin_of seg_chain.
Definition seg_of (gs : storage) : gset edge := list_to_set (chain_edges seg_chain).
Lemma hash_elements : hash_order elements.
Proof. intros X. split; [apply NoDup_elements|]. intros x. by rewrite elem_of_elements. Qed.
Lemma small_limit x (Hc : ex_check x = true) (k : N) : (k <= 1000)%N → in_limit (ct_order (content_of x)) (Included k).
Proof.
  intros Hk. unfold in_limit. destruct (check_chain x Hc) as (_ & H2 & H3 & _).
  pose proof (chain_size (ex_chains x) H2 H3) as Hs. cbn [content_of ct_order].
  apply N.le_trans with 2000%N; [lia|]. apply N.leb_le. reflexivity.
Qed.
Lemma ops_in_order t : token (content_of ops_ex) t → t ∈ all_nodes (ct_order (content_of ops_ex)).
Proof.
  intros [Ht _]%(ex_token ops_ex ops_check).
  assert (all_nodes (ct_order (content_of ops_ex)) = list_to_set (ex_toks ops_ex)) as -> by (apply (bool_decide_eq_true _); vm_compute; reflexivity).
  by apply elem_of_list_to_set.
Qed.
(** The hypotheses are met by all operators *)
Lemma cov_limit : Forall (λ G, in_limit G (Included 1%N)) (ct_cov (content_of ops_ex)).
Proof. constructor; [|constructor]. unfold in_limit. apply N.leb_le. vm_compute. reflexivity. Qed.
Definition ops_of (op : token_op) : Prop :=
  match op with
  | OPrecedence seg d | OInversePrecedence seg d | ONear seg d => (seg = None ∨ seg = Some seg_gs) ∧ (d = RUnbound ∨ d = RBound 1 2)
  | _ => True
  end.
Example ops_usable op a b : ops_of op → op_usable (content_of ops_ex) seg_of op a b ∧ candidates_usable (content_of ops_ex) seg_of op.
Proof.
  assert (∀ d, d = RUnbound ∨ d = RBound 1 2 → dist_ok (ct_order (content_of ops_ex)) (token (content_of ops_ex)) d) as HD.
  { intros d Hd. split; [|split]; [| |left; destruct Hd as [->| ->]; simpl; lia]; destruct Hd as [->| ->]; cbn [max_dist min_dist range_ok]; [exact I|apply small_limit; [exact ops_check|lia]|exact I|lia]. }
  assert (∀ d P, d = RUnbound ∨ d = RBound 1 2 → dist_ok (seg_of seg_gs) P d) as HDS.
  { intros d P Hd. split; [|split]; [| |left; destruct Hd as [->| ->]; simpl; lia]; destruct Hd as [->| ->]; cbn [max_dist min_dist range_ok]; [exact I|unfold in_limit; apply N.leb_le; vm_compute; reflexivity|exact I|lia]. }
  assert (NoDup (mjoin seg_chain)) as Hnd by (apply (bool_decide_eq_true _); vm_compute; reflexivity).
  assert (implements seg_gs (seg_of seg_gs) ∧ chains (seg_of seg_gs)) as [IS HS].
  { split; [apply lin_of_implements|by apply chain_edges_chains]; try exact Hnd; try (vm_compute; reflexivity); vm_compute; lia. }
  assert (∀ n, n ∈ all_nodes (seg_of seg_gs) → ¬ token (content_of ops_ex) n) as HN.
  { intros n Hn [Ht _]%(ex_token ops_ex ops_check). assert (all_nodes (seg_of seg_gs) = {[10; 13]}%N) as E
      by (apply (bool_decide_eq_true _); vm_compute; reflexivity). rewrite E in Hn.
    assert (10%N ∉ ex_toks ops_ex ∧ 13%N ∉ ex_toks ops_ex) as [? ?] by (apply (bool_decide_eq_true _); vm_compute; reflexivity). set_solver. }
  destruct op as [seg d|seg d|seg d|rx| | | |]; cbn [ops_of op_usable candidates_usable]; intros Hop;
    try (destruct Hop as [[->| ->] Hd]; auto; fail); try done.
  - split; [done|]. split_and!; [apply (ex_one_text ops_ex ops_check ops_aligned_check)|
      apply (ex_contiguous ops_ex ops_check ops_aligned_check ops_contiguous_check)|apply (ex_covers_tokens ops_ex ops_check ops_aligned_check)|apply cov_limit].
  - split; [|done]. split; [|apply ops_in_order]. apply small_limit; [exact ops_check|].
    destruct (check_chain ops_ex ops_check) as (_ & H2 & H3 & _). pose proof (chain_size (ex_chains ops_ex) H2 H3). cbn [content_of ct_order]. lia.
Qed.
Example ops_corpus : holds_content (corpus_of ops_ex ops_check) (content_of ops_ex) ∧ texts_ok (content_of ops_ex) ∧ aligned (content_of ops_ex) ∧
  well_aligned (content_of ops_ex).
Proof.
  split_and!; [apply corpus_of_holds|apply ex_texts_ok; exact ops_check|apply ex_aligned; [exact ops_check|exact ops_aligned_check]|].
  eapply aligned_well; [apply (corpus_of_holds ops_ex ops_check)|apply ex_texts_ok; exact ops_check|apply ex_aligned; [exact ops_check|exact ops_aligned_check]].
Qed.
(** Candidates of each operator *)
Notation cand op a := (op_retrieve elements (th_of ops_ex ops_check) (lin_of (ex_chains ops_ex)) op (a, tok_key)).
Example ops_candidates :
  cand (OPrecedence None (RBound 1 2)) 10%N = [3; 13; 4]%N ∧ cand (OInversePrecedence None RUnbound) 13%N = [1; 2; 10]%N ∧
  cand (OPrecedence (Some seg_gs) (RBound 1 2)) 10%N = [13]%N ∧ cand (ONear (Some seg_gs) RUnbound) 13%N = [10]%N ∧
  cand OInclusion 12%N = [1; 10; 12; 2; 11; 3]%N ∧ cand OIdenticalCoverage 12%N = [12]%N ∧ cand OIdenticalCoverage 5%N = [5]%N ∧
  cand OLeftAlignment 10%N = [1; 10; 12]%N ∧ cand ORightAlignment 3%N = [3; 11; 12]%N ∧ cand OLeftAlignment 14%N = [].
Proof. vm_compute. repeat constructor. Qed.

(** C38: the candidates for overlap are not complete for nodes with a hole: the span 10 of 1 and 3 and the span 11 of 2 *)
Definition hole_ex : example :=
  Ex [1; 2; 3]%N [10; 11]%N [[1; 2; 3]]%N [Edge 10 1; Edge 10 3; Edge 11 2]%N [Edge 10 1; Edge 11 2]%N [Edge 10 3; Edge 11 2]%N.
Lemma hole_missing (Hc : ex_check hole_ex = true) key : 11%N ∉ op_retrieve elements (th_of hole_ex Hc) (lin_of (ex_chains hole_ex)) (OOverlap false) (10%N, key).
Proof.
  assert (ex_aligned_check hole_ex = true) as Ha by (vm_compute; reflexivity). pose proof (corpus_of_holds hole_ex Hc) as H.
  cbn [op_retrieve fst]. rewrite (overlap_retrieve_iff _ _ H (th_of hole_ex Hc) (th_of_new hole_ex Hc) elements hash_elements).
  - intros [[? _]|(t & C1 & C2)]; [done|].
    assert (∀ n, n ∈ [10; 11]%N → ¬ token (content_of hole_ex) n) as Hn.
    { intros n Hn [Ht _]%(ex_token hole_ex Hc). assert (Forall (λ n, n ∉ ex_toks hole_ex) [10; 11]%N) as HF by (apply (bool_decide_eq_true _); vm_compute; reflexivity).
      rewrite Forall_forall in HF. by apply (HF n). }
    apply (ex_covered hole_ex Hc Ha) in C1; [|apply Hn; by left]. apply (ex_covered hole_ex Hc Ha) in C2; [|apply Hn; by right; left].
    cbn [hole_ex ex_cov] in C1, C2. rewrite !elem_of_cons, elem_of_nil in C1, C2. clear -C1 C2.
    destruct C1 as [C1|[C1|[C1|[]]]], C2 as [C2|[C2|[C2|[]]]]; congruence.
  - by apply ex_covers_tokens.
  - constructor; [|constructor]. unfold in_limit. apply N.leb_le. vm_compute. reflexivity.
Qed.
Theorem C38_overlap_refuted : ∃ db c order th hash a b, holds_content db c ∧ texts_ok c ∧ aligned c ∧ cp_order db = Some order ∧ th_new db = Some th ∧
  hash_order hash ∧ op_filter th order (OOverlap false) a b = true ∧ b.1 ∉ op_retrieve hash th order (OOverlap false) a.
Proof.
  assert (ex_check hole_ex = true) as Hc by (vm_compute; reflexivity). assert (ex_aligned_check hole_ex = true) as Ha by (vm_compute; reflexivity).
  exists (corpus_of hole_ex Hc), (content_of hole_ex), (lin_of (ex_chains hole_ex)), (th_of hole_ex Hc), elements, (10%N, tok_key), (11%N, tok_key).
  assert (aligned (content_of hole_ex)) as A by by apply ex_aligned.
  pose proof (corpus_of_holds hole_ex Hc) as H. pose proof (ex_texts_ok hole_ex Hc) as T.
  split_and!; [done|done|done|reflexivity|reflexivity|apply hash_elements|vm_compute; reflexivity|]. apply hole_missing.
Qed.
Print Assumptions C38_overlap_refuted.

(** C38: if tokens are ordered by a segmentation, the candidates are not sound: the span 11 starts with the token 2, but it is not part of
    the segmentation 1→2 *)
Definition tok_seg : list (list N) := [[1; 2]]%N.
Theorem C38_segmentation_refuted : ∃ db c order th hash seg S a b, holds_content db c ∧ texts_ok c ∧ aligned c ∧ cp_order db = Some order ∧
  th_new db = Some th ∧ hash_order hash ∧ implements seg S ∧ chains S ∧
  op_filter th order (OPrecedence (Some seg) RUnbound) a b = false ∧ b.1 ∈ op_retrieve hash th order (OPrecedence (Some seg) RUnbound) a.
Proof.
  exists (corpus_of ops_ex ops_check), (content_of ops_ex), (lin_of (ex_chains ops_ex)), (th_of ops_ex ops_check), elements,
    (lin_of tok_seg), (list_to_set (chain_edges tok_seg)), (1%N, tok_key), (11%N, tok_key).
  assert (NoDup (mjoin tok_seg)) as Hnd by (apply (bool_decide_eq_true _); vm_compute; reflexivity).
  destruct ops_corpus as (H & T & A & _).
  split_and!; [done|done|done|reflexivity|reflexivity|apply hash_elements|apply lin_of_implements|by apply chain_edges_chains|vm_compute; reflexivity|];
    try exact Hnd; try (vm_compute; reflexivity); try (vm_compute; lia).
  apply (bool_decide_eq_true _). vm_compute. reflexivity.
Qed.
Print Assumptions C38_segmentation_refuted.

(** C38: in a text with only one token, this token is not included by the span which covers it, because it has no order *)
Definition single_ex : example := Ex [1; 2; 3]%N [10]%N [[1; 2]]%N [Edge 10 3]%N [Edge 10 3]%N [Edge 10 3]%N.
Theorem C38_single_token_refuted : ∃ db c order th hash a b, holds_content db c ∧ texts_ok c ∧ aligned c ∧ cp_order db = Some order ∧
  th_new db = Some th ∧ hash_order hash ∧ op_holds c (λ _, ∅) OInclusion a.1 b.1 ∧
  op_filter th order OInclusion a b = false ∧ b.1 ∉ op_retrieve hash th order OInclusion a.
Proof.
  assert (ex_check single_ex = true) as Hc by (vm_compute; reflexivity). assert (ex_aligned_check single_ex = true) as Ha by (vm_compute; reflexivity).
  exists (corpus_of single_ex Hc), (content_of single_ex), (lin_of (ex_chains single_ex)), (th_of single_ex Hc), elements, (10%N, tok_key), (3%N, tok_key).
  assert (aligned (content_of single_ex)) as A by by apply ex_aligned.
  pose proof (corpus_of_holds single_ex Hc) as H. pose proof (ex_texts_ok single_ex Hc) as T.
  assert (token (content_of single_ex) 3) as H3.
  { apply (ex_token single_ex Hc). split; [apply (bool_decide_eq_true _); vm_compute; reflexivity|]. apply (bool_decide_eq_true _); vm_compute; reflexivity. }
  assert (first_covered (content_of single_ex) 3 3 ∧ last_covered (content_of single_ex) 3 3) as [F3 L3].
  { split; (split; [apply (token_covered _ _ _ H3); reflexivity|]); intros t Ht; apply (token_covered _ _ _ H3) in Ht; rewrite Ht; apply reach_refl. }
  split_and!; [exact H|exact T|exact A|reflexivity|reflexivity|apply hash_elements| |vm_compute; reflexivity|].
  - exists 3%N, 3%N, 3%N, 3%N. assert (Edge 10 3 ∈ ex_left single_ex) as HL by by left. assert (Edge 10 3 ∈ ex_right single_ex) as HR by by left.
    split_and!; [apply (ex_left_first single_ex Hc Ha 10 3 HL)|apply (ex_right_last single_ex Hc Ha 10 3 HR)|exact F3|exact L3|apply reach_refl|apply reach_refl].
  - apply (bool_decide_eq_true _). vm_compute. reflexivity.
Qed.
Print Assumptions C38_single_token_refuted.
