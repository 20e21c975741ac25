(** C45: the context of matches. *)
From stdpp Require Import base list gmap.
From Coq Require Import NArith Lia.
From Verif Require Import KeySer KeySerSpec SortedMap Types SymbolTable AnnoMem AnnoSpec GraphSpec Adjacency AdjacencySpec
  Storage StorageSpec GraphApply TokenHelper TokenSearchSpec QuickSort Context ContextSpec ContextProofs ContextGaps
  ExampleStorages ExampleCorpus.

(** C45: the window of a match starts [l] tokens before its first token and ends [r] tokens after its last token, or at the borders
    of the text. There is no window iff the match has no tokens. Missing for the full property: the tokens of the match are from
    one text (see [C45_one_text_refuted]), and the sorting of the tokens ends (see C27). *)
Theorem C45_window_partial : ∀ db c, holds_content db c → texts_ok c →
  ∀ order, cp_order db = Some order → at_most_itself order (ct_order c) → ∀ hash, hash_order hash →
  ∀ fuel rnd n l r, one_text c n → in_limit (ct_order c) (Included (N.of_nat l)) → in_limit (ct_order c) (Included (N.of_nat r)) →
  match region hash fuel rnd db n l r None with
  | ROk (s, e) => ∃ a b, covered c n a ∧ covered c n b ∧
      (∀ t, covered c n t → reachable (edge_rel (ct_order c)) a t ∧ reachable (edge_rel (ct_order c)) t b) ∧
      clipped_before (ct_order c) a l s ∧ clipped_after (ct_order c) b r e
  | RNoToken => ∀ t, ¬ covered c n t
  | RError => False
  | RNoFuel => True
  end.
Proof. exact region_lemma. Qed.
Print Assumptions C45_window_partial.

(** C45: the nodes of the context of a match are exactly the tokens between its tokens, up to [l] tokens before and up to [r] tokens
    after one of them, in text order, and the nodes covering these tokens. *)
Theorem C45_context_partial : ∀ db c, holds_content db c → texts_ok c →
  ∀ order, cp_order db = Some order → at_most_itself order (ct_order c) → ∀ hash, hash_order hash →
  ∀ fuel rnd th n l r s e, th_new db = Some th → one_text c n →
  in_limit (ct_order c) (Included (N.of_nat l)) → in_limit (ct_order c) (Included (N.of_nat r)) →
  region hash fuel rnd db n l r None = ROk (s, e) →
  ∃ out, emits (token_next hash th order e) (token_iter_new hash th s) out ∧ window_nodes c n l r out.
Proof. exact window_emits. Qed.
Print Assumptions C45_context_partial.
(** C45: an iterator emits one sequence of nodes. *)
Theorem C45_iterator_deterministic : ∀ S (next : S → option N * S) st l1 l2, emits next st l1 → emits next st l2 → l1 = l2.
Proof. exact @emits_fun. Qed.
Print Assumptions C45_iterator_deterministic.

(** C45: with a segmentation, the context is counted in segments. *)
Theorem C45_segmentation_partial : ∀ db c, holds_content db c → texts_ok c →
  ∀ order, cp_order db = Some order → at_most_itself order (ct_order c) → ∀ hash, hash_order hash →
  ∀ fuel rnd seg S, implements seg S → chains S → at_most_itself seg S →
  ∀ n l r, one_text c n →
  (∀ x y, segment_of c S n x → segment_of c S n y →
     x = y ∨ (∃ p, p ≠ [] ∧ walk (edge_rel S) x p y) ∨ ∃ p, p ≠ [] ∧ walk (edge_rel S) y p x) →
  in_limit S (Included (N.of_nat l)) → in_limit S (Included (N.of_nat r)) →
  match region hash fuel rnd db n l r (Some (Some seg)) with
  | ROk (s, e) =>
      ((∀ x, ¬ segment_of c S n x) ∧ first_covered c n s ∧ last_covered c n e) ∨
      ∃ x y x' y', segment_of c S n x ∧ segment_of c S n y ∧
        (∀ z, segment_of c S n z → reachable (edge_rel S) x z ∧ reachable (edge_rel S) z y) ∧
        clipped_before S x l x' ∧ clipped_after S y r y' ∧
        (left_border c x' s ∨ (∀ t, ¬ left_border c x' t) ∧ first_covered c n s) ∧
        (right_border c y' e ∨ (∀ t, ¬ right_border c y' t) ∧ last_covered c n e)
  | RNoToken => ∀ t, ¬ covered c n t
  | RError => False
  | RNoFuel => True
  end.
Proof. exact segmentation_lemma. Qed.
Print Assumptions C45_segmentation_partial.

(** C45: the nodes of the subgraph of several matches: the matched nodes, their contexts and all nodes they are part of. *)
Theorem C45_subgraph_nodes_partial : ∀ db c, holds_content db c → texts_ok c →
  ∀ order, cp_order db = Some order → at_most_itself order (ct_order c) → ∀ hash, hash_order hash →
  ∀ fuel rnd part_of P l r ns out, implements part_of P → (∀ n, n ∈ ns → one_text c n) →
  in_limit (ct_order c) (Included (N.of_nat l)) → in_limit (ct_order c) (Included (N.of_nat r)) →
  subgraph_nodes hash fuel rnd db part_of ns l r None out →
  ∀ y, y ∈ out ↔ y ∈ ns ∨ (∃ n t, n ∈ ns ∧ in_context c n l r t ∧ (y = t ∨ covers c y t)) ∨
                 ∃ n p, n ∈ ns ∧ simple_path (edge_rel P) n p y ∧ p ≠ [].
Proof. exact subgraph_lemma. Qed.
Print Assumptions C45_subgraph_nodes_partial.
(** C45: and these nodes are found, if the sorting ends. *)
Theorem C45_subgraph_found_partial : ∀ db c, holds_content db c → texts_ok c →
  ∀ order, cp_order db = Some order → at_most_itself order (ct_order c) → ∀ hash, hash_order hash →
  ∀ fuel rnd l r ns rs rs', (∀ n, n ∈ ns → one_text c n) →
  in_limit (ct_order c) (Included (N.of_nat l)) → in_limit (ct_order c) (Included (N.of_nat r)) →
  regions hash fuel rnd db ns l r None = ROk rs → sort (region_cmp order) fuel rnd rs = Done rs' →
  ∃ out, overlapped hash fuel rnd db ns l r None out.
Proof. exact overlapped_exists. Qed.
Print Assumptions C45_subgraph_found_partial.

(** C45: if no two contexts overlap (and all are from one text), the gaps between the tokens of the subgraph are marked, and nothing
    else. *)
Theorem C45_gaps_partial : ∀ db c, holds_content db c → texts_ok c →
  ∀ order, cp_order db = Some order → at_most_itself order (ct_order c) → ∀ th, th_new db = Some th → ∀ hash, hash_order hash →
  ∀ fuel rnd l r ns, (∀ n m, n ∈ ns → m ∈ ns → apart c l r n m) → (∀ n, n ∈ ns → one_text c n) →
  in_limit (ct_order c) (Included (N.of_nat l)) → in_limit (ct_order c) (Included (N.of_nat r)) →
  ∀ part_of P out, implements part_of P → (∀ n, is_target P n → ¬ token c n) →
  subgraph_nodes hash fuel rnd db part_of ns l r None out →
  ∀ a b, Edge a b ∈ gap_edges th order ∅ None out ↔ gap c out a b.
Proof. exact subgraph_gaps. Qed.
Print Assumptions C45_gaps_partial.

(** ** Examples *)
(** Texts 5→3→8→1→9→11 and 20→21, the single token 7, a span 30 of the tokens 3 and 8, a span 31 of the tokens 3 and 20 (from both
    texts), a node 32 without tokens and a span 33 of the tokens 1 and 9 *)
Definition ctx_ex : example :=
  Ex [5; 3; 8; 1; 9; 11; 20; 21; 7]%N [30; 31; 32; 33]%N [[5; 3; 8; 1; 9; 11]; [20; 21]]%N
     [Edge 30 3; Edge 30 8; Edge 31 3; Edge 31 20; Edge 33 1; Edge 33 9]%N [Edge 30 3; Edge 33 1]%N [Edge 30 8; Edge 33 9]%N.
Lemma ctx_check : ex_check ctx_ex = true.
Proof. vm_compute. reflexivity. Qed.
Definition ctx_corpus : corpus := corpus_of ctx_ex ctx_check.
Definition ctx_content : content := content_of ctx_ex.
Definition ctx_order : storage := lin_of (ex_chains ctx_ex).
Lemma ctx_hash : hash_order elements.
Proof. intros X. split; [apply NoDup_elements|]. intros x. by rewrite elem_of_elements. Qed.
Lemma ctx_limit k : k ≤ 1000 → in_limit (ct_order ctx_content) (Included (N.of_nat k)).
Proof.
  intros Hk. unfold in_limit. destruct (check_chain ctx_ex ctx_check) as (_ & H2 & H3 & _).
  pose proof (chain_size (ex_chains ctx_ex) H2 H3) as Hs. change (ct_order ctx_content) with (list_to_set (C := gset edge) (chain_edges (ex_chains ctx_ex))).
  apply N.le_trans with 2000%N; [lia|]. apply N.leb_le. reflexivity.
Qed.
Lemma ctx_token n : n ∈ [5; 3; 8; 1; 9; 11; 20; 21; 7]%N → token ctx_content n.
Proof.
  intros Hn. apply (ex_token ctx_ex ctx_check). split; [exact Hn|].
  assert (Forall (λ n, Forall (λ e, source e ≠ n) (ex_cov ctx_ex)) [5; 3; 8; 1; 9; 11; 20; 21; 7]%N) as HF
    by (apply (bool_decide_eq_true _); vm_compute; reflexivity).
  rewrite Forall_forall in HF. by apply HF.
Qed.
Lemma token_one_text c n : token c n → one_text c n.
Proof. intros Hn a b [_ [->|[_ Ha]]] [_ [->|[_ Hb]]]; [by left|done..]. Qed.
Lemma ctx_span t : covered ctx_content 30 t ↔ t = 3%N ∨ t = 8%N.
Proof.
  unfold covered. rewrite (ex_covers ctx_ex). cbn [ctx_ex ex_cov]. rewrite !elem_of_cons, elem_of_nil. split.
  - intros [Ht [->|[Hc _]]]; [|naive_solver]. apply (ex_token ctx_ex ctx_check) in Ht as [Ht _].
    assert (30%N ∉ ex_toks ctx_ex) as Hn by (apply (bool_decide_eq_true _); vm_compute; reflexivity). done.
  - intros Ht. split; [apply ctx_token; rewrite !elem_of_cons; naive_solver|]. right. split; [naive_solver|].
    intros [Hc _]%(ex_token ctx_ex ctx_check).
    assert (30%N ∉ ex_toks ctx_ex) as Hn by (apply (bool_decide_eq_true _); vm_compute; reflexivity). done.
Qed.
Lemma ctx_span_text : one_text ctx_content 30.
Proof.
  assert (precedes ctx_content 3 8) as Hp by (apply (ex_precedes ctx_ex ctx_check); vm_compute; reflexivity).
  intros a b [->| ->]%ctx_span [->| ->]%ctx_span; auto.
Qed.
Definition ctx_th : helper := Helper (cp_annos ctx_corpus)
  (adj_of (ex_left ctx_ex) (check_left ctx_ex ctx_check)) (adj_of (ex_right ctx_ex) (check_right ctx_ex ctx_check)) (cov_edges ctx_corpus).
Lemma ctx_th_new : th_new ctx_corpus = Some ctx_th.
Proof. reflexivity. Qed.
Definition ctx_emits (s e : N) : option (list N) := run_iter (token_next elements ctx_th ctx_order e) 50 (token_iter_new elements ctx_th s).
(** The hypotheses are met: the span with one token before and a context on the right which is larger than the text *)
Example context_example : region elements 1 (λ _, 0) ctx_corpus 30 1 900 None = ROk (5, 11)%N ∧
  region elements 1 (λ _, 0) ctx_corpus 30 0 1 None = ROk (3, 1)%N ∧ region elements 1 (λ _, 0) ctx_corpus 7 3 3 None = ROk (7, 7)%N ∧
  region elements 1 (λ _, 0) ctx_corpus 32 3 3 None = RNoToken ∧
  window_nodes ctx_content 30 1 900 [5; 31; 30; 3; 30; 8; 33; 1; 33; 9; 11]%N.
Proof.
  assert (region elements 1 (λ _, 0) ctx_corpus 30 1 900 None = ROk (5, 11)%N) as HR by (vm_compute; reflexivity).
  split_and!; [exact HR|vm_compute; reflexivity..|].
  destruct (C45_context_partial ctx_corpus ctx_content (corpus_of_holds ctx_ex ctx_check) (ex_texts_ok ctx_ex ctx_check) ctx_order eq_refl
    (order_of_self ctx_ex ctx_check) elements ctx_hash 1 (λ _, 0) ctx_th 30 1 900 5 11 ctx_th_new ctx_span_text (ctx_limit 1 ltac:(lia)) (ctx_limit 900 ltac:(lia)) HR)
    as (out & He & Hw).
  assert (ctx_emits 5 11 = Some [5; 31; 30; 3; 30; 8; 33; 1; 33; 9; 11]%N) as Hr by (vm_compute; reflexivity).
  apply run_iter_emits in Hr. by rewrite (C45_iterator_deterministic _ _ _ _ _ He Hr) in Hw.
Qed.

(** The hypotheses of [C45_segmentation_partial] are met: the spans 30 and 33 are segments, the token 8 with one segment on the right *)
Definition seg_chain : list (list N) := [[30; 33]]%N.
Example segmentation_example :
  region elements 1 (λ _, 0) ctx_corpus 8 0 1 (Some (Some (lin_of seg_chain))) = ROk (3, 9)%N ∧
  region elements 1 (λ _, 0) ctx_corpus 8 0 1 (Some None) = RError ∧
  implements (lin_of seg_chain) (list_to_set (chain_edges seg_chain)) ∧ at_most_itself (lin_of seg_chain) (list_to_set (chain_edges seg_chain)) ∧
  chains (list_to_set (chain_edges seg_chain)) ∧ one_text ctx_content 8 ∧
  ∀ x, segment_of ctx_content (list_to_set (chain_edges seg_chain)) 8 x ↔ x = 30%N.
Proof.
  assert (NoDup (mjoin seg_chain)) as Hnd by (apply (bool_decide_eq_true _); vm_compute; reflexivity).
  assert (token ctx_content 8) as H8 by (apply ctx_token; rewrite !elem_of_cons; tauto).
  split_and!; [vm_compute; reflexivity|vm_compute; reflexivity|apply lin_of_implements|apply lin_of_self|by apply chain_edges_chains|by apply token_one_text|];
    try exact Hnd; try (vm_compute; reflexivity); try (vm_compute; lia).
  intros x. unfold segment_of.
  assert (x ∈ all_nodes (list_to_set (C := gset edge) (chain_edges seg_chain)) ↔ x = 30%N ∨ x = 33%N) as ->.
  { assert (all_nodes (list_to_set (C := gset edge) (chain_edges seg_chain)) = {[30; 33]}%N) as E
      by (apply (bool_decide_eq_true _); vm_compute; reflexivity). rewrite E. set_solver. }
  setoid_rewrite (ex_covers ctx_ex). split.
  - intros (Hx & t & [_ [->|[_ Hn]]] & Hc); [|done]. destruct Hx as [->| ->]; [done|].
    assert (Edge 33 8 ∉ ex_cov ctx_ex) as Hno by (apply (bool_decide_eq_true _); vm_compute; reflexivity). done.
  - intros ->. split; [by left|]. exists 8%N. split; [by apply covered_token_self|]. apply (bool_decide_eq_true _). vm_compute. reflexivity.
Qed.
(** The hypotheses of [C45_gaps_partial] are met: the tokens 5 and 11 without context *)
Lemma token_context c n t : token c n → in_context c n 0 0 t ↔ t = n ∨ reachable (edge_rel (ct_order c)) n t ∧ reachable (edge_rel (ct_order c)) t n.
Proof.
  intros Hn. assert (∀ a, covered c n a ↔ a = n) as Hc by (intros a; unfold covered; naive_solver). unfold in_context. setoid_rewrite Hc. split.
  - intros [(a & b & -> & -> & H1 & H2)|[(a & p & -> & Hw & Hl)|(a & p & -> & Hw & Hl)]]; [by right|left..]; (destruct p; [|simpl in Hl; lia]); by simpl in Hw.
  - intros [->|[H1 H2]]; left; exists n, n; split_and!; try done; by exists [].
Qed.
Example gaps_example : (∀ n m, n ∈ [5; 11]%N → m ∈ [5; 11]%N → apart ctx_content 0 0 n m) ∧
  overlapped elements 1 (λ _, 0) ctx_corpus [5; 11]%N 0 0 None [5; 11]%N ∧ gap_edges ctx_th ctx_order ∅ None [5; 11]%N = [Edge 5 11].
Proof.
  assert (∀ n, n ∈ [5; 11]%N → token ctx_content n) as Ht by (intros n Hn; apply ctx_token; rewrite !elem_of_cons in *; tauto).
  assert (∀ n t, n ∈ [5; 11]%N → in_context ctx_content n 0 0 t ↔ t = n) as Hi.
  { intros n t Hn. rewrite token_context by by apply Ht. split; [|by left]. intros [->|[[p Hp] [q Hq]]]; [done|].
    destruct p as [|y p]; [by simpl in Hp|]. destruct (proj2 (proj2 (proj1 (ex_texts_ok ctx_ex ctx_check))) n). exists ((y :: p) ++ q). split; [done|].
    by eapply DfsProofs.walk_app. }
  split_and!.
  - assert (precedes ctx_content 5 11) as Hp by (apply (ex_precedes ctx_ex ctx_check); vm_compute; reflexivity).
    intros n m Hn Hm. unfold apart. setoid_rewrite (λ t, Hi n t Hn). setoid_rewrite (λ t, Hi m t Hm).
    rewrite !elem_of_cons, elem_of_nil in Hn, Hm. destruct Hn as [->|[->|[]]], Hm as [->|[->|[]]]; [by left|right; left|right; right|by left]; by intros ? ? -> ->.
  - apply (overlapped_intro elements 1 (λ _, 0) ctx_corpus [5; 11]%N 0 0 None ctx_th ctx_order [(5, 5); (11, 11)]%N [(5, 5); (11, 11)]%N [[5]; [11]]%N).
    + exact ctx_th_new.
    + reflexivity.
    + vm_compute. reflexivity.
    + vm_compute. reflexivity.
    + constructor; [|constructor; [|constructor]]; apply (run_iter_emits _ 50); vm_compute; reflexivity.
  - vm_compute. reflexivity.
Qed.

(** C45: tokens of several texts: the span 31 covers the tokens 3 and 20. Without any context on both sides the token 9 is part of
    the result, but the covered token 20 is not. *)
Theorem C45_one_text_refuted : ∃ db c order th n s e out, holds_content db c ∧ texts_ok c ∧ cp_order db = Some order ∧
  at_most_itself order (ct_order c) ∧ th_new db = Some th ∧ region elements 1 (λ _, 0) db n 0 0 None = ROk (s, e) ∧
  emits (token_next elements th order e) (token_iter_new elements th s) out ∧
  (∃ t, t ∈ out ∧ token c t ∧ ¬ in_context c n 0 0 t) ∧ ∃ t, covered c n t ∧ t ∉ out.
Proof.
  exists ctx_corpus, ctx_content, ctx_order, ctx_th, 31%N, 3%N, 20%N, [31; 30; 3; 30; 8; 33; 1; 33; 9; 11]%N.
  assert (∀ t, covered ctx_content 31 t ↔ t = 3%N ∨ t = 20%N) as Hcov.
  { intros t. unfold covered. rewrite (ex_covers ctx_ex). cbn [ctx_ex ex_cov]. rewrite !elem_of_cons, elem_of_nil.
    assert (¬ token ctx_content 31) as Hn.
    { intros [Ht _]%(ex_token ctx_ex ctx_check).
      assert (31%N ∉ ex_toks ctx_ex) as Hn by (apply (bool_decide_eq_true _); vm_compute; reflexivity). done. }
    split.
    - intros [Ht [->|[Hc _]]]; [done|naive_solver].
    - intros Ht. split; [apply ctx_token; rewrite !elem_of_cons; naive_solver|]. right. split; [naive_solver|done]. }
  assert (∀ a b, reachable (edge_rel (ct_order ctx_content)) a b → a = b ∨ gs_is_connected ctx_order a b 1 Unbounded = true) as Hre.
  { intros a b [[|y p] Hp]; [by left|]. right. apply (ex_precedes ctx_ex ctx_check). by exists (y :: p). }
  split_and!.
  - exact (corpus_of_holds ctx_ex ctx_check).
  - exact (ex_texts_ok ctx_ex ctx_check).
  - reflexivity.
  - exact (order_of_self ctx_ex ctx_check).
  - exact ctx_th_new.
  - vm_compute. reflexivity.
  - apply (run_iter_emits _ 50). vm_compute. reflexivity.
  - exists 9%N. split_and!; [rewrite !elem_of_cons; tauto|apply ctx_token; rewrite !elem_of_cons; tauto|].
    intros [(a & b & _ & Hb & _ & Hr)|[(a & p & Ha & Hw & Hl)|(b & p & Hb & Hw & Hl)]].
    + apply Hre in Hr. apply Hcov in Hb as [->| ->]; destruct Hr as [?|Hr]; done.
    + destruct p; [|simpl in Hl; lia]. simpl in Hw. subst a. by apply Hcov in Ha as [?|?].
    + destruct p; [|simpl in Hl; lia]. simpl in Hw. subst b. by apply Hcov in Hb as [?|?].
  - exists 20%N. split; [apply Hcov; by right|]. apply (bool_decide_eq_true _). vm_compute. reflexivity.
Qed.
Print Assumptions C45_one_text_refuted.

(** C45: overlapping contexts. The matched tokens are 5, 8 and 11 with one token of context on both sides: the contexts of 5 (5 and 3)
    and 8 (3, 8 and 1) overlap and are found in the order of the ids 3 < 5 instead of the text. So 5 is the last token before
    the context of 11 (9 and 11), and a gap between 5 and 9 is marked although 3, 8 and 1 are part of the subgraph. *)
Definition doc_chain : list (list N) := [[11; 40; 41]]%N.
Definition doc_part_of : storage := lin_of doc_chain.
Lemma doc_implements : implements doc_part_of (list_to_set (chain_edges doc_chain)).
Proof.
  apply lin_of_implements; [apply (bool_decide_eq_true _); vm_compute; reflexivity|vm_compute; lia|vm_compute; reflexivity|vm_compute; reflexivity].
Qed.
Theorem C45_gaps_refuted : ∃ db c order th part_of P ns out, holds_content db c ∧ texts_ok c ∧ cp_order db = Some order ∧
  at_most_itself order (ct_order c) ∧ th_new db = Some th ∧ (∀ n, n ∈ ns → one_text c n) ∧ implements part_of P ∧
  subgraph_nodes elements 1 (λ _, 0) db part_of ns 1 1 None out ∧
  ∃ a b, Edge a b ∈ gap_edges th order ∅ None out ∧ ¬ gap c out a b.
Proof.
  exists ctx_corpus, ctx_content, ctx_order, ctx_th, doc_part_of, (list_to_set (chain_edges doc_chain)), [5; 8; 11]%N,
    ([] ++ mjoin [[31; 30; 3; 30; 8; 33; 1]; [5; 31; 30; 3]; [33; 9; 11]] ++ [41; 40])%N.
  split_and!.
  - exact (corpus_of_holds ctx_ex ctx_check).
  - exact (ex_texts_ok ctx_ex ctx_check).
  - reflexivity.
  - exact (order_of_self ctx_ex ctx_check).
  - exact ctx_th_new.
  - intros n Hn. apply token_one_text, ctx_token. rewrite !elem_of_cons in *. tauto.
  - exact doc_implements.
  - assert (filter (λ n, is_token ctx_th n = false) [5; 8; 11]%N = []) as E1 by (vm_compute; reflexivity).
    assert (parents elements doc_part_of [5; 8; 11]%N = [41; 40]%N) as E2 by (vm_compute; reflexivity).
    assert (subgraph_nodes elements 1 (λ _, 0) ctx_corpus doc_part_of [5; 8; 11]%N 1 1 None
      (filter (λ n, is_token ctx_th n = false) [5; 8; 11]%N ++ mjoin [[31; 30; 3; 30; 8; 33; 1]; [5; 31; 30; 3]; [33; 9; 11]]%N ++
       parents elements doc_part_of [5; 8; 11]%N)) as HS; [|rewrite E1, E2 in HS; exact HS].
    apply subgraph_intro; [exact ctx_th_new|].
    apply (overlapped_intro elements 1 (λ _, 0) ctx_corpus [5; 8; 11]%N 1 1 None ctx_th ctx_order [(5, 3); (3, 1); (9, 11)]%N [(3, 1); (5, 3); (9, 11)]%N).
    + exact ctx_th_new.
    + reflexivity.
    + vm_compute. reflexivity.
    + vm_compute. reflexivity.
    + constructor; [|constructor; [|constructor; [|constructor]]]; apply (run_iter_emits _ 50); vm_compute; reflexivity.
  - exists 5%N, 9%N. split.
    + assert (gap_edges ctx_th ctx_order ∅ None ([] ++ mjoin [[31; 30; 3; 30; 8; 33; 1]; [5; 31; 30; 3]; [33; 9; 11]] ++ [41; 40])%N = [Edge 5 9]) as E
        by (vm_compute; reflexivity). rewrite E. by left.
    + intros (_ & _ & _ & _ & _ & _ & Hno). apply (Hno 8%N).
      * apply (bool_decide_eq_true _). vm_compute. reflexivity.
      * apply ctx_token. rewrite !elem_of_cons. tauto.
      * apply (ex_precedes ctx_ex ctx_check). vm_compute. reflexivity.
      * apply (ex_precedes ctx_ex ctx_check). vm_compute. reflexivity.
Qed.
Print Assumptions C45_gaps_refuted.
