(** C39: the search for all tokens. *)
From stdpp Require Import base list gmap.
From Coq Require Import NArith.
From Verif Require Import KeySer KeySerSpec SortedMap Types SymbolTable AnnoMem AnnoSpec AnnoMemProofs GraphSpec Adjacency AdjacencySpec AdjacencyProofs
  Linear LinearSpec LinearProofs LinearQueries LinearProps Storage StorageSpec StorageProofs GraphApply TokenHelper SortMatches QuickSort QuickSortSpec
  TokenSearch TokenSearchSpec TokenSearchProofs.

(** The search never fails; it finds the tokens, each of them once and in the order of the text. Restrictions: if the statistic says
    that all tokens are part of the token order then it is right, and a token outside of the order is found by the graph storage of the
    order at distance 0 (see the refutations below). *)
Theorem C39_tokens_partial : ∀ db c fuel rnd, holds_content db c → texts_ok c →
  (is_Some (cp_order db) → cp_all_in_order db = Some true → ∀ n, token c n → n ∈ all_nodes (ct_order c)) →
  (∀ gs n, cp_order db = Some gs → token c n → n ∉ all_nodes (ct_order c) → gs_connected gs n 0 Unbounded = [n]) →
  token_search fuel rnd db ≠ Failed ∧
  ∀ l, token_search fuel rnd db = Done l →
  ∃ ns, l = (λ n, (n, node_type_key)) <$> ns ∧ NoDup ns ∧ (∀ n, n ∈ ns ↔ token c n) ∧
    ∀ i j a b, ns !! i = Some a → ns !! j = Some b → precedes c a b → i < j.
Proof.
  intros db c fuel rnd H T Hf Hl. split; [exact (proj1 (token_search_lemma db c H T Hf Hl fuel rnd))|].
  exact (tokens_lemma db c H T Hf Hl fuel rnd).
Qed.
Print Assumptions C39_tokens_partial.

(** If every token is part of the token order then the result is right for every statistic and every graph storage. *)
Theorem C39_tokens_in_order : ∀ db c fuel rnd, holds_content db c → texts_ok c → (∀ n, token c n → n ∈ all_nodes (ct_order c)) →
  token_search fuel rnd db ≠ Failed ∧
  ∀ l, token_search fuel rnd db = Done l →
  ∃ ns, l = (λ n, (n, node_type_key)) <$> ns ∧ NoDup ns ∧ (∀ n, n ∈ ns ↔ token c n) ∧
    ∀ i j a b, ns !! i = Some a → ns !! j = Some b → precedes c a b → i < j.
Proof.
  intros db c fuel rnd H T Ha. apply C39_tokens_partial; [exact H|exact T|intros _ _; exact Ha|].
  intros gs n _ Hn Hno. destruct (Hno (Ha n Hn)).
Qed.
Print Assumptions C39_tokens_in_order.

(** The texts are not mixed up: the result consists of one block for each token without a predecessor, which holds the tokens that
    can be reached from it, and the blocks are sorted by the first token. *)
Theorem C39_texts_partial : ∀ db c fuel rnd l, holds_content db c → texts_ok c →
  (is_Some (cp_order db) → cp_all_in_order db = Some true → ∀ n, token c n → n ∈ all_nodes (ct_order c)) →
  (∀ gs n, cp_order db = Some gs → token c n → n ∉ all_nodes (ct_order c) → gs_connected gs n 0 Unbounded = [n]) →
  token_search fuel rnd db = Done l →
  ∃ texts : list (match_ * list N), l = (λ n, (n, node_type_key)) <$> mjoin texts.*2 ∧
    ascending (text_pos db) texts.*1 ∧
    (∀ t, t ∈ texts → token c t.1.1 ∧ ¬ is_target (ct_order c) t.1.1 ∧ ∀ n, n ∈ t.2 ↔ reachable (edge_rel (ct_order c)) t.1.1 n).
Proof.
  intros db c fuel rnd l H T Hf Hl E. destruct (token_search_lemma db c H T Hf Hl fuel rnd) as [_ Hs].
  destruct (Hs l E) as (roots & _ & Hin & Hasc & ->).
  exists ((λ m : match_, (m, from_root db m.1)) <$> roots). split_and!.
  - f_equal. f_equal. by rewrite <- list_fmap_compose.
  - rewrite <- list_fmap_compose. rewrite (list_fmap_ext _ id); [by rewrite list_fmap_id|done].
  - intros t Ht. apply elem_of_list_fmap in Ht as (m & -> & Hm). cbn.
    destruct (proj1 (Hin m.1)) as [Ht Hr]; [apply elem_of_list_fmap; by exists m|].
    split_and!; [done|done|]. by apply (from_root_spec db c H T Hf Hl).
Qed.
Print Assumptions C39_texts_partial.

(** The statistic is never wrong in the other direction: it is true if all tokens are part of the order. *)
Theorem C39_statistic_complete : ∀ db c, holds_content db c → is_Some (cp_order db) →
  (∀ n, token c n → n ∈ all_nodes (ct_order c)) → all_token_in_order db = true.
Proof. exact statistic_lemma. Qed.
Print Assumptions C39_statistic_complete.

(** With the statistic set, no token outside of the order is found, for any graph storage. *)
Theorem C39_shortcut_only_order : ∀ db c fuel rnd, holds_content db c → texts_ok c → is_Some (cp_order db) →
  cp_all_in_order db = Some true → token_search fuel rnd db ≠ Failed ∧
  ∀ l, token_search fuel rnd db = Done l → ∀ n k, (n, k) ∈ l → n ∈ all_nodes (ct_order c).
Proof. exact shortcut_lemma. Qed.
Print Assumptions C39_shortcut_only_order.

(** A corpus with the texts 5→3→8→1 and 20→21 (the component of LinearProps.v) and the single token 7 *)
Definition ex_key (n : N) : bytes := [110; n]%N.
Definition ex_label_ops : list (am_op N) :=
  mjoin ((λ n, [AmInsert n node_name_key (ex_key n); AmInsert n tok_key [n]]) <$> [7; 5; 3; 8; 1; 20; 21]%N).
Definition ex_labels : am N := (am_run N.compare am_new ex_label_ops).1.
Definition ex_content : content :=
  Content (as_run ∅ ex_label_ops (am_run N.compare am_new ex_label_ops).2) [] ∅ ∅ (gr_edges example_graph).
Lemma empty_ids : ids_ok (gr_edges empty_graph).
Proof. intros a b H. unfold edge_rel in H. cbn in H. set_solver. Qed.
Definition empty_adj : storage := adj_storage adj_new empty_graph ginv_new empty_ids.
Lemma example_ids : ids_ok (gr_edges example_graph).
Proof. intros a b H%example_rel. unfold node_bound. destruct H as [[= -> ->]|[[= -> ->]|[[= -> ->]|[= -> ->]]]]; done. Qed.
Lemma example_ginv : ginv example_adj example_graph.
Proof. apply (ginv_run_new example_ops). apply surjective_pairing. Qed.
Definition order_adj : storage := adj_storage example_adj example_graph example_ginv example_ids.
Definition order_lin : storage := lin_storage 255 example_lin.
Definition ex_corpus (order : storage) (stat : option bool) : corpus :=
  Corpus ex_labels [] (Some empty_adj) (Some empty_adj) (Some order) stat.
Lemma empty_implements : implements empty_adj ∅.
Proof. apply (adj_implements adj_new empty_graph ginv_new empty_ids). done. Qed.
Lemma ex_holds order stat : implements order (gr_edges example_graph) → chain_order order (gr_edges example_graph) →
  holds_content (ex_corpus order stat) ex_content.
Proof.
  intros Hi Hc. constructor.
  - exists ex_label_ops, (am_run N.compare am_new ex_label_ops).2. split; [apply surjective_pairing|reflexivity].
  - constructor.
  - exists empty_adj. split; [reflexivity|]. apply empty_implements.
  - exists empty_adj. split; [reflexivity|]. apply empty_implements.
  - exact (conj Hi Hc).
Qed.
Lemma ex_tokens n : token ex_content n ↔ n ∈ [7; 5; 3; 8; 1; 20; 21]%N.
Proof.
  split.
  - intros [[v Hv] _].
    assert (map_Forall (λ (ik : N * anno_key) (_ : bytes), ik.1 ∈ [7; 5; 3; 8; 1; 20; 21]%N) (ct_labels ex_content)) as HF
      by (apply (bool_decide_eq_true _); vm_compute; reflexivity).
    exact (HF _ _ Hv).
  - intros Hn. split; [|intros (G & HG & _); cbn in HG; by apply elem_of_nil in HG].
    assert (Forall (λ n, is_Some (ct_labels ex_content !! (n, tok_key))) [7; 5; 3; 8; 1; 20; 21]%N) as HF
      by (apply (bool_decide_eq_true _); vm_compute; reflexivity).
    rewrite Forall_forall in HF. by apply HF.
Qed.
Lemma ex_all_nodes n : n ∈ all_nodes (gr_edges example_graph) ↔ n ∈ [5; 3; 8; 1; 20; 21]%N.
Proof.
  rewrite <- elem_of_elements.
  assert (elements (all_nodes (gr_edges example_graph)) ≡ₚ [5; 3; 8; 1; 20; 21]%N) as -> by (apply (bool_decide_eq_true _); vm_compute; reflexivity).
  done.
Qed.
Lemma ex_texts : texts_ok ex_content.
Proof.
  split_and!.
  - apply example_fits.
  - intros n Hn%ex_all_nodes. apply ex_tokens. rewrite !elem_of_cons in *. tauto.
  - intros n Hn%ex_tokens.
    assert (Forall (λ n, is_Some (ct_labels ex_content !! (n, node_name_key))) [7; 5; 3; 8; 1; 20; 21]%N) as HF
      by (apply (bool_decide_eq_true _); vm_compute; reflexivity).
    rewrite Forall_forall in HF. by apply HF.
Qed.
Lemma ex_lone : token ex_content 7%N ∧ 7%N ∉ all_nodes (ct_order ex_content).
Proof.
  split; [apply ex_tokens; by left|]. cbn. rewrite ex_all_nodes. rewrite !elem_of_cons, elem_of_nil. intros HH. repeat destruct HH as [HH|HH]; done.
Qed.
Lemma ex_holds_adj stat : holds_content (ex_corpus order_adj stat) ex_content.
Proof.
  apply ex_holds.
  - apply adj_implements. intros st E. exfalso.
    assert (g_stats example_adj = None) as E' by (vm_compute; reflexivity). congruence.
  - apply adj_chain_order. apply example_fits.
Qed.
Lemma ex_holds_lin stat : holds_content (ex_corpus order_lin stat) ex_content.
Proof.
  destruct (linear_copy_ok _ _ _ _ _ example_fits example_copy) as (L & _).
  apply ex_holds.
  - apply (lin_implements 255 _ example_lin L example_fits). intros st E. exfalso.
    assert (l_stats example_lin = None) as E' by (vm_compute; reflexivity). congruence.
  - apply (lin_chain_order 255 _ example_lin L example_fits).
Qed.

(** The hypotheses are met: with the adjacency list all seven tokens are found. *)
Example tokens_example : ∀ fuel rnd l, token_search fuel rnd (ex_corpus order_adj (Some false)) = Done l →
  ∃ ns, l = (λ n, (n, node_type_key)) <$> ns ∧ ns ≡ₚ [7; 5; 3; 8; 1; 20; 21]%N.
Proof.
  intros fuel rnd l E. destruct (C39_tokens_partial _ ex_content fuel rnd (ex_holds_adj (Some false)) ex_texts) as [_ H].
  - done.
  - cbn. intros gs n [= <-] _ Hn. by apply (adj_finds_itself example_adj example_graph example_ginv example_ids).
  - destruct (H l E) as (ns & -> & Hnd & Hin & _). exists ns. split; [done|]. apply NoDup_Permutation; [done| |].
    + apply (bool_decide_eq_true _). vm_compute. reflexivity.
    + intros n. by rewrite Hin, ex_tokens.
Qed.

(** Refutation: the statistic is true although token 7 is not part of the order ("a && b || c" is "(a && b) || c"), so that the search
    misses it. *)
Theorem C39_statistic_refuted : ∃ db c n, holds_content db c ∧ texts_ok c ∧ token c n ∧ n ∉ all_nodes (ct_order c) ∧
  cp_all_in_order db = Some (all_token_in_order db) ∧
  ∃ l, token_search 1 (λ _, 0) db = Done l ∧ ∀ k, (n, k) ∉ l.
Proof.
  exists (ex_corpus order_adj (Some true)), ex_content, 7%N. split_and!; [apply ex_holds_adj|apply ex_texts|apply ex_lone|apply ex_lone| |].
  - vm_compute. reflexivity.
  - destruct (C39_shortcut_only_order _ _ 1 (λ _, 0) (ex_holds_adj (Some true)) ex_texts ltac:(by eexists) eq_refl) as [Hf Hs].
    destruct (token_search 1 (λ _, 0) (ex_corpus order_adj (Some true))) as [l| |] eqn:E.
    + exists l. split; [reflexivity|]. intros k Hk. apply (proj2 ex_lone). exact (Hs l eq_refl 7%N k Hk).
    + destruct (Hf eq_refl).
    + exfalso. refine (short_search _ _ _ E). apply Nat.leb_le. vm_compute. reflexivity.
Qed.
Print Assumptions C39_statistic_refuted.

(** Refutation: without the statistic token 7 is missing too if the order is stored as linear component, because this storage finds
    nothing for a node which is not part of it. *)
Theorem C39_linear_refuted : ∃ db c n, holds_content db c ∧ texts_ok c ∧ cp_all_in_order db = None ∧ token c n ∧
  token_search 1 (λ _, 0) db = Done ((λ n, (n, node_type_key)) <$> [5; 3; 8; 1; 20; 21]%N) ∧ n ∉ [5; 3; 8; 1; 20; 21]%N.
Proof.
  exists (ex_corpus order_lin None), ex_content, 7%N. split_and!; [apply ex_holds_lin|apply ex_texts|done|apply ex_lone| |].
  - vm_compute. reflexivity.
  - rewrite !elem_of_cons, elem_of_nil. intros HH. repeat destruct HH as [HH|HH]; done.
Qed.
Print Assumptions C39_linear_refuted.
