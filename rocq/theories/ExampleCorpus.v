(** Corpora with given tokens, spans and edges, used by the examples. *)
From stdpp Require Import base list gmap fin_maps.
From Coq Require Import NArith Lia.
From Verif Require Import KeySer KeySerSpec SortedMap Types SymbolTable AnnoMem AnnoSpec GraphSpec Adjacency AdjacencySpec AdjacencyProofs
  Storage StorageSpec GraphApply TokenHelper TokenSearchSpec ContextSpec ContextProofs ExampleStorages.

Record example := Ex {
  ex_toks : list N; ex_spans : list N; ex_chains : list (list N);
  ex_cov : list edge; ex_left : list edge; ex_right : list edge }.
Definition ex_ops (x : example) : list (am_op N) :=
  mjoin ((λ n, [AmInsert n node_name_key [110; n]%N; AmInsert n tok_key [n]]) <$> ex_toks x) ++
  ((λ n, AmInsert n node_name_key [110; n]%N) <$> ex_spans x).
Definition ex_map (x : example) : gmap (N * anno_key) bytes := as_run ∅ (ex_ops x) (am_run N.compare am_new (ex_ops x)).2.
Definition content_of (x : example) : content :=
  Content (ex_map x) [list_to_set (ex_cov x)] (list_to_set (ex_left x)) (list_to_set (ex_right x)) (list_to_set (chain_edges (ex_chains x))).
(** All that has to be checked by computation *)
Definition ex_check (x : example) : bool :=
  edges_ok (ex_cov x) && edges_ok (ex_left x) && edges_ok (ex_right x) && edges_ok (chain_edges (ex_chains x)) &&
  bool_decide (NoDup (mjoin (ex_chains x))) && bool_decide (length (mjoin (ex_chains x)) ≤ 250) &&
  bool_decide (snd <$> chain_copy (ex_chains x) = Some true) &&
  bool_decide (map_Forall (λ (ik : N * anno_key) (_ : bytes), ik.2 = tok_key → ik.1 ∈ ex_toks x) (ex_map x)) &&
  bool_decide (Forall (λ n, is_Some (ex_map x !! (n, tok_key)) ∧ is_Some (ex_map x !! (n, node_name_key))) (ex_toks x)) &&
  bool_decide (Forall (λ n, n ∈ ex_toks x ∧ Forall (λ e, source e ≠ n) (ex_cov x)) (mjoin (ex_chains x))).
Section Example.
Context (x : example) (Hc : ex_check x = true).
Ltac split_check := repeat match goal with H : _ && _ = true |- _ => apply andb_true_iff in H as [H ?] end.
Lemma check_cov : edges_ok (ex_cov x) = true.
Proof using Hc. unfold ex_check in Hc. by split_check. Qed.
Lemma check_left : edges_ok (ex_left x) = true.
Proof using Hc. unfold ex_check in Hc. by split_check. Qed.
Lemma check_right : edges_ok (ex_right x) = true.
Proof using Hc. unfold ex_check in Hc. by split_check. Qed.
Definition corpus_of : corpus :=
  Corpus (am_run N.compare am_new (ex_ops x)).1 [adj_of (ex_cov x) check_cov] (Some (adj_of (ex_left x) check_left))
    (Some (adj_of (ex_right x) check_right)) (Some (lin_of (ex_chains x))) None.
Lemma check_chain : edges_ok (chain_edges (ex_chains x)) = true ∧ NoDup (mjoin (ex_chains x)) ∧ length (mjoin (ex_chains x)) ≤ 250 ∧
  snd <$> chain_copy (ex_chains x) = Some true.
Proof using Hc. pose proof Hc as Hc'. unfold ex_check in Hc'. split_check. split_and!; [done|by eapply bool_decide_eq_true_1..]. Qed.
Lemma order_of_implements : implements (lin_of (ex_chains x)) (ct_order (content_of x)).
Proof using Hc. destruct check_chain as (H1 & H2 & H3 & H4). by apply lin_of_implements. Qed.
Lemma order_of_self : at_most_itself (lin_of (ex_chains x)) (ct_order (content_of x)).
Proof using Hc. destruct check_chain as (H1 & H2 & H3 & H4). by apply lin_of_self. Qed.
Lemma corpus_of_holds : holds_content corpus_of (content_of x).
Proof using Hc.
  destruct check_chain as (H1 & H2 & H3 & H4). constructor.
  - exists (ex_ops x), (am_run N.compare am_new (ex_ops x)).2. split; [apply surjective_pairing|reflexivity].
  - constructor; [|constructor]. apply adj_of_implements.
  - eexists. split; [reflexivity|]. apply adj_of_implements.
  - eexists. split; [reflexivity|]. apply adj_of_implements.
  - split; [by apply lin_of_implements|by apply lin_of_order].
Qed.
Lemma ex_covers n t : covers (content_of x) n t ↔ Edge n t ∈ ex_cov x.
Proof using.
  clear Hc. unfold covers. cbn [content_of ct_cov]. unfold edge_rel. split.
  - intros (G & ->%elem_of_list_singleton & He). by apply elem_of_list_to_set in He.
  - intros He. eexists. split; [by left|]. by apply elem_of_list_to_set.
Qed.
Lemma ex_token n : token (content_of x) n ↔ n ∈ ex_toks x ∧ Forall (λ e, source e ≠ n) (ex_cov x).
Proof using Hc.
  pose proof Hc as Hc'. unfold ex_check in Hc'. split_check.
  match goal with H : bool_decide (map_Forall _ _) = true |- _ => apply bool_decide_eq_true_1 in H; rename H into HM end.
  match goal with H : bool_decide (Forall (λ n, is_Some _ ∧ _) _) = true |- _ => apply bool_decide_eq_true_1 in H; rename H into HF end.
  unfold token, covers_something. cbn [content_of ct_labels ct_cov].
  assert ((∃ G, G ∈ [list_to_set (C := gset edge) (ex_cov x)] ∧ is_source G n) ↔ ¬ Forall (λ e, source e ≠ n) (ex_cov x)) as ->.
  { rewrite Forall_forall. split.
    - intros (G & ->%elem_of_list_singleton & [y Hy]) HF'. unfold edge_rel in Hy. apply elem_of_list_to_set in Hy. by apply (HF' _ Hy).
    - intros Hn. destruct (decide (Exists (λ e, source e = n) (ex_cov x))) as [He|He].
      + apply Exists_exists in He as ([a b] & Hin & <-). eexists. split; [by left|]. exists b. unfold edge_rel. by apply elem_of_list_to_set.
      + destruct Hn. intros e Hin Hs. apply He, Exists_exists. by exists e. }
  assert (is_Some (ex_map x !! (n, tok_key)) ↔ n ∈ ex_toks x) as ->.
  { split; [intros [v Hv]; by apply (HM _ _ Hv)|]. rewrite Forall_forall in HF. intros Hn. by apply HF. }
  split; intros [Q1 Q2]; (split; [done|]).
  - by destruct (decide (Forall (λ e, source e ≠ n) (ex_cov x))).
  - intros Hn. by apply Hn.
Qed.
Lemma ex_texts_ok : texts_ok (content_of x).
Proof using Hc.
  destruct check_chain as (H1 & H2 & H3 & H4). split_and!.
  - by apply chain_edges_chains.
  - intros n Hn%chain_all_nodes. apply ex_token. pose proof Hc as Hc'. unfold ex_check in Hc'. split_check.
    match goal with H : bool_decide (Forall _ (mjoin _)) = true |- _ => apply bool_decide_eq_true_1 in H; rewrite Forall_forall in H; by apply H end.
  - intros n [Hn _]%ex_token. pose proof Hc as Hc'. unfold ex_check in Hc'. split_check.
    match goal with H : bool_decide (Forall (λ n, is_Some _ ∧ _) _) = true |- _ => apply bool_decide_eq_true_1 in H; rewrite Forall_forall in H; by apply H end.
Qed.
Lemma ex_precedes a b : precedes (content_of x) a b ↔ gs_is_connected (lin_of (ex_chains x)) a b 1 Unbounded = true.
Proof using Hc.
  symmetry. apply (is_connected_iff _ (proj1 ex_texts_ok) _ order_of_implements order_of_self a b).
Qed.
End Example.
