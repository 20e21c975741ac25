(** Example corpora with correct edges to the left-most and right-most tokens. *)
From stdpp Require Import base list gmap fin_maps.
From Coq Require Import NArith Lia.
From Verif Require Import KeySer KeySerSpec SortedMap Types SymbolTable AnnoMem AnnoSpec GraphSpec Adjacency AdjacencySpec AdjacencyProofs
  Storage StorageSpec GraphApply TokenHelper TokenSearchSpec ContextSpec ContextProofs ExampleStorages ExampleCorpus TokenOps TokenOpsSpec TokenOpsProofs TokenOpsMore.

Definition ex_leq (x : example) (a b : N) : bool :=
  bool_decide (a = b) || gs_is_connected (lin_of (ex_chains x)) a b 1 Unbounded.
Definition ex_aligned_check (x : example) : bool :=
  forallb (λ e, bool_decide (e ∈ ex_cov x) && forallb (λ e', if decide (source e' = source e) then ex_leq x (target e) (target e') else true) (ex_cov x)) (ex_left x) &&
  forallb (λ e, bool_decide (e ∈ ex_cov x) && forallb (λ e', if decide (source e' = source e) then ex_leq x (target e') (target e) else true) (ex_cov x)) (ex_right x) &&
  forallb (λ e, existsb (λ e', bool_decide (source e' = source e)) (ex_left x) && existsb (λ e', bool_decide (source e' = source e)) (ex_right x)) (ex_cov x) &&
  forallb (λ e, bool_decide (target e ∈ ex_toks x) && forallb (λ e', bool_decide (source e' ≠ target e)) (ex_cov x)) (ex_cov x).
(** No span has a hole *)
Definition ex_contiguous_check (x : example) : bool :=
  forallb (λ e, forallb (λ e', if decide (source e = source e') then
    forallb (λ t, negb (ex_leq x (target e) t && ex_leq x t (target e')) || bool_decide (Edge (source e) t ∈ ex_cov x)) (ex_toks x) else true) (ex_cov x)) (ex_cov x).
Section Example.
Context (x : example) (Hc : ex_check x = true) (Ha : ex_aligned_check x = true).
Notation c := (content_of x).
Notation E := (edge_rel (ct_order c)).
Ltac split_check := repeat match goal with H : _ && _ = true |- _ => apply andb_true_iff in H as [H ?] end.
Lemma ex_leq_iff a b : ex_leq x a b = true ↔ reachable E a b.
Proof using Hc.
  unfold ex_leq. rewrite orb_true_iff, bool_decide_eq_true, <- (ex_precedes x Hc). split.
  - intros [->|(p & _ & Hp)]; [apply reach_refl|by exists p].
  - intros [p Hp]. destruct p as [|y p]; [by left|]. right. by exists (y :: p).
Qed.
Lemma ex_covers_tokens : covers_tokens c.
Proof using Hc Ha.
  unfold ex_aligned_check in Ha. split_check. rename H into H4. rewrite forallb_forall in H4.
  intros n t Hn%ex_covers. apply elem_of_list_In, H4 in Hn. cbn [source target] in Hn. apply andb_true_iff in Hn as [Ht Hf].
  apply bool_decide_eq_true in Ht. apply (ex_token x Hc). split; [done|]. rewrite Forall_forall. rewrite forallb_forall in Hf.
  intros e He. apply elem_of_list_In, Hf in He. by apply bool_decide_eq_true in He.
Qed.
Lemma ex_covered n t : ¬ token c n → covered c n t ↔ Edge n t ∈ ex_cov x.
Proof using Hc Ha.
  intros Hn. unfold covered. rewrite (ex_covers x). split; [intros [Ht [->|[? _]]]; done|]. intros He. split; [|by right].
  eapply ex_covers_tokens. by apply ex_covers.
Qed.
Lemma ex_left_edge n t : edge_rel (ct_left c) n t ↔ Edge n t ∈ ex_left x.
Proof using. unfold edge_rel. cbn [content_of ct_left]. by rewrite elem_of_list_to_set. Qed.
Lemma ex_right_edge n t : edge_rel (ct_right c) n t ↔ Edge n t ∈ ex_right x.
Proof using. unfold edge_rel. cbn [content_of ct_right]. by rewrite elem_of_list_to_set. Qed.
Lemma ex_no_token n t : Edge n t ∈ ex_cov x → ¬ token c n.
Proof using Hc. intros He Ht. apply (ex_token x Hc) in Ht as [_ Ht]. rewrite Forall_forall in Ht. by apply (Ht _ He). Qed.
Lemma ex_left_first n t : Edge n t ∈ ex_left x → ¬ token c n ∧ first_covered c n t.
Proof using Hc Ha.
  intros He. pose proof Ha as Ha'. unfold ex_aligned_check in Ha'. split_check. rewrite forallb_forall in Ha'. apply elem_of_list_In, Ha' in He.
  cbn [source target] in He. apply andb_true_iff in He as [Hin Hf]. apply bool_decide_eq_true in Hin. pose proof (ex_no_token n t Hin) as Hn. split; [done|].
  split; [by apply ex_covered|]. intros u Hu%ex_covered; [|done]. rewrite forallb_forall in Hf. apply elem_of_list_In, Hf in Hu. cbn [source target] in Hu.
  rewrite decide_True in Hu by done. by apply ex_leq_iff.
Qed.
Lemma ex_right_last n t : Edge n t ∈ ex_right x → ¬ token c n ∧ last_covered c n t.
Proof using Hc Ha.
  intros He. pose proof Ha as Ha'. unfold ex_aligned_check in Ha'. split_check. rename H1 into HR. rewrite forallb_forall in HR. apply elem_of_list_In, HR in He.
  cbn [source target] in He. apply andb_true_iff in He as [Hin Hf]. apply bool_decide_eq_true in Hin. pose proof (ex_no_token n t Hin) as Hn. split; [done|].
  split; [by apply ex_covered|]. intros u Hu%ex_covered; [|done]. rewrite forallb_forall in Hf. apply elem_of_list_In, Hf in Hu. cbn [source target] in Hu.
  rewrite decide_True in Hu by done. by apply ex_leq_iff.
Qed.
Lemma ex_has_edges n t : Edge n t ∈ ex_cov x → (∃ l, Edge n l ∈ ex_left x) ∧ ∃ r, Edge n r ∈ ex_right x.
Proof using Ha.
  intros He. pose proof Ha as Ha'. unfold ex_aligned_check in Ha'. split_check. rename H0 into HR. rewrite forallb_forall in HR. apply elem_of_list_In, HR in He.
  cbn [source target] in He. rewrite andb_true_iff, !existsb_exists in He. destruct He as [([a l] & Hl & E1%bool_decide_eq_true) ([b r] & Hr & E2%bool_decide_eq_true)].
  apply elem_of_list_In in Hl, Hr. cbn [source] in *. subst. split; [by exists l|by exists r].
Qed.
Lemma ex_aligned : aligned c.
Proof using Hc Ha.
  split; intros n t.
  - rewrite ex_left_edge. split; [apply ex_left_first|]. intros [Hn Ht]. pose proof (proj1 Ht) as Hcov. apply ex_covered in Hcov; [|done].
    destruct (ex_has_edges n t Hcov) as [[l Hl] _]. by rewrite (first_fun c (ex_texts_ok x Hc) n t l Ht (proj2 (ex_left_first n l Hl))).
  - rewrite ex_right_edge. split; [apply ex_right_last|]. intros [Hn Ht]. pose proof (proj1 Ht) as Hcov. apply ex_covered in Hcov; [|done].
    destruct (ex_has_edges n t Hcov) as [_ [l Hl]]. by rewrite (last_fun c (ex_texts_ok x Hc) n t l Ht (proj2 (ex_right_last n l Hl))).
Qed.
Lemma ex_token_dec n : token c n ∨ ¬ token c n.
Proof using Hc.
  rewrite (ex_token x Hc). destruct (decide (n ∈ ex_toks x ∧ Forall (λ e, source e ≠ n) (ex_cov x))); auto.
Qed.
Lemma ex_one_text n : one_text c n.
Proof using Hc Ha.
  intros a b Ca Cb. destruct (ex_token_dec n) as [Hn|Hn].
  { apply (token_covered c n _ Hn) in Ca as ->, Cb as ->. by left. }
  pose proof Ca as Ca'. apply ex_covered in Ca'; [|done]. destruct (ex_has_edges n a Ca') as [[l Hl] _]. destruct (ex_left_first n l Hl) as [_ [_ HF]].
  destruct (chain_connected _ a b l (proj1 (ex_texts_ok x Hc)) (HF a Ca) (HF b Cb)) as [[p Hp]|[p Hp]]; (destruct p as [|y p]; [left; by simpl in Hp|right]);
    [left|right]; by exists (y :: p).
Qed.
Lemma ex_contiguous : ex_contiguous_check x = true → ∀ n, contiguous c n.
Proof using Hc Ha.
  intros Hck n a b t Ca Cb R1 R2. assert (token c t) as Ht.
  { apply (reach_node (ct_order c) (token c) a t); [apply (ex_texts_ok x Hc)|left; apply Ca|done]. }
  destruct (ex_token_dec n) as [Hn|Hn].
  { apply (token_covered c n _ Hn) in Ca as ->, Cb as ->. apply (token_covered c n _ Hn).
    by apply (chain_antisym _ t n (proj1 (ex_texts_ok x Hc))). }
  apply ex_covered in Ca, Cb; [|done..]. apply ex_covered; [done|]. unfold ex_contiguous_check in Hck. rewrite forallb_forall in Hck.
  apply elem_of_list_In, Hck in Ca. rewrite forallb_forall in Ca. apply elem_of_list_In, Ca in Cb. cbn [source target] in Cb. rewrite decide_True in Cb by done.
  rewrite forallb_forall in Cb. apply (ex_token x Hc) in Ht as [Ht _]. apply elem_of_list_In, Cb in Ht. apply ex_leq_iff in R1, R2. rewrite R1, R2 in Ht.
  by apply bool_decide_eq_true in Ht.
Qed.
End Example.
