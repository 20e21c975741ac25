(** Proofs about the comparison of annotation values. *)
From stdpp Require Import base list gmap.
From Coq Require Import NArith.
From Verif Require Import KeySer SortedMap Types SymbolTable AnnoMem AnnoSpec AnnoMemProofs AnnoMemQueries GraphApply TokenHelper SortMatches Joins JoinsSpec
  TokenSearchSpec TokenSearchProofs NodeSearch NodeSearchSpec NodeSearchProofs EqualValue EqualValueSpec.

Section op.
Context (db : corpus) (c : content) (H : holds_content db c).

Lemma value_iff m s v : value_for_match (cp_annos db) m s = Some v ↔ has_value c s m v.
Proof using H.
  destruct (labels_inv db c H) as [leak I]. unfold has_value, label.
  destruct s; cbn; rewrite ?(get_value_lemma N.compare _ leak _ _ _ I); done.
Qed.
Lemma filter_iff op a b : ev_filter (cp_annos db) op a b = Some true ↔ compares c op a b.
Proof using H.
  unfold ev_filter, compares. setoid_rewrite <- value_iff.
  destruct (value_for_match _ a _) as [v|], (value_for_match _ b _) as [w|]; [|naive_solver..].
  destruct (ev_negated op); split.
  - intros [= E]. exists v, w. apply negb_true_iff, bool_decide_eq_false in E. done.
  - intros (v' & w' & [= <-] & [= <-] & Hne). by rewrite bool_decide_eq_false_2.
  - intros [= E]. exists v, w. apply bool_decide_eq_true in E. done.
  - intros (v' & w' & [= <-] & [= <-] & Hne). by rewrite bool_decide_eq_true_2.
Qed.
Lemma filter_total op a b : ev_filter (cp_annos db) op a b ≠ None.
Proof. done. Qed.

(** The candidates for a match with value [v] *)
Lemma candidates_in op ml v : has_value c (ev_left op) ml v → ∃ nodes, ev_retrieve (cp_annos db) op ml = Some nodes ∧
  ∀ x, x ∈ nodes ↔ kind_of (ev_right op) ≠ Neither ∧ key_matches (compared_name (ev_right op)).1 (compared_name (ev_right op)).2 x.2 ∧
    ∃ w, label c x.1 x.2 w ∧ if ev_negated op then w ≠ v else w = v.
Proof using H.
  intros Hv%value_iff. eexists. split; [reflexivity|]. intros [n k]. rewrite Hv.
  assert (∀ ns name, (n, k) ∈ am_exact_search (cp_annos db) ns name (if ev_negated op then VNotSome v else VSome v) ↔
    key_matches ns name k ∧ ∃ w, label c n k w ∧ if ev_negated op then w ≠ v else w = v) as Hs.
  { intros ns name. rewrite (exact_in db c H). by destruct (ev_negated op). }
  destruct (ev_right op); cbn [anno_def_for_spec kind_of compared_name fst snd]; rewrite ?Hs; try (split; [intros HH; split; [done|exact HH]|by intros [_ HH]]).
  split; [by intros HH%elem_of_nil|]. by intros [HH _].
Qed.
Lemma candidates_none op ml : (∀ v, ¬ has_value c (ev_left op) ml v) → ev_retrieve (cp_annos db) op ml = Some [].
Proof using H.
  intros Hn. unfold ev_retrieve. destruct (value_for_match _ ml _) as [v|] eqn:E; [|done]. apply value_iff in E. by destruct (Hn v).
Qed.

Context (rx : bytes → option (bytes → bool)).
(** Matches of a search: their value is the one of an annotation with the compared name *)
Definition found_by (s : spec) (m : match_) : Prop := ∃ k', meets rx c s m.1 k' ∧ m.2 = reported s k'.
Lemma found_value s m : found_by s m → is_meta s = false → kind_of s ≠ Neither →
  ∃ k w, key_matches (compared_name s).1 (compared_name s).2 k ∧ label c m.1 k w ∧ ∀ v, has_value c s m v ↔ label c m.1 k v.
Proof.
  intros (k' & Hm & Hr) Hmeta Hk. unfold has_value.
  destruct s as [ns name val meta|ns name x meta|ns name p meta|ns name p meta|x leafs|x|p leafs|p| |]; cbn in *; subst;
    try (rewrite Hr; exists k'; destruct Hm as [Hm HH]; decompose [and ex] HH; eexists; split_and!; [done|eassumption|done]);
    try done; exists tok_key; unfold token, label, is_Some in *; decompose [and ex] Hm; eexists; split_and!; done.
Qed.

(** The candidates agree with the check *)
Lemma retrieval_lemma op rs : (∀ m, m ∈ rs → found_by (ev_right op) m) → is_meta (ev_right op) = false → compared_once c (ev_right op) →
  retrieval_agrees (ev_filter (cp_annos db) op) (ev_retrieve (cp_annos db) op) rs.
Proof using H.
  intros Hrs Hmeta Hone ml. destruct (value_for_match (cp_annos db) ml (ev_left op)) as [v|] eqn:Ev.
  - apply value_iff in Ev. destruct (candidates_in op ml v Ev) as (nodes & En & Hin). exists nodes. split; [done|]. intros m Hm.
    rewrite filter_iff. unfold compares.
    assert (∀ v', has_value c (ev_left op) ml v' → v' = v) as Hu.
    { intros v' Hv'%value_iff. apply value_iff in Ev. congruence. }
    split.
    + intros (v' & w & Hv' & Hw & Hcmp). apply Hu in Hv' as ->.
      assert (kind_of (ev_right op) ≠ Neither) as Hk by (intros HH; unfold has_value in Hw; by rewrite HH in Hw).
      destruct (found_value _ m (Hrs m Hm) Hmeta Hk) as (k & w0 & Hkey & _ & Hiff). exists (m.1, k). split; [|done].
      apply Hin. cbn. split_and!; [done|done|]. exists w. split; [by apply Hiff|]. destruct (ev_negated op); naive_solver.
    + intros ([n k] & (Hk & Hkey & w & Hw & Hcmp)%Hin & En'). cbn in En', Hkey, Hw. subst n.
      destruct (found_value _ m (Hrs m Hm) Hmeta Hk) as (k0 & w0 & Hkey0 & Hw0 & Hiff).
      assert (k = k0) as -> by (apply (Hone m.1 k k0 Hkey Hkey0); by eexists).
      exists v, w. split_and!; [done|by apply Hiff|]. destruct (ev_negated op); naive_solver.
  - exists []. split; [unfold ev_retrieve; by rewrite Ev|]. intros m Hm. rewrite filter_iff. split.
    + intros (v & w & Hv%value_iff & _). congruence.
    + intros (x & Hx & _). by apply elem_of_nil in Hx.
Qed.

(** Switched operands *)
Lemma inverse_check op a b : kind_of (ev_left op) = kind_of (ev_right op) →
  ev_filter (cp_annos db) (ev_inverse op) b a = ev_filter (cp_annos db) op a b.
Proof.
  intros Hk. assert (∀ m, value_for_match (cp_annos db) m (ev_left op) = value_for_match (cp_annos db) m (ev_right op)) as E.
  { intros m. destruct (ev_left op), (ev_right op); cbn in *; done. }
  unfold ev_filter, ev_inverse. cbn. rewrite !E. f_equal. destruct (value_for_match _ b _) as [v|], (value_for_match _ a _) as [w|]; try done.
  destruct (ev_negated op).
  - f_equal. by apply bool_decide_ext.
  - by apply bool_decide_ext.
Qed.
Lemma inverse_retrieval op ls : (∀ m, m ∈ ls → found_by (ev_left op) m) → is_meta (ev_left op) = false → compared_once c (ev_left op) →
  kind_of (ev_left op) = kind_of (ev_right op) → compared_name (ev_left op) = compared_name (ev_right op) →
  retrieval_agrees (λ b a, ev_filter (cp_annos db) op a b) (ev_retrieve (cp_annos db) (ev_inverse op)) ls.
Proof using H.
  intros Hls Hmeta Hone Hk Hn.
  pose proof (retrieval_lemma (EqualValue (ev_right op) (ev_left op) (ev_negated op)) ls Hls Hmeta Hone) as HH.
  intros ml. destruct (HH ml) as (nodes & E & Hiff). exists nodes. split.
  - rewrite <- E. unfold ev_retrieve, ev_inverse. cbn. f_equal.
    assert (value_for_match (cp_annos db) ml (ev_left op) = value_for_match (cp_annos db) ml (ev_right op)) as ->
      by (destruct (ev_left op), (ev_right op); cbn in *; done).
    assert (anno_def_for_spec (ev_left op) = anno_def_for_spec (ev_right op)) as ->; [|done].
    destruct (ev_left op), (ev_right op); cbn in *; try done; by injection Hn as -> ->.
  - intros m Hm. rewrite <- (Hiff m Hm). rewrite !filter_iff. unfold compares. cbn. split.
    + intros (v & w & Hv & Hw & Hc). exists w, v. split_and!; [done|done|]. destruct (ev_negated op); congruence.
    + intros (v & w & Hv & Hw & Hc). exists w, v. split_and!; [done|done|]. destruct (ev_negated op); congruence.
Qed.
End op.
