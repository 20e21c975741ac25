(** C29: the order of matches. *)
From stdpp Require Import base list.
From Coq Require Import NArith.
From Verif Require Import KeySer KeySerSpec Types QuickSort QuickSortSpec SortedMap SortMatches SortMatchesSpec SortMatchesProofs.

(** C29: the comparison of match groups is a total preorder, if in each document either all nodes are ordered by their first
    tokens or none is. Missing for the full property: documents with several texts and nodes without tokens, see the
    refutations. [coll] is any total preorder of strings. *)
Theorem C29_comparison_is_total_preorder_partial :
  ∀ S name left conn with_order coll decode quirks,
  total_preorder coll → acyclic_order conn →
  one_order_per_document S name left conn (same_document coll decode quirks name) →
  total_preorder_on (Forall (λ m, S m.1)) (compare_fresh name left conn with_order coll decode quirks).
Proof.
  intros S name left conn wo coll decode q Hc Ho HS.
  exact (groups_tpo name left conn wo coll decode q Hc Ho S (one_order_path _ _ _ _ _ _ _ HS)).
Qed.
Print Assumptions C29_comparison_is_total_preorder_partial.

(** C29: and only equal match groups compare as equal. *)
Theorem C29_equal_matches_partial :
  ∀ S name left conn with_order coll decode quirks g1 g2,
  total_preorder coll → acyclic_order conn →
  one_order_per_document S name left conn (same_document coll decode quirks name) →
  Forall (λ m, S m.1) g1 → Forall (λ m, S m.1) g2 →
  compare_fresh name left conn with_order coll decode quirks g1 g2 = Eq → g1 = g2.
Proof.
  intros S name left conn wo coll decode q g1 g2 Hc Ho HS.
  exact (groups_id name left conn wo coll decode q Hc Ho S (one_order_path _ _ _ _ _ _ _ HS) g1 g2).
Qed.
Print Assumptions C29_equal_matches_partial.

(** C29: so the sorted result does not depend on the random numbers used for sorting. *)
Theorem C29_sorted_result_unique_partial :
  ∀ S name left conn with_order coll decode quirks f1 f2 r1 r2 l l1 l2,
  total_preorder coll → acyclic_order conn →
  one_order_per_document S name left conn (same_document coll decode quirks name) →
  Forall (Forall (λ m, S m.1)) l →
  sort (compare_fresh name left conn with_order coll decode quirks) f1 r1 l = Done l1 →
  sort (compare_fresh name left conn with_order coll decode quirks) f2 r2 l = Done l2 →
  Permutation l1 l ∧ ascending (compare_fresh name left conn with_order coll decode quirks) l1 ∧ l1 = l2.
Proof.
  intros S name left conn wo coll decode q f1 f2 r1 r2 l l1 l2 Hc Ho HS Hl E1 E2.
  pose proof (C29_comparison_is_total_preorder_partial S name left conn wo coll decode q Hc Ho HS) as Ht.
  pose proof (sort_on_ok (T := list match_) _ _ f1 r1 l Ht Hl) as H1. rewrite E1 in H1.
  pose proof (sort_on_ok (T := list match_) _ _ f2 r2 l Ht Hl) as H2. rewrite E2 in H2.
  destruct H1 as [P1 A1], H2 as [P2 A2]. split; [exact P1|]. split; [exact A1|].
  refine (sorted_unique_on (T := list match_) _ _ l l1 l2 Ht Hl _ P1 P2 A1 A2). intros x y Hx Hy.
  exact (C29_equal_matches_partial S name left conn wo coll decode q x y Hc Ho HS Hx Hy).
Qed.
Print Assumptions C29_sorted_result_unique_partial.

(** C29: the caches do not change the result of any sequence of comparisons. *)
Theorem C29_caches_do_not_matter :
  ∀ name left conn with_order coll decode quirks l,
  compare_many name left conn with_order coll decode quirks cache_new l =
  map (λ p, compare_fresh name left conn with_order coll decode quirks p.1 p.2) l.
Proof.
  intros name left conn wo coll decode q l. exact (many_ok name left conn wo coll decode q cache_new l (new_ok name left)).
Qed.
Print Assumptions C29_caches_do_not_matter.

(** C29: with the default collation and without quirks mode, nodes are in the same document iff the parts of their paths are
    equal. *)
Theorem C29_same_document : ∀ decode name a b v w, name a = Some v → name b = Some w →
  same_document lex_compare decode false name a b ↔
  path_parts (split_path_and_nodename v).1 = path_parts (split_path_and_nodename w).1.
Proof.
  intros decode name a b v w Ha Hb. unfold same_document. rewrite <- (default_same_path decode). split.
  - intros (v' & w' & Ha' & Hb' & H). rewrite Ha in Ha'. rewrite Hb in Hb'. injection Ha' as <-. injection Hb' as <-. exact H.
  - intros H. exists v, w. auto.
Qed.
Print Assumptions C29_same_document.

Local Open Scope N_scope.
(** The nodes 1 and 2 are tokens of one text of the document d, 3 is a token of another text of this document.
    Their names are d#z, d#a and d#m. *)
Definition two_texts_name (n : N) : option bytes :=
  match n with 1 => Some [100; 35; 122] | 2 => Some [100; 35; 97] | 3 => Some [100; 35; 109] | _ => None end.
Definition two_texts_conn (a b : N) : bool := (a =? 1) && (b =? 2).

(** C29: with two texts in a document, the comparison is circular. *)
Theorem C29_two_texts_refuted :
  ∃ name left conn (a b c : list match_), acyclic_order conn ∧
    compare_fresh name left conn true lex_compare id false a b = Lt ∧
    compare_fresh name left conn true lex_compare id false b c = Lt ∧
    compare_fresh name left conn true lex_compare id false c a = Lt.
Proof.
  exists two_texts_name, Some, two_texts_conn, [(1, AnnoKey [] [])], [(2, AnnoKey [] [])], [(3, AnnoKey [] [])].
  split; [|split_and!; vm_compute; reflexivity]. unfold two_texts_conn. split.
  - intros t. destruct (N.eqb_spec t 1) as [->|]; reflexivity.
  - intros t u v H1 H2. apply andb_true_iff in H1 as [_ H1], H2 as [H2 _]. apply N.eqb_eq in H1, H2. congruence.
Qed.
Print Assumptions C29_two_texts_refuted.

(** C29: so does a node without any token (like a data source node) in a document with a text. *)
Theorem C29_node_without_token_refuted :
  ∃ name left conn (a b c : list match_), acyclic_order conn ∧ left 3 = None ∧
    compare_fresh name left conn true lex_compare id false a b = Lt ∧
    compare_fresh name left conn true lex_compare id false b c = Lt ∧
    compare_fresh name left conn true lex_compare id false c a = Lt.
Proof.
  exists two_texts_name, (λ n, if (n =? 3) then None else Some n), two_texts_conn,
    [(1, AnnoKey [] [])], [(2, AnnoKey [] [])], [(3, AnnoKey [] [])].
  split; [|split_and!; vm_compute; reflexivity]. unfold two_texts_conn. split.
  - intros t. destruct (N.eqb_spec t 1) as [->|]; reflexivity.
  - intros t u v H1 H2. apply andb_true_iff in H1 as [_ H1], H2 as [H2 _]. apply N.eqb_eq in H1, H2. congruence.
Qed.
Print Assumptions C29_node_without_token_refuted.

(** The hypotheses hold for a corpus with one text. *)
Example ex_one_text : one_order_per_document (λ n, n = 1 ∨ n = 2) two_texts_name Some two_texts_conn
  (same_document lex_compare id false two_texts_name).
Proof.
  split.
  - intros a [-> | ->]; by eexists.
  - intros a _. left. intros b c Hb Hc _ _. exists b, c. split; [done|]. split; [done|].
    destruct Hb as [-> | ->], Hc as [-> | ->]; vm_compute; auto.
Qed.
Example ex_collation : total_preorder lex_compare.
Proof. apply cmp_order_tp, _. Qed.
Example ex_token_order_first : compare_fresh two_texts_name Some two_texts_conn true lex_compare id false
  [(1, AnnoKey [] [])] [(2, AnnoKey [] [])] = Lt ∧
  compare_fresh two_texts_name Some two_texts_conn false lex_compare id false [(1, AnnoKey [] [])] [(2, AnnoKey [] [])] = Gt.
Proof. split; vm_compute; reflexivity. Qed.
