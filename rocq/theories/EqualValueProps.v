(** C41: the comparison of annotation values. *)
From stdpp Require Import base list gmap.
From Coq Require Import NArith.
From Verif Require Import KeySer SortedMap Types SymbolTable AnnoMem AnnoSpec GraphApply Storage StorageSpec TokenHelper SortMatches QuickSort Joins JoinsSpec JoinsProps
  TokenSearchSpec TokenSearchProps NodeSearch NodeSearchSpec NodeSearchProofs NodeSearchProps EqualValue EqualValueSpec EqualValueProofs.

(** The check compares the values of the two matches. *)
Theorem C41_check : ∀ db c op a b, holds_content db c →
  ∃ r, ev_filter (cp_annos db) op a b = Some r ∧ (r = true ↔ compares c op a b).
Proof.
  intros db c op a b H. eexists. split; [reflexivity|]. rewrite <- (filter_iff db c H op a b). unfold ev_filter.
  split; [by intros ->|by intros [= ->]].
Qed.
Print Assumptions C41_check.

(** The operator with switched operands gives the same answer. Missing: descriptions of different kinds (token text and annotation). *)
Theorem C41_inverse_check_partial : ∀ db op a b, kind_of (ev_left op) = kind_of (ev_right op) →
  ev_filter (cp_annos db) (ev_inverse op) b a = ev_filter (cp_annos db) op a b.
Proof. exact inverse_check. Qed.
Print Assumptions C41_inverse_check_partial.

(** The candidates for a left match are those matches of the right search which pass the check. Missing: nodes with more than one
    annotation which fits the right description. *)
Theorem C41_candidates_partial : ∀ rx exact db c fuel rnd op se rs, holds_content db c → exact_ok rx exact → ev_right op ≠ SAnyTok →
  from_spec rx exact db fuel rnd (ev_right op) = Some se → se_items se = Done rs →
  is_meta (ev_right op) = false → compared_once c (ev_right op) →
  retrieval_agrees (ev_filter (cp_annos db) op) (ev_retrieve (cp_annos db) op) rs.
Proof.
  intros rx exact db c fuel rnd op se rs H He Hs E Er Hm Ho. apply (retrieval_lemma db c H rx op rs); [|done|done].
  destruct (items_lemma rx exact db c H He fuel rnd _ se E Hs) as (l & E1 & E2 & _). rewrite E1 in Er. injection Er as ->.
  intros [n k] Hin. by apply E2.
Qed.
Print Assumptions C41_candidates_partial.

(** So an index join on the right search gives the same matches as comparing all pairs. *)
Theorem C41_index_join_partial : ∀ rx exact db c fuel rnd op se rs reflexive global li l out, holds_content db c → exact_ok rx exact →
  ev_right op ≠ SAnyTok → from_spec rx exact db fuel rnd (ev_right op) = Some se → se_items se = Done rs →
  is_meta (ev_right op) = false → compared_once c (ev_right op) → has_operand li l →
  yields (ij_next reflexive global li (ev_retrieve (cp_annos db) op) (search_keys db se) (se_cond se) (se_const se)) (ij_new l) out →
  ∀ g, g ∈ oks out ↔ g ∈ joined (ev_filter (cp_annos db) op) reflexive global true li 0 (oks l) ((λ m, [m]) <$> rs).
Proof.
  intros rx exact db c fuel rnd op se rs reflexive global li l out H He Hs E Er Hm Ho Hl Hy.
  destruct (C53_description_agrees rx exact db c fuel rnd _ se rs H He Hs E Er) as [Ha Ht].
  refine (proj1 (C32_index_join _ reflexive global li _ _ _ _ rs l out Hl Ht _ Ha (or_introl Hy))).
  by eapply C41_candidates_partial.
Qed.
Print Assumptions C41_index_join_partial.

(** An index join on the left search with the operands switched gives the same matches too. Missing: descriptions with different
    annotation names. *)
Theorem C41_switched_index_join_partial : ∀ rx exact db c fuel rnd op se ls reflexive global li l out, holds_content db c → exact_ok rx exact →
  ev_left op ≠ SAnyTok → from_spec rx exact db fuel rnd (ev_left op) = Some se → se_items se = Done ls →
  is_meta (ev_left op) = false → compared_once c (ev_left op) →
  kind_of (ev_left op) = kind_of (ev_right op) → compared_name (ev_left op) = compared_name (ev_right op) → has_operand li l →
  yields (ij_next reflexive global li (ev_retrieve (cp_annos db) (ev_inverse op)) (search_keys db se) (se_cond se) (se_const se)) (ij_new l) out →
  ∀ g, g ∈ oks out ↔ g ∈ joined (λ b a, ev_filter (cp_annos db) op a b) reflexive global true li 0 (oks l) ((λ m, [m]) <$> ls).
Proof.
  intros rx exact db c fuel rnd op se ls reflexive global li l out H He Hs E Er Hm Ho Hk Hn Hl Hy.
  destruct (C53_description_agrees rx exact db c fuel rnd _ se ls H He Hs E Er) as [Ha Ht].
  refine (proj1 (C32_index_join _ reflexive global li _ _ _ _ ls l out Hl Ht _ Ha (or_introl Hy))).
  apply (inverse_retrieval db c H rx op ls); try done.
  destruct (items_lemma rx exact db c H He fuel rnd _ se E Hs) as (l' & E1 & E2 & _). rewrite E1 in Er. injection Er as ->.
  intros [n k] Hin. by apply E2.
Qed.
Print Assumptions C41_switched_index_join_partial.

(** A corpus: node 1 is the token "x" with p="x", node 2 has q="x", node 3 has a::t="x" and b::t="y" *)
Definition kp : anno_key := AnnoKey [112%N] [].
Definition kq : anno_key := AnnoKey [113%N] [].
Definition kta : anno_key := AnnoKey [116%N] [97%N].
Definition ktb : anno_key := AnnoKey [116%N] [98%N].
Definition cmp_ops : list (am_op N) :=
  [AmInsert 1%N kp [120%N]; AmInsert 1%N tok_key [120%N]; AmInsert 2%N kq [120%N]; AmInsert 3%N kta [120%N]; AmInsert 3%N ktb [121%N]].
Definition cmp_content : content := Content (as_run ∅ cmp_ops (am_run N.compare am_new cmp_ops).2) [] ∅ ∅ ∅.
Definition cmp_corpus : corpus := Corpus (am_run N.compare am_new cmp_ops).1 [] (Some empty_adj) (Some empty_adj) None None.
Lemma cmp_holds : holds_content cmp_corpus cmp_content.
Proof.
  constructor.
  - exists cmp_ops, (am_run N.compare am_new cmp_ops).2. split; [apply surjective_pairing|reflexivity].
  - constructor.
  - exists empty_adj. split; [reflexivity|]. apply empty_implements.
  - exists empty_adj. split; [reflexivity|]. apply empty_implements.
  - reflexivity.
Qed.
Definition sp : spec := SExact None [112%N] None false.
Definition sq : spec := SExact None [113%N] None false.
Definition st : spec := SExact None [116%N] None false.
Example equal_value_example :
  ev_filter (cp_annos cmp_corpus) (EqualValue sp sq false) (1%N, kp) (2%N, kq) = Some true ∧
  ev_filter (cp_annos cmp_corpus) (EqualValue sp sq true) (1%N, kp) (2%N, kq) = Some false ∧
  ev_retrieve (cp_annos cmp_corpus) (EqualValue sp sq false) (1%N, kp) = Some [(2%N, kq)] ∧
  search_items cmp_corpus sq = Some (Done [(2%N, kq)]) ∧ compared_once cmp_content sq.
Proof.
  split_and!; try (vm_compute; reflexivity). intros n k k' [H1 _] [H2 _] Hk Hk'. cbn in H1, H2.
  assert (map_Forall (λ (ik : N * anno_key) (_ : bytes), ak_name ik.2 = [113%N] → ik.2 = kq) (ct_labels cmp_content)) as HF
    by (apply (bool_decide_eq_true _); vm_compute; reflexivity).
  destruct Hk as [v Hk], Hk' as [v' Hk']. pose proof (HF _ _ Hk H1) as E1. pose proof (HF _ _ Hk' H2) as E2. cbn in E1, E2. by subst.
Qed.

(** Refutation: "tok == p" with switched operands compares the token text of the right match with the annotation of the left one. *)
Theorem C41_inverse_check_refuted : ∃ db c op a b, holds_content db c ∧
  ev_filter (cp_annos db) op a b = Some true ∧ ev_filter (cp_annos db) (ev_inverse op) b a = Some false.
Proof.
  exists cmp_corpus, cmp_content, (EqualValue SAnyTok sq false), (1%N, node_type_key), (2%N, kq).
  split_and!; [apply cmp_holds|vm_compute; reflexivity..].
Qed.
Print Assumptions C41_inverse_check_refuted.

(** Refutation: with two annotations of the name on the right-hand side, the index join yields one which is not equal. *)
Theorem C41_candidates_refuted : ∃ db c op se rs l out, holds_content db c ∧ from_spec plain_rx plain_exact db 1 (λ _, 0) (ev_right op) = Some se ∧
  se_items se = Done rs ∧ is_meta (ev_right op) = false ∧
  yields (ij_next true false 0 (ev_retrieve (cp_annos db) op) (search_keys db se) (se_cond se) (se_const se)) (ij_new l) out ∧
  ∃ a b, [a; b] ∈ oks out ∧ ev_filter (cp_annos db) op a b = Some false.
Proof.
  assert (match from_spec plain_rx plain_exact cmp_corpus 1 (λ _, 0) st with Some se => true | None => false end = true) as HH by (vm_compute; reflexivity).
  destruct (from_spec plain_rx plain_exact cmp_corpus 1 (λ _, 0) st) as [se|] eqn:E; [|discriminate HH]. clear HH.
  exists cmp_corpus, cmp_content, (EqualValue sp st false), se, [(3%N, kta); (3%N, ktb)], [IOk [(1%N, kp)]],
    [IOk [(1%N, kp); (3%N, kta)]; IOk [(1%N, kp); (3%N, ktb)]].
  assert (Some se = Some (annosearch_exact cmp_corpus None [116%N] VAny [] false)) as Es by (rewrite <- E; reflexivity).
  injection Es as ->.
  split_and!; [apply cmp_holds|exact E|vm_compute; reflexivity|reflexivity| |].
  - eapply yields_item; [vm_compute; reflexivity|]. eapply yields_item; [vm_compute; reflexivity|]. eapply yields_end. vm_compute. reflexivity.
  - exists (1%N, kp), (3%N, ktb). split; [|vm_compute; reflexivity]. cbn. right. by left.
Qed.
Print Assumptions C41_candidates_refuted.

(** Refutation: "p == q" holds for the nodes 1 and 2, but an index join with switched operands finds nothing: it looks for values of "q" on
    the left-hand side. *)
Theorem C41_switched_index_join_refuted : ∃ db c op se ls l, holds_content db c ∧ from_spec plain_rx plain_exact db 1 (λ _, 0) (ev_left op) = Some se ∧
  se_items se = Done ls ∧ is_meta (ev_left op) = false ∧ compared_once c (ev_left op) ∧ kind_of (ev_left op) = kind_of (ev_right op) ∧
  yields (ij_next true false 0 (ev_retrieve (cp_annos db) (ev_inverse op)) (search_keys db se) (se_cond se) (se_const se)) (ij_new l) [] ∧
  joined (λ b a, ev_filter (cp_annos db) op a b) true false true 0 0 (oks l) ((λ m, [m]) <$> ls) ≠ [].
Proof.
  assert (match from_spec plain_rx plain_exact cmp_corpus 1 (λ _, 0) sp with Some se => true | None => false end = true) as HH by (vm_compute; reflexivity).
  destruct (from_spec plain_rx plain_exact cmp_corpus 1 (λ _, 0) sp) as [se|] eqn:E; [|discriminate HH]. clear HH.
  exists cmp_corpus, cmp_content, (EqualValue sp sq false), se, [(1%N, kp)], [IOk [(2%N, kq)]].
  assert (Some se = Some (annosearch_exact cmp_corpus None [112%N] VAny [] false)) as Es by (rewrite <- E; reflexivity).
  injection Es as ->.
  split_and!; [apply cmp_holds|exact E|vm_compute; reflexivity|reflexivity| |reflexivity| |].
  - intros n k k' [H1 _] [H2 _] Hk Hk'. cbn in H1, H2.
    assert (map_Forall (λ (ik : N * anno_key) (_ : bytes), ak_name ik.2 = [112%N] → ik.2 = kp) (ct_labels cmp_content)) as HF
      by (apply (bool_decide_eq_true _); vm_compute; reflexivity).
    destruct Hk as [v Hk], Hk' as [v' Hk']. pose proof (HF _ _ Hk H1) as E1. pose proof (HF _ _ Hk' H2) as E2. cbn in E1, E2. by subst.
  - eapply yields_end. vm_compute. reflexivity.
  - intros HH. apply (f_equal length) in HH. vm_compute in HH. discriminate HH.
Qed.
Print Assumptions C41_switched_index_join_refuted.
