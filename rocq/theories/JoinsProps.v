(** Properties C30, C31 and C32: nested loop joins, parallel joins and index joins. *)
From stdpp Require Import base list.
From Coq Require Import NArith Lia.
From Verif Require Import Types SortMatches Joins JoinsSpec JoinsProofs.

(** The sequential nested loop ends, and its matches are the combinations of left and right matches which can be joined,
    each once; whichever operand is the outer one, whichever errors are among the joined results.
    Missing: non-reflexive operators outside of quirks mode, see below *)
Theorem C30_nested_loop_partial op reflexive global left_is_outer li ri l r :
  reflexive = true ∨ global = false →
  ∃ out, (∀ out', sequential_loop op reflexive global left_is_outer li ri l r out' ↔ out' = out) ∧
    oks out ≡ₚ joined op reflexive global left_is_outer li ri (oks l) (oks r).
Proof.
  intros H. destruct (sequential_loop_spec op reflexive global left_is_outer li ri l r) as [[out Ho] Hs].
  exists out. split; [|by apply Hs]. intros out'. split; [|by intros ->].
  unfold sequential_loop in *. destruct left_is_outer; intros Ho'; by eapply yields_det.
Qed.
(** It does not fail without a reason *)
Theorem C30_nested_loop_no_error op reflexive global left_is_outer li ri l r out :
  sequential_loop op reflexive global left_is_outer li ri l r out → has_operand li l → has_operand ri r →
  no_error l → no_error r → total op → no_error out.
Proof. exact (sequential_loop_no_error op reflexive global left_is_outer li ri l r out). Qed.
(** Errors of the joined results are reported *)
Theorem C30_nested_loop_errors_reported op reflexive global left_is_outer li ri l r out :
  sequential_loop op reflexive global left_is_outer li ri l r out → oks l ≠ [] → oks r ≠ [] →
  IErr ∈ l ∨ IErr ∈ r → IErr ∈ out.
Proof. exact (sequential_loop_errors op reflexive global left_is_outer li ri l r out). Qed.
(** For non-reflexive operators outside of quirks mode, all the joinable combinations are found, and perhaps more of them
    whose operands are different, but not from all the matches of the other side *)
Theorem C30_nested_loop_bounds op reflexive global left_is_outer li ri l r out :
  sequential_loop op reflexive global left_is_outer li ri l r out →
  joined op reflexive global left_is_outer li ri (oks l) (oks r) ⊆+ oks out ∧
  oks out ⊆+ joined op reflexive false left_is_outer li ri (oks l) (oks r).
Proof. exact (sequential_loop_bounds op reflexive global left_is_outer li ri l r out). Qed.

(** The first outer match is treated differently from the other ones *)
Definition x : match_ := (1%N, AnnoKey [] []).
Definition y : match_ := (2%N, AnnoKey [] []).
Definition z : match_ := (3%N, AnnoKey [] []).
Definition any : match_ → match_ → option bool := λ _ _, Some true.
Theorem C30_global_reflexivity_refuted :
  let l := [IOk [x; y]; IOk [x; z]] in
  let r := [IOk [x]] in
  sequential_loop any false true true 1 0 l r [IOk [x; y; x]] ∧
  joined any false true true 1 0 (oks l) (oks r) = [] ∧ no_error l ∧ no_error r ∧ has_operand 1 l ∧ has_operand 0 r ∧ total any.
Proof.
  cbv zeta. split_and!.
  - eapply yields_item; [vm_compute; reflexivity|]. eapply yields_end. vm_compute. reflexivity.
  - vm_compute. reflexivity.
  - apply no_error_ok. repeat constructor.
  - apply no_error_ok. repeat constructor.
  - unfold has_operand. repeat constructor.
  - unfold has_operand. repeat constructor.
  - done.
Qed.
Example C30_example :
  let less : match_ → match_ → option bool := λ a b, Some (N.ltb a.1 b.1) in
  joined less false false true 0 0 [[x]; [y]; [z]] [[x]; [y]; [z]] = [[x; y]; [x; z]; [y; z]] ∧
  joined less false false false 0 0 [[x]; [y]; [z]] [[x]; [y]; [z]] = [[y; x]; [z; x]; [z; y]] ∧
  sequential_loop less false false false 0 0 [IOk [x]; IOk [y]; IOk [z]] [IOk [x]; IErr; IOk [y]; IOk [z]]
    [IErr; IOk [y; x]; IOk [z; x]; IOk [z; y]].
Proof.
  cbv zeta. split_and!; [vm_compute; reflexivity|vm_compute; reflexivity|].
  repeat (eapply yields_item; [vm_compute; reflexivity|]). eapply yields_end. vm_compute. reflexivity.
Qed.

(** The parallel nested loop ends with every buffer size and every schedule of the threads, and its matches are the
    combinations which can be joined, each once; with all operators, in all modes *)
Theorem C31_parallel_nested_loop op reflexive global left_is_outer buffer li ri l r : 0 < buffer →
  (∃ out, parallel_loop op reflexive global left_is_outer buffer li ri l r out) ∧
  ∀ out, parallel_loop op reflexive global left_is_outer buffer li ri l r out →
    oks out ≡ₚ joined op reflexive global left_is_outer li ri (oks l) (oks r) ∧
    (has_operand li l → has_operand ri r → IPanic ∉ out ∧ (no_error l → no_error r → total op → no_error out)).
Proof. exact (parallel_loop_spec op reflexive global left_is_outer buffer li ri l r). Qed.
(** The same matches as those of the sequential one.
    Missing: non-reflexive operators outside of quirks mode (C30_global_reflexivity_refuted) *)
Theorem C31_parallel_as_sequential_partial op reflexive global left_is_outer buffer li ri l r out1 out2 : 0 < buffer →
  reflexive = true ∨ global = false →
  sequential_loop op reflexive global left_is_outer li ri l r out1 →
  parallel_loop op reflexive global left_is_outer buffer li ri l r out2 →
  oks out1 ≡ₚ oks out2.
Proof.
  intros Hb H H1 H2. destruct (sequential_loop_spec op reflexive global left_is_outer li ri l r) as [_ Hs].
  rewrite (Hs _ H1 H). destruct (parallel_loop_spec op reflexive global left_is_outer buffer li ri l r Hb) as [_ Hp].
  symmetry. by apply Hp.
Qed.
(** The parallel nested loop can lose an error the sequential one reports *)
Theorem C31_parallel_errors_refuted :
  let l := [IOk [x]] in
  let r := [IErr] in
  sequential_loop any true false true 0 0 l r [IErr] ∧
  ∀ buffer out, 0 < buffer → parallel_loop any true false true buffer 0 0 l r out → out = [].
Proof.
  cbv zeta. split.
  - eapply yields_item; [vm_compute; reflexivity|]. eapply yields_end. vm_compute. reflexivity.
  - intros buffer out Hb Hy. unfold parallel_loop in Hy. inversion Hy as [st st' errs H E1 E2|st st' buf errs out' rest H H1 H2 H3 E1 E2]; [done|].
    destruct buffer; [lia|]. cbn in H. by injection H as <- <- <-.
Qed.
(** The parallel index join ends with every buffer size and every schedule of the threads, and yields the same items as the
    sequential one *)
Theorem C31_parallel_index_join reflexive global li retrieve keys cond const size l :
  0 < size → has_operand li l → conds_total cond → (∀ m, retrieve m ≠ None) →
  (∃ out, pij_yields reflexive global li retrieve keys cond const size l out) ∧
  ∃ out, (∀ out', yields (ij_next reflexive global li retrieve keys cond const) (ij_new l) out' ↔ out' = out) ∧
    ∀ out', pij_yields reflexive global li retrieve keys cond const size l out' → out' ≡ₚ out.
Proof.
  intros Hs Hl Hc Hr. split; [by apply pij_ends|].
  exists (mjoin (thread reflexive global li retrieve keys cond const <$> l)). split.
  - intros out'. apply ij_yields; [done|]. apply Forall_forall. intros [g| |] Hin; [|done|done].
    apply (has_operand_in _ _ _ Hl) in Hin. apply lookup_lt_is_Some_2 in Hin as [ml Hml]. unfold retrieves, candidates.
    rewrite Hml. specialize (Hr ml). destruct (retrieve ml); [eauto|done].
  - intros out'. by apply pij_spec.
Qed.
(** When the retrieval fails for the first match, the sequential index join repeats this error for ever *)
Theorem C31_retrieval_error_refuted :
  ∀ out, ¬ yields (ij_next true false 0 (λ _, None) (λ _, [AnnoKey [] []]) [] None) (ij_new [IOk [x]]) out.
Proof.
  intros out H. remember (ij_new [IOk [x]]) as st eqn:E. induction H as [st st' H|st i st' l H Hy IH]; subst st.
  - discriminate H.
  - apply IH. cbn in H. by injection H as _ <-.
Qed.
Example C31_example :
  let less : match_ → match_ → option bool := λ a b, Some (N.ltb a.1 b.1) in
  let l := [IOk [x]; IOk [y]; IOk [z]] in
  parallel_loop less false true true 2 0 0 l l [IOk [x; y]; IOk [x; z]; IOk [y; z]] ∧
  parallel_loop less false true true 9 0 0 l l [IOk [y; z]; IOk [x; y]; IOk [x; z]].
Proof.
  cbv zeta. split.
  - unfold parallel_loop.
    eapply (pnl_buffer _ _ _ _ _ _ _ _ _ _ [] [IOk [x; y]]); [vm_compute; reflexivity|done| |].
    { cbn. apply (interleave_item [[]] (IOk [x; y]) []). apply interleave_end. repeat constructor. }
    eapply (pnl_buffer _ _ _ _ _ _ _ _ _ _ [] [IOk [x; z]]); [vm_compute; reflexivity|done| |].
    { cbn. apply (interleave_item [] (IOk [x; z]) []). apply interleave_end. repeat constructor. }
    eapply (pnl_buffer _ _ _ _ _ _ _ _ _ _ [] [IOk [y; z]] []); [vm_compute; reflexivity|done| |].
    { cbn. apply (interleave_item [[]] (IOk [y; z]) []). apply interleave_end. repeat constructor. }
    eapply (pnl_buffer _ _ _ _ _ _ _ _ _ _ [] [] []); [vm_compute; reflexivity|done| |].
    { cbn. apply interleave_end. repeat constructor. }
    eapply (pnl_buffer _ _ _ _ _ _ _ _ _ _ [] [] []); [vm_compute; reflexivity|done| |].
    { cbn. apply interleave_end. repeat constructor. }
    eapply pnl_end. vm_compute. reflexivity.
  - unfold parallel_loop.
    eapply (pnl_buffer _ _ _ _ _ _ _ _ _ _ [] [IOk [y; z]; IOk [x; y]; IOk [x; z]] []); [vm_compute; reflexivity|done| |].
    { cbn. apply (interleave_item [[]; [IOk [x; y]]; [IOk [x; z]]; []; []] (IOk [y; z]) []).
      apply (interleave_item [[]] (IOk [x; y]) []). apply (interleave_item [[]; []] (IOk [x; z]) []).
      apply interleave_end. repeat constructor. }
    eapply pnl_end. vm_compute. reflexivity.
Qed.

(** If the retrieval of the operator and the conditions of the node search agree with the check of the operator and the
    results [rs] of the node search, the index join finds the combinations which can be joined: the same set of matches as
    a nested loop, and no errors *)
Theorem C32_index_join op reflexive global li retrieve keys cond const rs l out :
  has_operand li l → conds_total cond → retrieval_agrees op retrieve rs → search_agrees keys cond const rs →
  yields (ij_next reflexive global li retrieve keys cond const) (ij_new l) out ∨
  (∃ size, 0 < size ∧ pij_yields reflexive global li retrieve keys cond const size l out) →
  (∀ g, g ∈ oks out ↔ g ∈ joined op reflexive global true li 0 (oks l) ((λ m, [m]) <$> rs)) ∧ (no_error l → no_error out).
Proof.
  intros Hl Hc Hr Hs Hy.
  assert (out ≡ₚ mjoin (thread reflexive global li retrieve keys cond const <$> l)) as E.
  { destruct Hy as [Hy|(size & Hsz & Hy)].
    - apply ij_yields in Hy; [by rewrite Hy|done|by eapply retrieves_all].
    - by eapply pij_spec. }
  split.
  - intros g. rewrite <- (elem_of_index_join _ _ _ _ _ _ _ Hc _ _ Hr Hs _ _ Hl). by rewrite (oks_perm _ _ E).
  - intros Hn. pose proof (index_join_no_error reflexive global _ _ _ _ _ Hc _ _ Hr Hs _ Hl Hn) as H.
    unfold no_error in *. by rewrite E.
Qed.
(** Each of them once, if the operator retrieves no node twice *)
Theorem C32_index_join_once op reflexive global li retrieve keys cond const rs l out :
  has_operand li l → conds_total cond → retrieval_agrees op retrieve rs → search_agrees keys cond const rs →
  (∀ m nodes, retrieve m = Some nodes → NoDup (fst <$> nodes)) → (∀ n, NoDup (keys n)) → NoDup (oks l) → NoDup rs →
  yields (ij_next reflexive global li retrieve keys cond const) (ij_new l) out ∨
  (∃ size, 0 < size ∧ pij_yields reflexive global li retrieve keys cond const size l out) →
  oks out ≡ₚ joined op reflexive global true li 0 (oks l) ((λ m, [m]) <$> rs).
Proof.
  intros Hl Hc Hr Hs Hn Hk Hnl Hnr Hy.
  assert (out ≡ₚ mjoin (thread reflexive global li retrieve keys cond const <$> l)) as E.
  { destruct Hy as [Hy|(size & Hsz & Hy)].
    - apply ij_yields in Hy; [by rewrite Hy|done|by eapply retrieves_all].
    - by eapply pij_spec. }
  rewrite (oks_perm _ _ E). apply NoDup_Permutation.
  - by eapply index_join_nodup.
  - by apply joined_nodup.
  - intros g. by eapply elem_of_index_join.
Qed.
(** The same matches from a nested loop *)
Theorem C32_index_join_as_parallel_loop op reflexive global li retrieve keys cond const rs l out out2 buffer :
  0 < buffer → has_operand li l → conds_total cond → retrieval_agrees op retrieve rs → search_agrees keys cond const rs →
  yields (ij_next reflexive global li retrieve keys cond const) (ij_new l) out →
  parallel_loop op reflexive global true buffer li 0 l ((λ m, IOk [m]) <$> rs) out2 →
  ∀ g, IOk g ∈ out ↔ IOk g ∈ out2.
Proof.
  intros Hb Hl Hc Hr Hs Hy Hp g. rewrite <- !elem_of_oks.
  destruct (C32_index_join op reflexive global li retrieve keys cond const rs l out Hl Hc Hr Hs (or_introl Hy)) as [H _].
  rewrite H. destruct (parallel_loop_spec op reflexive global true buffer li 0 l ((λ m, IOk [m]) <$> rs) Hb) as [_ H2].
  destruct (H2 _ Hp) as [H3 _]. rewrite H3.
  assert (oks ((λ m, IOk [m]) <$> rs) = (λ m, [m]) <$> rs) as ->; [|done].
  clear. induction rs as [|m rs IH]; [done|]. cbn. f_equal. exact IH.
Qed.
(** Token search [annis:tok] with two namespaces for the name "tok" *)
Example C32_example :
  let tok := AnnoKey [116%N] [97%N] in
  let tok2 := AnnoKey [116%N] [98%N] in
  let keys : N → list anno_key := λ n, if decide (1 <= n <= 3)%N then [tok; tok2] else [] in
  let retrieve : match_ → option (list match_) := λ m, Some [((m.1 + 1)%N, tok); ((m.1 + 2)%N, tok)] in
  let op : match_ → match_ → option bool := λ a b, Some ((b.1 =? a.1 + 1) || (b.1 =? a.1 + 2))%N in
  let rs := [(1%N, tok); (2%N, tok); (3%N, tok)] in
  retrieval_agrees op retrieve rs ∧ search_agrees keys [] (Some tok) rs ∧
  yields (ij_next false true 0 retrieve keys [] (Some tok)) (ij_new [IOk [(1%N, tok)]; IOk [(2%N, tok)]])
    [IOk [(1%N, tok); (2%N, tok)]; IOk [(1%N, tok); (3%N, tok)]; IOk [(2%N, tok); (3%N, tok)]].
Proof.
  cbv zeta. split_and!.
  - intros ml. eexists. split; [reflexivity|]. intros m _. split.
    + intros [= H]. apply orb_true_iff in H as [H|H]; apply N.eqb_eq in H.
      * eexists. split; [left|]. done.
      * eexists. split; [right; left|]. done.
    + intros (p & Hp & E). f_equal. apply orb_true_iff.
      apply elem_of_cons in Hp as [->|Hp]; [left|right; apply elem_of_list_singleton in Hp as ->]; apply N.eqb_eq; done.
  - intros n k. split.
    + intros H. repeat (apply elem_of_cons in H as [[= -> ->]|H]; [eexists; split_and!; [left| |]; done|]). inversion H.
    + intros (k' & Hk & _ & ->). cbn [default]. case_decide as Hn; [|inversion Hk].
      assert (n = 1 ∨ n = 2 ∨ n = 3)%N as [-> |[-> | ->]] by lia; [left|right; left|right; right; left].
  - repeat (eapply yields_item; [vm_compute; reflexivity|]). eapply yields_end. vm_compute. reflexivity.
Qed.

Print Assumptions C30_nested_loop_partial.
Print Assumptions C30_nested_loop_no_error.
Print Assumptions C30_nested_loop_errors_reported.
Print Assumptions C30_nested_loop_bounds.
Print Assumptions C30_global_reflexivity_refuted.
Print Assumptions C31_parallel_nested_loop.
Print Assumptions C31_parallel_as_sequential_partial.
Print Assumptions C31_parallel_errors_refuted.
Print Assumptions C31_parallel_index_join.
Print Assumptions C31_retrieval_error_refuted.
Print Assumptions C32_index_join.
Print Assumptions C32_index_join_once.
Print Assumptions C32_index_join_as_parallel_loop.
