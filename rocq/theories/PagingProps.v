(** C28, C47: pages of the result, and counting. *)
From stdpp Require Import base list.
From Coq Require Import NArith.
From Verif Require Import QuickSort QuickSortSpec Paging PagingSpec QuickSortProofs QuickSortProps PagingProofs.

(** C28: find with offset and limit never fails if the query execution has no errors, and if the sorting ends (see C27) it
    returns the slice of the concatenated results of the corpora, each in an admissible order. Missing for the full property:
    offset + limit of 2^64 or more, and comparisons that are no total preorder (see C29). *)
Theorem C28_find_is_a_slice_partial : ∀ {M D} (cmp : M → M → comparison) (desc : M → D) fuel rnds cs offset limit,
  total_preorder cmp → Forall no_error cs → (∀ n, limit = Some n → offset + n < 2 ^ 64)%N →
  find cmp desc fuel rnds cs offset limit ≠ Failed ∧
  ∀ r, find cmp desc fuel rnds cs offset limit = Done r →
    ∃ fulls, Forall2 (ordered_matches cmp) cs fulls ∧ r = page offset limit (map desc (concat fulls)).
Proof.
  intros M D cmp desc f rnds cs o lim Hc Hn Hb.
  assert (bounded o lim) as Hb' by (destruct lim; [by apply Hb|done]).
  pose proof (find_ok cmp desc Hc f rnds cs o lim Hn Hb') as H.
  destruct (find cmp desc f rnds cs o lim) as [r| |]; [|done|done].
  split; [done|]. destruct H as (fulls & H1 & H2). intros ? [= <-]. exists fulls. split; [done|]. by rewrite H2, mjoin_concat.
Qed.
Print Assumptions C28_find_is_a_slice_partial.

(** C28: if the comparison tells different matches apart (or the order of the plan is used), two consecutive pages are the
    larger page, although each call sorts with other random numbers. *)
Theorem C28_pages_join_partial : ∀ {M D} (cmp : M → M → comparison) (desc : M → D) f1 f2 f3 r1 r2 r3 cs offset n1 n2 p1 p2 p,
  total_preorder cmp → Forall no_error cs →
  (∀ c x y, c ∈ cs → Some x ∈ s_plan c → Some y ∈ s_plan c → cmp x y = Eq → x = y) → (offset + n1 + n2 < 2 ^ 64)%N →
  find cmp desc f1 r1 cs offset (Some n1) = Done p1 → find cmp desc f2 r2 cs (offset + n1) (Some n2) = Done p2 →
  find cmp desc f3 r3 cs offset (Some (n1 + n2)%N) = Done p → p = p1 ++ p2.
Proof.
  intros M D cmp desc f1 f2 f3 r1 r2 r3 cs o n1 n2 p1 p2 p Hc Hn Hq.
  apply (pages_join cmp desc Hc f1 f2 f3 r1 r2 r3 cs o n1 n2 p1 p2 p Hn).
  apply Forall_forall. intros c Hin x y. exact (Hq c x y Hin).
Qed.
Print Assumptions C28_pages_join_partial.

(** C28: with a very large limit the sum with the offset wraps around and the result is not sorted. *)
Theorem C28_large_limit_refuted : ∃ (ms : list nat) rnd r,
  find Nat.compare id 100 (λ _, rnd) [Search (Some <$> ms) false] 1 (Some (2 ^ 64 - 1)%N) = Done r ∧ ¬ ascending Nat.compare r.
Proof.
  exists (reverse (seq 0 30)), (λ _, 10). eexists. split; [vm_compute; reflexivity|].
  intros H. specialize (H 20 21 28 27). cbn in H. apply H; [apply (bool_decide_eq_true _); vm_compute; reflexivity|reflexivity..].
Qed.
Print Assumptions C28_large_limit_refuted.

(** C47: without errors the count is the number of matches that find returns. Missing for the full property: executions with
    errors. *)
Theorem C47_count_is_number_of_matches_partial : ∀ {M D} (cmp : M → M → comparison) (desc : M → D) fuel rnds cs r,
  total_preorder cmp → Forall no_error cs →
  find cmp desc fuel rnds cs 0 None = Done r → count cs = N.of_nat (length r).
Proof. intros M D cmp desc f rnds cs r Hc. exact (count_find cmp desc Hc f rnds cs r). Qed.
Print Assumptions C47_count_is_number_of_matches_partial.

(** C47: count includes errors in its result, while find fails; and find with an offset ignores errors as well. *)
Theorem C47_errors_counted_refuted : ∃ c : search nat,
  s_plan c = [Some 1; None] ∧ count [c] = 2%N ∧ (∀ fuel rnds, find Nat.compare id fuel rnds [c] 0 None = Failed) ∧
  (∀ fuel rnds, find Nat.compare id fuel rnds [c] 2 None = Done []).
Proof. exists (Search [Some 1; None] true). split_and!; reflexivity. Qed.
Print Assumptions C47_errors_counted_refuted.

Definition ex_corpora : list (search nat) :=
  [Search (Some <$> [3; 1; 2]) false; Search [] true; Search (Some <$> [9; 8]) true; Search (Some <$> [5; 4]) false].
Example ex_no_error : Forall no_error ex_corpora.
Proof. apply Forall_forall. intros c Hc. unfold ex_corpora in Hc. rewrite !elem_of_cons, elem_of_nil in Hc.
  destruct Hc as [->|[->|[->|[->|[]]]]]; apply no_error_iff; [exists [3; 1; 2]|exists []|exists [9; 8]|exists [5; 4]]; reflexivity. Qed.
Example ex_find : find Nat.compare id 10 (λ _ _, 0) ex_corpora 2 (Some 4%N) = Done [3; 9; 8; 4].
Proof. vm_compute. reflexivity. Qed.
