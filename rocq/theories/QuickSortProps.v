(** C27: sorting the results. *)
From stdpp Require Import base list.
From Coq Require Import Arith.
From Verif Require Import QuickSort QuickSortSpec QuickSortProofs QuickSortAny.

(** C27: whatever the random numbers are, sorting does not fail, and if it ends, the result is an ascending permutation of
    the items. Missing for the full property: it need not end, see [C27_sort_ends_refuted]. *)
Theorem C27_sort_partial : ∀ {T} (cmp : T → T → comparison) fuel rnd l, total_preorder cmp →
  sort cmp fuel rnd l ≠ Failed ∧ ∀ l', sort cmp fuel rnd l = Done l' → Permutation l' l ∧ ascending cmp l'.
Proof.
  intros T cmp f rnd l H. pose proof (sort_ok cmp H f rnd l) as Hs. destruct (sort cmp f rnd l) as [l'| |]; [|done|done].
  split; [done|]. by intros ? [= <-].
Qed.
Print Assumptions C27_sort_partial.

(** C27: sorting the first [n] items: if it ends, these are the [n] smallest ones, in order. *)
Theorem C27_sort_first_n_items_partial : ∀ {T} (cmp : T → T → comparison) fuel rnd l n, total_preorder cmp →
  sort_first_n_items cmp fuel rnd l n ≠ Failed ∧
  ∀ l', sort_first_n_items cmp fuel rnd l n = Done l' → Permutation l' l ∧ first_sorted cmp n l'.
Proof.
  intros T cmp f rnd l n H. pose proof (sort_first_ok cmp H f rnd l n) as Hs.
  destruct (sort_first_n_items cmp f rnd l n) as [l'| |]; [|done|done]. split; [done|]. by intros ? [= <-].
Qed.
Print Assumptions C27_sort_first_n_items_partial.

(** C27: with any comparison, even one which contradicts itself, sorting does not fail and loses no items. *)
Theorem C27_any_comparison : ∀ {T} (cmp : T → T → comparison) fuel rnd l n,
  sort_first_n_items cmp fuel rnd l n ≠ Failed ∧ ∀ l', sort_first_n_items cmp fuel rnd l n = Done l' → Permutation l' l.
Proof.
  intros T cmp f rnd l n. pose proof (sort_first_any cmp f rnd l n) as Hs.
  destruct (sort_first_n_items cmp f rnd l n) as [l'| |]; [|done|done]. split; [done|]. by intros ? [= <-].
Qed.
Print Assumptions C27_any_comparison.

(** C27: whatever the first [k] random numbers are, there are further ones such that the sorting ends. *)
Theorem C27_sort_can_end : ∀ {T} (cmp : T → T → comparison) k rnd l n, total_preorder cmp →
  ∃ rnd' fuel l', (∀ i, i < k → rnd' i = rnd i) ∧ ∀ f, fuel ≤ f → sort_first_n_items cmp f rnd' l n = Done l'.
Proof.
  intros T cmp k rnd l n H. destruct (sort_ends cmp H k rnd l n) as (rnd' & f & r & Ha & Hd).
  exists rnd', f, r. split; [exact Ha|]. intros g Hg. exact (sort_first_mono cmp f g rnd' l n r Hg Hd).
Qed.
Print Assumptions C27_sort_can_end.

(** C27: up to 20 items are always sorted. *)
Theorem C27_short_lists_sorted : ∀ {T} (cmp : T → T → comparison) fuel rnd l, total_preorder cmp →
  length l ≤ 20 → 1 ≤ fuel → ∃ l', sort cmp fuel rnd l = Done l' ∧ Permutation l' l ∧ ascending cmp l'.
Proof.
  intros T cmp f rnd l H Hl Hf. pose proof (sort_ok cmp H f rnd l) as Hs.
  destruct (sort cmp f rnd l) as [l'| |] eqn:E; [by exists l'|done|]. exfalso.
  unfold sort, sort_first_n_items in E. destruct (decide (0 < length l)); [|done].
  destruct f as [|f]; [by apply Nat.nle_succ_0 in Hf|]. cbn [quicksort] in E. rewrite Nat.sub_0_r in E.
  destruct (decide (1 < length l)); [|done]. rewrite decide_True in E by done.
  destruct (insertion_sort _ _ _ _ _); done.
Qed.
Print Assumptions C27_short_lists_sorted.

(** C27: random numbers for which the sorting does not end. *)
Theorem C27_sort_ends_refuted : ∃ rnd (l : list nat), ∀ fuel, sort Nat.compare fuel rnd l = NoFuel.
Proof.
  exists (λ _, 0), (seq 0 21).
  assert (∀ k, randomized_partition Nat.compare (λ _, 0) k 0 21 (seq 0 21) = Some (seq 0 21, 0)) as Hp
    by (intros k; vm_compute; reflexivity).
  assert (∀ f k, quicksort Nat.compare f (λ _, 0) k 0 21 21 (seq 0 21) = NoFuel) as Hq.
  { induction f as [|f IH]; intros k; [reflexivity|]. cbn [quicksort].
    rewrite (decide_True (P := 1 < 21 - 0)) by (apply (bool_decide_eq_true _); vm_compute; reflexivity).
    rewrite (decide_False (P := 21 - 0 ≤ 20)) by (apply (bool_decide_eq_false _); vm_compute; reflexivity).
    rewrite Hp. destruct f as [|f]; [reflexivity|].
    replace (quicksort Nat.compare (S f) (λ _, 0) (k + 3) 0 0 21 (seq 0 21)) with (Done (seq 0 21, k + 3)) by reflexivity.
    rewrite decide_True by (apply (bool_decide_eq_true _); vm_compute; reflexivity). exact (IH (k + 3)). }
  intros f. unfold sort, sort_first_n_items. change (length (seq 0 21)) with 21.
  rewrite decide_True by (apply (bool_decide_eq_true _); vm_compute; reflexivity). by rewrite Hq.
Qed.
Print Assumptions C27_sort_ends_refuted.

Example ex_preorder : total_preorder Nat.compare.
Proof.
  split.
  - intros x y. apply Nat.compare_antisym.
  - intros x y z. rewrite !Nat.compare_gt_iff. lia.
Qed.
(** A run that uses random numbers *)
Example ex_sort : sort Nat.compare 50 (λ k, k * 7) (reverse (seq 0 25)) = Done (seq 0 25).
Proof. vm_compute. reflexivity. Qed.
(** A comparison which contradicts itself *)
Example ex_any : sort (λ a b, if Nat.eqb (a mod 3) (b mod 2) then Gt else Lt) 1 (λ _, 0) [3; 1; 4; 1; 5] = Done [3; 5; 1; 1; 4].
Proof. vm_compute. reflexivity. Qed.
