(** Sorting with any comparison, also an inconsistent one. *)
From stdpp Require Import base list.
From Coq Require Import Arith Lia.
From Verif Require Import QuickSort.

Section Any.
Context {T : Type} (cmp : T → T → comparison).
Lemma insert_mid (p : list T) x y q : <[length p := y]> (p ++ x :: q) = p ++ y :: q.
Proof. induction p as [|z p IH]; [done|]. simpl. by f_equal. Qed.
Lemma perm_swap_at (l : list T) a b x y : l !! a = Some x → l !! b = Some y → a ≠ b → <[b := x]> (<[a := y]> l) ≡ₚ l.
Proof.
  assert (∀ (l : list T) a b x y, l !! a = Some x → l !! b = Some y → a < b → <[b := x]> (<[a := y]> l) ≡ₚ l) as Hlt.
  { clear. intros l a b x y Ha Hb Hab.
    apply elem_of_list_split_length in Ha as (l1 & l2 & -> & ->).
    rewrite lookup_app_r in Hb by lia. destruct (b - length l1) as [|k] eqn:Ek; [lia|]. cbn in Hb.
    apply elem_of_list_split_length in Hb as (l3 & l4 & -> & ->).
    rewrite insert_mid.
    replace (l1 ++ y :: l3 ++ y :: l4) with ((l1 ++ y :: l3) ++ y :: l4) by (by rewrite <- app_assoc).
    replace b with (length (l1 ++ y :: l3)) by (rewrite app_length; simpl; lia). rewrite insert_mid. rewrite <- app_assoc.
    cbn [app]. apply Permutation_app_head. rewrite <- !Permutation_middle. apply perm_swap. }
  intros Ha Hb Hne. destruct (lt_dec a b) as [H|H]; [by apply Hlt|].
  rewrite list_insert_commute by done. apply Hlt; [done..|lia].
Qed.
Lemma swap_any (l : list T) a b : a < length l → b < length l → ∃ l', try_swap l a b = Some l' ∧ l' ≡ₚ l.
Proof.
  intros [x Hx]%lookup_lt_is_Some_2 [y Hy]%lookup_lt_is_Some_2. unfold try_swap. rewrite Hx, Hy. cbn.
  destruct (decide (a = b)); [by eexists|]. eexists. split; [done|]. by apply perm_swap_at.
Qed.
Lemma sift_any s d : ∀ l, s + d < length l → ∃ l', sift cmp s d l = Some l' ∧ l' ≡ₚ l.
Proof.
  induction d as [|d IH]; intros l Hl; cbn [sift]; [by eexists|].
  destruct (lookup_lt_is_Some_2 l (s + d)) as [x Hx]; [lia|]. destruct (lookup_lt_is_Some_2 l (s + d + 1)) as [y Hy]; [lia|].
  rewrite Hx, Hy. cbn. destruct (is_ge _); [|by eexists].
  destruct (swap_any l (s + d) (s + d + 1)) as (l1 & -> & H1); [lia..|]. cbn.
  destruct (IH l1) as (l2 & -> & H2); [rewrite (Permutation_length H1); lia|]. eexists. split; [done|]. by rewrite H2.
Qed.
Lemma insertion_any s n : ∀ i l, s ≤ i → i + n ≤ length l → ∃ l', insertion_sort cmp s i n l = Some l' ∧ l' ≡ₚ l.
Proof.
  induction n as [|n IH]; intros i l Hi Hl; cbn [insertion_sort]; [by eexists|].
  destruct (sift_any s (i - s) l) as (l1 & -> & H1); [lia|]. cbn.
  destruct (IH (S i) l1) as (l2 & -> & H2); [lia|rewrite (Permutation_length H1); lia|]. eexists. split; [done|]. by rewrite H2.
Qed.
Lemma loop_any pv n : ∀ i j l, i ≤ j → j + n ≤ length l →
  ∃ l' k, partition_loop cmp pv i j n l = Some (l', k) ∧ l' ≡ₚ l ∧ i ≤ k ≤ j + n.
Proof.
  induction n as [|n IH]; intros i j l Hi Hl; cbn [partition_loop]; [exists l, i; split_and!; [done..|lia|lia]|].
  destruct (lookup_lt_is_Some_2 l j) as [x Hx]; [lia|]. rewrite Hx. cbn.
  assert (∃ l' k, (l' ← try_swap l i j; partition_loop cmp pv (S i) (S j) n l') = Some (l', k) ∧ l' ≡ₚ l ∧ i ≤ k ≤ j + S n) as Hs.
  { destruct (swap_any l i j) as (l1 & -> & H1); [lia..|]. cbn.
    destruct (IH (S i) (S j) l1) as (l2 & k & -> & H2 & Hk); [lia|rewrite (Permutation_length H1); lia|].
    exists l2, k. split_and!; [done|by rewrite H2|lia|lia]. }
  destruct (cmp x pv); [done..|].
  destruct (IH i (S j) l) as (l2 & k & -> & H2 & Hk); [lia|lia|]. exists l2, k. split_and!; [done..|lia|lia].
Qed.
Lemma partition_any s e l : s < e → e ≤ length l → ∃ l' q, partition cmp s e l = Some (l', q) ∧ l' ≡ₚ l ∧ s ≤ q < e.
Proof.
  intros Hs He. unfold partition. destruct (lookup_lt_is_Some_2 l (e - 1)) as [pv Hpv]; [lia|]. rewrite Hpv. cbn.
  destruct (loop_any pv (e - 1 - s) s s l) as (l1 & q & -> & H1 & Hq); [lia..|]. cbn.
  destruct (swap_any l1 q (e - 1)) as (l2 & -> & H2); [rewrite (Permutation_length H1); lia..|]. cbn.
  exists l2, q. split_and!; [done|by rewrite H2|lia|lia].
Qed.
Lemma random_any s e rnd k : s < e → s ≤ random_range rnd k s e < e.
Proof. intros H. unfold random_range. pose proof (Nat.mod_upper_bound (rnd k) (e - s)). lia. Qed.
Lemma median_any (v1 v2 v3 : nat * T) : median3 cmp v1 v2 v3 ∈ [v1; v2; v3].
Proof. unfold median3. repeat case_match; simplify_eq; rewrite !elem_of_cons; auto. Qed.
Lemma randomized_any rnd k s e l : s < e → e ≤ length l →
  ∃ l' q, randomized_partition cmp rnd k s e l = Some (l', q) ∧ l' ≡ₚ l ∧ s ≤ q < e.
Proof.
  intros Hs He. unfold randomized_partition.
  pose proof (random_any s e rnd k Hs). pose proof (random_any s e rnd (k + 1) Hs). pose proof (random_any s e rnd (k + 2) Hs).
  destruct (lookup_lt_is_Some_2 l (random_range rnd k s e)) as [v1 V1]; [lia|].
  destruct (lookup_lt_is_Some_2 l (random_range rnd (k + 1) s e)) as [v2 V2]; [lia|].
  destruct (lookup_lt_is_Some_2 l (random_range rnd (k + 2) s e)) as [v3 V3]; [lia|]. rewrite V1, V2, V3. cbn.
  set (m := median3 cmp _ _ _).
  assert (m.1 < length l) as Hm.
  { pose proof (median_any (random_range rnd k s e, v1) (random_range rnd (k + 1) s e, v2) (random_range rnd (k + 2) s e, v3)) as Hin.
    fold m in Hin. rewrite !elem_of_cons, elem_of_nil in Hin. destruct Hin as [->|[->|[->|[]]]]; cbn [fst]; lia. }
  destruct (swap_any l (e - 1) m.1) as (l1 & -> & P1); [lia..|]. cbn.
  destruct (partition_any s e l1) as (l2 & q & -> & P2 & Hq); [lia|rewrite (Permutation_length P1); lia|].
  exists l2, q. split_and!; [done|by rewrite P2|lia|lia].
Qed.
Lemma quicksort_any rnd max f : ∀ k s e l, s ≤ e → e ≤ length l →
  match quicksort cmp f rnd k s e max l with Done (l', _) => l' ≡ₚ l | Failed => False | NoFuel => True end.
Proof.
  induction f as [|f IH]; intros k s e l Hs He; cbn [quicksort]; [done|].
  destruct (decide (1 < e - s)); [|done]. destruct (decide (e - s ≤ 20)).
  - destruct (insertion_any s (e - s) s l) as (l' & -> & ?); [lia..|done].
  - destruct (randomized_any rnd k s e l) as (l1 & q & -> & H1 & Hq); [lia..|].
    pose proof (IH (k + 3) s q l1 ltac:(lia) ltac:(rewrite (Permutation_length H1); lia)) as H2.
    destruct (quicksort cmp f rnd (k + 3) s q max l1) as [[l2 k2]| |]; [|done..].
    destruct (decide (q < max)); [|by rewrite H2].
    pose proof (IH k2 q e l2 ltac:(lia) ltac:(rewrite (Permutation_length H2), (Permutation_length H1); lia)) as H3.
    destruct (quicksort cmp f rnd k2 q e max l2) as [[l9 k9]| |]; [|done..]. by rewrite H3, H2.
Qed.
Lemma sort_first_any f rnd l n :
  match sort_first_n_items cmp f rnd l n with Done l' => l' ≡ₚ l | Failed => False | NoFuel => True end.
Proof.
  unfold sort_first_n_items. destruct (decide (0 < length l)); [|done].
  pose proof (quicksort_any rnd n f 0 0 (length l) l ltac:(lia) ltac:(lia)) as H.
  destruct (quicksort _ _ _ _ _ _ _ _) as [[l' k]| |]; done.
Qed.
Lemma sort_any f rnd l : match sort cmp f rnd l with Done l' => l' ≡ₚ l | Failed => False | NoFuel => True end.
Proof. apply sort_first_any. Qed.
End Any.
