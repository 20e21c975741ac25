From stdpp Require Import base list sorting.
From Coq Require Import Arith Lia.
From Verif Require Import QuickSort QuickSortSpec.

Section Proofs.
Context {T : Type} (cmp : T → T → comparison) (Hc : total_preorder cmp).
Notation le x y := (cmp x y ≠ Gt).

Lemma le_total x y : cmp x y = Gt → le y x.
Proof using Hc. intros H. rewrite (tp_flip _ Hc), H. done. Qed.
Lemma le_lt x y : cmp x y = Lt → le x y.
Proof using. by intros ->. Qed.
Lemma le_of_ge x y : is_ge (cmp x y) = true → le y x.
Proof using Hc. intros H. rewrite (tp_flip _ Hc x y). by destruct (cmp x y). Qed.
Lemma le_of_not_ge x y : is_ge (cmp x y) = false → le x y.
Proof using. by destruct (cmp x y). Qed.
Lemma le_refl x : le x x.
Proof using Hc. intros H. pose proof (tp_flip _ Hc x x) as E. rewrite H in E. done. Qed.

Lemma try_swap_eq (l : list T) i x : l !! i = Some x → try_swap l i i = Some l.
Proof using. unfold try_swap. intros ->. cbn. by rewrite decide_True. Qed.
Lemma try_swap_app a (x : T) m y b :
  try_swap (a ++ x :: m ++ y :: b) (length a) (length a + S (length m)) = Some (a ++ y :: m ++ x :: b).
Proof using.
  unfold try_swap. rewrite (list_lookup_middle a _ x (length a)) by done. cbn [mbind option_bind].
  rewrite (lookup_app_r a) by lia. replace (length a + S (length m) - length a) with (S (length m)) by lia.
  cbn [mbind option_bind lookup list_lookup].
  rewrite (list_lookup_middle m _ y) by done. cbn [mbind option_bind]. rewrite decide_False by lia. f_equal.
  rewrite (insert_app_r_alt a) by done. rewrite Nat.sub_diag. cbn.
  rewrite insert_app_r_alt by lia. f_equal. replace (length a + S (length m) - length a) with (S (length m)) by lia.
  change (y :: <[length m := x]> (m ++ y :: b) = y :: m ++ x :: b). f_equal.
  rewrite insert_app_r_alt by done. by rewrite Nat.sub_diag.
Qed.
Lemma try_swap_sym (l : list T) i j : try_swap l i j = try_swap l j i.
Proof using.
  unfold try_swap. destruct (l !! i) as [x|] eqn:Ei, (l !! j) as [y|] eqn:Ej; cbn; try done. f_equal.
  destruct (decide (i = j)) as [->|]; [by rewrite decide_True|]. rewrite (decide_False (P := j = i)) by congruence.
  by rewrite list_insert_commute by congruence.
Qed.
(** Swapping inside a segment *)
Lemma try_swap_seg a (m : list T) b i j : i < length m → j < length m →
  ∃ m', try_swap (a ++ m ++ b) (length a + i) (length a + j) = Some (a ++ m' ++ b) ∧ m ≡ₚ m' ∧ m' !! i = m !! j.
Proof using.
  intros Hi Hj. destruct (decide (i = j)) as [->|Hne].
  { destruct (lookup_lt_is_Some_2 m j Hj) as [x Hx]. exists m. split; [|by split].
    apply (try_swap_eq _ _ x). rewrite lookup_app_r by lia. replace (length a + j - length a) with j by lia.
    by apply lookup_app_l_Some. }
  assert (∀ i j, i < j → j < length m →
    ∃ m', try_swap (a ++ m ++ b) (length a + i) (length a + j) = Some (a ++ m' ++ b) ∧ m ≡ₚ m' ∧ m' !! i = m !! j ∧ m' !! j = m !! i) as Hw.
  { clear i j Hi Hj Hne. intros i j Hij Hj.
    destruct (lookup_lt_is_Some_2 m i ltac:(lia)) as [x Hx]. destruct (lookup_lt_is_Some_2 m j Hj) as [y Hy].
    pose proof (take_drop_middle _ _ _ Hx) as E1. set (p := take i m) in *.
    assert (length p = i) as Hp by (unfold p; rewrite take_length; lia).
    assert (drop (S i) m !! (j - S i) = Some y) as Hy' by (rewrite lookup_drop; rewrite <- Hy; f_equal; lia).
    pose proof (take_drop_middle _ _ _ Hy') as E2. set (q := take (j - S i) (drop (S i) m)) in *.
    assert (length q = j - S i) as Hq by (unfold q; rewrite take_length, drop_length; lia).
    set (r := drop (S (j - S i)) (drop (S i) m)) in *. rewrite <- E2 in E1. clearbody p q r.
    subst m. exists (p ++ y :: q ++ x :: r). split_and!.
    - replace (a ++ (p ++ x :: q ++ y :: r) ++ b) with ((a ++ p) ++ x :: q ++ y :: (r ++ b))
        by (repeat (rewrite <- ?app_assoc; cbn); done).
      replace (a ++ (p ++ y :: q ++ x :: r) ++ b) with ((a ++ p) ++ y :: q ++ x :: (r ++ b))
        by (repeat (rewrite <- ?app_assoc; cbn); done).
      rewrite <- (try_swap_app (a ++ p) x q y (r ++ b)). f_equal; rewrite app_length; lia.
    - apply Permutation_app_head. rewrite <- !Permutation_middle. constructor.
    - rewrite Hy. by rewrite list_lookup_middle.
    - rewrite Hx. rewrite lookup_app_r by lia. replace (j - length p) with (S (length q)) by lia.
      change ((q ++ x :: r) !! length q = Some x). by apply list_lookup_middle. }
  destruct (decide (i < j)).
  - destruct (Hw i j) as (m' & ? & ? & ? & ?); [done..|]. by exists m'.
  - destruct (Hw j i) as (m' & H1 & ? & ? & ?); [lia|done|]. exists m'. by rewrite try_swap_sym.
Qed.

(** ** Insertion sort *)
Lemma SSorted_app (R : T → T → Prop) p q :
  StronglySorted R (p ++ q) ↔ StronglySorted R p ∧ StronglySorted R q ∧ ∀ x y, x ∈ p → y ∈ q → R x y.
Proof using.
  induction p as [|z p IH]; cbn.
  - split; [|by intros (_ & ? & _)]. intros H. split; [constructor|]. split; [done|]. intros x y []%elem_of_nil.
  - split.
    + intros H. inversion H as [|? ? H1 H2]; subst. apply IH in H1 as (H3 & H4 & H5). apply Forall_app in H2 as [H6 H7].
      split; [by constructor|]. split; [done|]. intros x y [->|Hx]%elem_of_cons Hy; [|by apply H5].
      rewrite Forall_forall in H7. by apply H7.
    + intros (H1 & H2 & H3). inversion H1 as [|? ? H4 H5]; subst. constructor.
      * apply IH. split; [done|]. split; [done|]. intros x y Hx Hy. apply H3; [by right|done].
      * apply Forall_app. split; [done|]. apply Forall_forall. intros y Hy. apply H3; [by left|done].
Qed.
Notation sorted := (StronglySorted (λ x y, le x y)).

Lemma sift_ok p x q a b : sorted (p ++ q) → (∀ y, y ∈ q → le x y) →
  ∃ m, sift cmp (length a) (length p) (a ++ (p ++ x :: q) ++ b) = Some (a ++ m ++ b) ∧ p ++ x :: q ≡ₚ m ∧ sorted m.
Proof using Hc.
  revert q. induction p as [|y p IH] using rev_ind; intros q Hs Hx.
  - cbn. exists (x :: q). split; [done|]. split; [done|]. constructor; [done|]. by apply Forall_forall.
  - rewrite app_length. cbn [length]. rewrite Nat.add_1_r. cbn [sift].
    assert (a ++ ((p ++ [y]) ++ x :: q) ++ b = (a ++ p) ++ y :: [] ++ x :: (q ++ b)) as E.
    { repeat (rewrite <- ?app_assoc; cbn). done. }
    rewrite E. rewrite (list_lookup_middle (a ++ p) _ y (length a + length p)) by (rewrite app_length; lia). cbn [mbind option_bind].
    replace (((a ++ p) ++ y :: [] ++ x :: q ++ b) !! (length a + length p + 1)) with (Some x).
    2: { rewrite lookup_app_r by (rewrite app_length; lia).
         replace (length a + length p + 1 - length (a ++ p)) with 1 by (rewrite app_length; lia). done. }
    cbn [mbind option_bind].
    rewrite <- app_assoc in Hs. cbn in Hs. pose proof (proj1 (SSorted_app _ _ _) Hs) as (H1 & H2 & H3).
    inversion H2 as [|? ? H4 H5]; subst. rewrite Forall_forall in H5.
    destruct (is_ge (cmp y x)) eqn:Ec.
    + pose proof (try_swap_app (a ++ p) y [] x (q ++ b)) as Hsw. rewrite app_length in Hsw. cbn [length] in Hsw.
      rewrite Hsw. cbn [mbind option_bind app].
      destruct (IH (y :: q)) as (m & Hm & Hp & Hsm).
      { done. }
      { intros z [->|Hz]%elem_of_cons; [by apply le_of_ge|by apply Hx]. }
      exists m. split.
      { rewrite <- Hm. f_equal. repeat (rewrite <- ?app_assoc; cbn). done. }
      split; [|done]. rewrite <- Hp. rewrite <- app_assoc. cbn. apply Permutation_app_head. constructor.
    + exists ((p ++ [y]) ++ x :: q). split; [by rewrite E|]. split; [done|].
      rewrite <- app_assoc. apply le_of_not_ge in Ec. apply SSorted_app. split; [done|]. split.
      * constructor; [|].
        -- constructor; [done|]. apply Forall_forall. exact Hx.
        -- apply Forall_forall. intros z [->|Hz]%elem_of_cons; [done|by apply H5].
      * intros z w Hz Hw. cbn in Hw. apply elem_of_cons in Hw as [->|Hw]; [apply H3; [done|by left]|].
        apply elem_of_cons in Hw as [->|Hw]; [|apply H3; [done|by right]].
        eapply (tp_trans _ Hc); [|exact Ec]. apply H3; [done|by left].
Qed.

Lemma insertion_ok a p r b : sorted p →
  ∃ m, insertion_sort cmp (length a) (length a + length p) (length r) (a ++ (p ++ r) ++ b) = Some (a ++ m ++ b) ∧
       p ++ r ≡ₚ m ∧ sorted m.
Proof using Hc.
  revert p. induction r as [|x r IH]; intros p Hs; cbn.
  - exists p. by rewrite app_nil_r.
  - replace (length a + length p - length a) with (length p) by lia.
    destruct (sift_ok p x [] a (r ++ b)) as (m & Hm & Hp & Hsm).
    { by rewrite app_nil_r. } { intros y []%elem_of_nil. }
    replace (a ++ (p ++ x :: r) ++ b) with (a ++ (p ++ [x]) ++ r ++ b) by (repeat (rewrite <- ?app_assoc; cbn); done).
    rewrite Hm. cbn. destruct (IH m Hsm) as (m' & Hm' & Hp' & Hs').
    exists m'. split; [|split; [|done]].
    + rewrite <- Hm'. f_equal; [|by rewrite <- !app_assoc].
      assert (length m = S (length p)) as -> by (rewrite <- Hp, app_length; cbn; lia). lia.
    + rewrite <- Hp', <- Hp. by rewrite <- app_assoc.
Qed.

(** ** Partition *)
Lemma partition_loop_ok pv a b lo hi r :
  Forall (λ x, le x pv) lo → Forall (λ x, le pv x) hi →
  ∃ lo' hi', partition_loop cmp pv (length a + length lo) (length a + length lo + length hi) (length r)
     (a ++ (lo ++ hi ++ r) ++ b) = Some (a ++ (lo' ++ hi') ++ b, length a + length lo') ∧
    lo ++ hi ++ r ≡ₚ lo' ++ hi' ∧ Forall (λ x, le x pv) lo' ∧ Forall (λ x, le pv x) hi' ∧
    (hi = [] → Forall (λ x, le x pv) r → hi' = []).
Proof using Hc.
  revert lo hi. induction r as [|x r IH]; intros lo hi Hlo Hhi.
  { cbn. exists lo, hi. rewrite app_nil_r. done. }
  cbn [length partition_loop].
  replace ((a ++ (lo ++ hi ++ x :: r) ++ b) !! (length a + length lo + length hi)) with (Some x).
  2: { symmetry. replace (a ++ (lo ++ hi ++ x :: r) ++ b) with ((a ++ lo ++ hi) ++ x :: r ++ b)
         by (repeat (rewrite <- ?app_assoc; cbn); done).
       apply list_lookup_middle. rewrite !app_length. lia. }
  cbn [mbind option_bind].
  assert (le x pv → ∃ lo' hi',
    (l' ← try_swap (a ++ (lo ++ hi ++ x :: r) ++ b) (length a + length lo) (length a + length lo + length hi);
     partition_loop cmp pv (S (length a + length lo)) (S (length a + length lo + length hi)) (length r) l') =
      Some (a ++ (lo' ++ hi') ++ b, length a + length lo') ∧
    lo ++ hi ++ x :: r ≡ₚ lo' ++ hi' ∧ Forall (λ x, le x pv) lo' ∧ Forall (λ x, le pv x) hi' ∧
    (hi = [] → Forall (λ x, le x pv) (x :: r) → hi' = [])) as Hle.
  { intros Hx. destruct hi as [|h hi].
    - cbn [app length]. rewrite Nat.add_0_r. rewrite (try_swap_eq _ _ x).
      2: { replace (a ++ (lo ++ x :: r) ++ b) with ((a ++ lo) ++ x :: r ++ b)
             by (repeat (rewrite <- ?app_assoc; cbn); done).
           apply list_lookup_middle. rewrite !app_length. lia. }
      cbn [mbind option_bind].
      destruct (IH (lo ++ [x]) []) as (lo' & hi' & H1 & H2 & H3 & H4 & H5).
      { apply Forall_app. split; [done|by apply Forall_singleton]. } { done. }
      exists lo', hi'. rewrite <- H1. split.
      { f_equal; [rewrite app_length; cbn; lia..|]. repeat (rewrite <- ?app_assoc; cbn). done. }
      split; [rewrite <- H2; by rewrite <- app_assoc|]. split; [done|]. split; [done|].
      intros _ Hr. inversion Hr; subst. by apply H5.
    - pose proof (try_swap_app (a ++ lo) h hi x (r ++ b)) as Hsw. rewrite app_length in Hsw.
      replace (a ++ (lo ++ (h :: hi) ++ x :: r) ++ b) with ((a ++ lo) ++ h :: hi ++ x :: r ++ b)
         by (repeat (rewrite <- ?app_assoc; cbn); done).
      cbn [length]. rewrite Hsw. cbn [mbind option_bind].
      destruct (IH (lo ++ [x]) (hi ++ [h])) as (lo' & hi' & H1 & H2 & H3 & H4 & H5).
      { apply Forall_app. split; [done|by apply Forall_singleton]. }
      { inversion Hhi; subst. apply Forall_app. split; [done|by apply Forall_singleton]. }
      exists lo', hi'. rewrite <- H1. split.
      { f_equal; [rewrite !app_length; cbn; lia..|]. repeat (rewrite <- ?app_assoc; cbn). done. }
      split; [|split; [done|split; done]].
      rewrite <- H2. rewrite <- !app_assoc. apply Permutation_app_head. cbn.
      rewrite <- (Permutation_middle (h :: hi) r x). cbn. constructor. by rewrite <- Permutation_middle. }
  destruct (cmp x pv) eqn:E; [apply Hle; done|apply Hle; done|]. clear Hle.
  destruct (IH lo (hi ++ [x])) as (lo' & hi' & H1 & H2 & H3 & H4 & H5).
  { done. } { apply Forall_app. split; [done|]. apply Forall_singleton. by apply le_total. }
  exists lo', hi'. rewrite <- H1. split.
  { f_equal; [rewrite app_length; cbn; lia|]. repeat (rewrite <- ?app_assoc; cbn). done. }
  split; [rewrite <- H2; by rewrite <- !app_assoc|]. split; [done|]. split; [done|].
  intros -> Hr. inversion Hr; subst. done.
Qed.

Lemma partition_ok a m pv b :
  ∃ lo hi, partition cmp (length a) (length a + length (m ++ [pv])) (a ++ (m ++ [pv]) ++ b) =
     Some (a ++ (lo ++ pv :: hi) ++ b, length a + length lo) ∧
    m ++ [pv] ≡ₚ lo ++ pv :: hi ∧ Forall (λ x, le x pv) lo ∧ Forall (λ x, le pv x) hi ∧
    (Forall (λ x, le x pv) m → hi = []).
Proof using Hc.
  unfold partition. rewrite app_length. cbn [length].
  replace (length a + (length m + 1) - 1) with (length a + length m) by lia.
  replace ((a ++ (m ++ [pv]) ++ b) !! (length a + length m)) with (Some pv).
  2: { symmetry. replace (a ++ (m ++ [pv]) ++ b) with ((a ++ m) ++ pv :: b)
         by (repeat (rewrite <- ?app_assoc; cbn); done).
       apply list_lookup_middle. rewrite !app_length. lia. }
  cbn [mbind option_bind]. replace (length a + length m - length a) with (length m) by lia.
  destruct (partition_loop_ok pv a (pv :: b) [] [] m) as (lo & hi & H1 & H2 & H3 & H4 & H5); [done..|].
  cbn [length app] in H1. rewrite !Nat.add_0_r in H1. cbn [app] in H2.
  replace (a ++ (m ++ [pv]) ++ b) with (a ++ m ++ pv :: b) by (repeat (rewrite <- ?app_assoc; cbn); done).
  rewrite H1. cbn [mbind option_bind].
  assert (length m = length lo + length hi) as Hlen by (rewrite <- app_length; by rewrite H2).
  destruct hi as [|h hi].
  - cbn in Hlen. rewrite Hlen, Nat.add_0_r. rewrite (try_swap_eq _ _ pv).
    2: { replace (a ++ (lo ++ []) ++ pv :: b) with ((a ++ lo) ++ pv :: b)
         by (rewrite app_nil_r; repeat (rewrite <- ?app_assoc; cbn); done).
       apply list_lookup_middle. rewrite !app_length. lia. }
    cbn. exists lo, []. rewrite app_nil_r in *. split; [repeat (rewrite <- ?app_assoc; cbn); done|].
    split; [by rewrite H2|]. by split_and!.
  - pose proof (try_swap_app (a ++ lo) h hi pv b) as Hsw. rewrite app_length in Hsw.
    replace (a ++ (lo ++ h :: hi) ++ pv :: b) with ((a ++ lo) ++ h :: hi ++ pv :: b)
         by (repeat (rewrite <- ?app_assoc; cbn); done).
    replace (length a + length m) with (length a + length lo + S (length hi)) by (rewrite Hlen; cbn; lia).
    rewrite Hsw. cbn. exists lo, (hi ++ [h]). split; [repeat (rewrite <- ?app_assoc; cbn); done|]. split.
    { rewrite H2. rewrite <- app_assoc. apply Permutation_app_head. cbn.
      rewrite (Permutation_app_comm hi [pv]), (Permutation_app_comm hi [h]). cbn. constructor. }
    split; [done|]. split; [inversion H4; subst; apply Forall_app; split; [done|by apply Forall_singleton]|].
    intros Hm. specialize (H5 eq_refl Hm). done.
Qed.

Lemma median3_in v1 v2 v3 : median3 cmp v1 v2 v3 = v1 ∨ median3 cmp v1 v2 v3 = v2 ∨ median3 cmp v1 v2 v3 = v3.
Proof using.
  unfold median3. destruct (is_lt (cmp v2.2 v1.2)); cbn.
  - destruct (is_lt (cmp v3.2 v2.2)); cbn; destruct (is_lt (cmp _ _)); auto.
  - destruct (is_lt (cmp v3.2 v1.2)); cbn; destruct (is_lt (cmp _ _)); auto.
Qed.
Lemma random_in rnd k s e : s < e → ∃ i, random_range rnd k s e = s + i ∧ i < e - s.
Proof using. intros H. unfold random_range. eexists. split; [done|]. apply Nat.mod_upper_bound. lia. Qed.

Lemma randomized_ok rnd k a m b : m ≠ [] →
  ∃ lo pv hi, randomized_partition cmp rnd k (length a) (length a + length m) (a ++ m ++ b) =
     Some (a ++ (lo ++ pv :: hi) ++ b, length a + length lo) ∧
    m ≡ₚ lo ++ pv :: hi ∧ Forall (λ x, le x pv) lo ∧ Forall (λ x, le pv x) hi ∧
    (∀ i x, m !! i = Some x → (∀ y, y ∈ m → le y x) →
       rnd k = i → rnd (k + 1) = i → rnd (k + 2) = i → hi = []).
Proof using Hc.
  intros Hm. assert (0 < length m) as Hlen by (destruct m; [done|cbn; lia]). unfold randomized_partition.
  destruct (random_in rnd k (length a) (length a + length m)) as (i1 & E1 & L1); [lia|].
  destruct (random_in rnd (k + 1) (length a) (length a + length m)) as (i2 & E2 & L2); [lia|].
  destruct (random_in rnd (k + 2) (length a) (length a + length m)) as (i3 & E3 & L3); [lia|].
  assert (∀ i, i < length a + length m - length a → (a ++ m ++ b) !! (length a + i) = m !! i) as Hl.
  { intros i Hi. rewrite lookup_app_r by lia. replace (length a + i - length a) with i by lia.
    rewrite lookup_app_l by lia. done. }
  rewrite E1, E2, E3, !Hl by done.
  destruct (lookup_lt_is_Some_2 m i1 ltac:(lia)) as [v1 V1]. destruct (lookup_lt_is_Some_2 m i2 ltac:(lia)) as [v2 V2].
  destruct (lookup_lt_is_Some_2 m i3 ltac:(lia)) as [v3 V3]. rewrite V1, V2, V3. cbn [mbind option_bind].
  assert (∃ i v, median3 cmp (length a + i1, v1) (length a + i2, v2) (length a + i3, v3) = (length a + i, v) ∧
     m !! i = Some v ∧ i < length m ∧ (i = i1 ∨ i = i2 ∨ i = i3)) as (i & v & -> & Hi & Li & Hor).
  { destruct (median3_in (length a + i1, v1) (length a + i2, v2) (length a + i3, v3)) as [-> |[-> | ->]].
    - exists i1, v1. split_and!; auto; lia.
    - exists i2, v2. split_and!; auto; lia.
    - exists i3, v3. split_and!; auto; lia. }
  cbn [fst]. replace (length a + length m - 1) with (length a + (length m - 1)) by lia.
  destruct (try_swap_seg a m b (length m - 1) i) as (m' & Hsw & Hp & Hlast); [lia|done|].
  rewrite Hsw. cbn [mbind option_bind].
  destruct m' as [|pv m'] using rev_ind; [apply Permutation_length in Hp; cbn in Hp; lia|]. clear IHm'.
  assert (length m = length m' + 1) as Hl' by (rewrite (Permutation_length Hp), app_length; done).
  assert (pv = v) as ->.
  { rewrite Hi in Hlast. replace (length m - 1) with (length m') in Hlast by lia.
    rewrite list_lookup_middle in Hlast by done. by injection Hlast. }
  destruct (partition_ok a m' v b) as (lo & hi & H1 & H2 & H3 & H4 & H5).
  exists lo, v, hi. replace (length a + length m) with (length a + length (m' ++ [v])) by (rewrite app_length; cbn; lia).
  split; [exact H1|]. split; [by rewrite Hp|]. split; [done|]. split; [done|].
  intros j x Hj Hmax R1 R2 R3. apply H5. apply Forall_forall. intros y Hy.
  assert (i = j) as ->.
  { unfold random_range in *. assert (j < length m) as Lj by (by eapply lookup_lt_Some).
    replace (length a + length m - length a) with (length m) in * by lia.
    rewrite R1 in E1. rewrite R2 in E2. rewrite R3 in E3. rewrite Nat.mod_small in E1, E2, E3 by done. lia. }
  rewrite Hi in Hj. injection Hj as ->. apply Hmax. rewrite Hp. apply elem_of_app. by left.
Qed.

(** ** Quicksort *)
Definition seg_sorted (s max : nat) (m : list T) : Prop :=
  ∀ i j x y, s + i < max → i < j → m !! i = Some x → m !! j = Some y → le x y.
Lemma sorted_lookup m i j x y : sorted m → i < j → m !! i = Some x → m !! j = Some y → le x y.
Proof using.
  intros Hs Hij Hi Hj. pose proof (take_drop_middle _ _ _ Hi) as E. rewrite <- E in Hs.
  apply SSorted_app in Hs as (_ & Hs & _). inversion Hs as [|? ? _ Hf]; subst. rewrite Forall_forall in Hf. apply Hf.
  apply (elem_of_list_lookup_2 _ (j - S i)). rewrite lookup_drop. rewrite <- Hj. f_equal. lia.
Qed.

Lemma quicksort_ok f rnd k a m b max :
  match quicksort cmp f rnd k (length a) (length a + length m) max (a ++ m ++ b) with
  | Done (l', k') => ∃ m', l' = a ++ m' ++ b ∧ m ≡ₚ m' ∧ seg_sorted (length a) max m' ∧ k ≤ k'
  | Failed => False
  | NoFuel => True
  end.
Proof using Hc.
  revert k a m b. induction f as [|f IH]; intros k a m b; [done|]. cbn [quicksort].
  replace (length a + length m - length a) with (length m) by lia.
  destruct (decide (1 < length m)) as [H1|H1].
  2: { exists m. split_and!; [done|done| |done]. intros i j x y _ Hij Hi Hj.
       apply lookup_lt_Some in Hj. lia. }
  destruct (decide (length m ≤ 20)) as [H20|H20].
  { destruct (insertion_ok a [] m b) as (m' & H & Hp & Hs); [constructor|].
    cbn [length app] in H, Hp. rewrite Nat.add_0_r in H. rewrite H. exists m'. split_and!; [done|done| |done].
    intros i j x y _. by apply sorted_lookup. }
  destruct (randomized_ok rnd k a m b) as (lo & pv & hi & Hr & Hp & Hlo & Hhi & _); [by intros ->; cbn in H1; lia|].
  rewrite Hr.
  pose proof (IH (k + 3) a lo ((pv :: hi) ++ b)) as IH1.
  replace (a ++ (lo ++ pv :: hi) ++ b) with (a ++ lo ++ (pv :: hi) ++ b) by (by rewrite <- app_assoc).
  destruct (quicksort cmp f rnd (k + 3) (length a) (length a + length lo) max (a ++ lo ++ (pv :: hi) ++ b)) as [[l2 k2]| |];
    [|done|done].
  destruct IH1 as (lo' & -> & Hplo & Hslo & Hk).
  assert (∀ x y, x ∈ lo' → y ∈ pv :: hi → le x y) as Hlh.
  { intros x y Hx Hy. rewrite Forall_forall in Hlo, Hhi. rewrite <- Hplo in Hx.
    apply elem_of_cons in Hy as [->|Hy]; [by apply Hlo|]. eapply (tp_trans _ Hc); [by apply Hlo|by apply Hhi]. }
  assert (length lo = length lo') as Hll by (by rewrite Hplo).
  assert (∀ hi', pv :: hi ≡ₚ hi' → (length a + length lo < max → seg_sorted (length a + length lo) max hi') →
     m ≡ₚ lo' ++ hi' ∧ seg_sorted (length a) max (lo' ++ hi')) as Hfin.
  { intros hi' Hphi Hshi. split; [by rewrite Hp, Hplo, Hphi|].
    intros i j x y Hmax Hij Hi Hj. apply lookup_app_Some in Hi as [Hi|[Hli Hi]].
    - apply lookup_app_Some in Hj as [Hj|[Hlj Hj]].
      + by apply (Hslo i j).
      + apply Hlh; [by eapply elem_of_list_lookup_2|]. rewrite Hphi. by eapply elem_of_list_lookup_2.
    - apply lookup_app_Some in Hj as [Hj|[Hlj Hj]].
      + apply lookup_lt_Some in Hj. lia.
      + apply (Hshi ltac:(lia) (i - length lo') (j - length lo')); [lia|lia|done|done]. }
  destruct (decide (length a + length lo < max)) as [Hq|Hq].
  - pose proof (IH k2 (a ++ lo') (pv :: hi) b) as IH2.
    replace (length (a ++ lo')) with (length a + length lo) in IH2 by (rewrite app_length; lia).
    replace (length a + length lo + length (pv :: hi)) with (length a + length m) in IH2
      by (rewrite Hp, app_length; cbn; lia).
    replace ((a ++ lo') ++ (pv :: hi) ++ b) with (a ++ lo' ++ (pv :: hi) ++ b) in IH2 by (by rewrite <- app_assoc).
    destruct (quicksort cmp f rnd k2 (length a + length lo) (length a + length m) max _) as [[l3 k3]| |]; [|done|done].
    destruct IH2 as (hi' & -> & Hphi & Hshi & Hk3). destruct (Hfin hi' Hphi) as [F1 F2]; [done|].
    exists (lo' ++ hi'). split; [by rewrite <- !app_assoc|]. split; [done|]. split; [done|lia].
  - destruct (Hfin (pv :: hi)) as [F1 F2]; [done|done|].
    exists (lo' ++ pv :: hi). split; [by rewrite <- !app_assoc|]. split; [done|]. split; [done|lia].
Qed.

Lemma sort_first_ok f rnd l n :
  match sort_first_n_items cmp f rnd l n with
  | Done l' => l' ≡ₚ l ∧ first_sorted cmp n l' | Failed => False | NoFuel => True end.
Proof using Hc.
  unfold sort_first_n_items. destruct (decide (0 < length l)) as [H|H].
  - pose proof (quicksort_ok f rnd 0 [] l [] n) as Hq. cbn [length app] in Hq. rewrite Nat.add_0_l, app_nil_r in Hq.
    destruct (quicksort _ _ _ _ _ _ _ _) as [[l' k']| |]; [|done|done].
    destruct Hq as (m' & -> & Hp & Hs & _). rewrite app_nil_r. split; [done|].
    intros i j x y Hi Hij. by apply Hs.
  - split; [done|]. intros i j x y _ _ Hi. apply lookup_lt_Some in Hi. lia.
Qed.
Lemma sort_ok f rnd l :
  match sort cmp f rnd l with Done l' => l' ≡ₚ l ∧ ascending cmp l' | Failed => False | NoFuel => True end.
Proof using Hc.
  unfold sort. pose proof (sort_first_ok f rnd l (length l)) as H.
  destruct (sort_first_n_items _ _ _ _ _) as [l'| |]; [|done|done]. destruct H as [Hp Hs]. split; [done|].
  intros i j x y Hij Hi Hj. apply (Hs i j); [|done..]. rewrite <- Hp. by apply lookup_lt_Some in Hi.
Qed.

(** ** Termination *)
Lemma quicksort_mono f g rnd k s e max l r : f ≤ g → quicksort cmp f rnd k s e max l = Done r → quicksort cmp g rnd k s e max l = Done r.
Proof using.
  revert g k s e l r. induction f as [|f IH]; intros g k s e l r Hfg H; [done|]. destruct g as [|g]; [lia|].
  cbn [quicksort] in *. destruct (decide (1 < e - s)); [|done]. destruct (decide (e - s ≤ 20)); [done|].
  destruct (randomized_partition _ _ _ _ _ _) as [[l1 q]|]; [|done].
  destruct (quicksort cmp f rnd (k + 3) s q max l1) as [[l2 k2]| |] eqn:E; [|done|done].
  rewrite (IH g _ _ _ _ _ ltac:(lia) E). destruct (decide (q < max)); [|done]. apply IH; [lia|done].
Qed.
Lemma randomized_local rnd rnd' k s e l : (∀ i, i < k + 3 → rnd' i = rnd i) →
  randomized_partition cmp rnd' k s e l = randomized_partition cmp rnd k s e l.
Proof using. intros H. unfold randomized_partition, random_range. by rewrite !H by lia. Qed.
Lemma quicksort_k f rnd k s e max l l' k' : quicksort cmp f rnd k s e max l = Done (l', k') → k ≤ k'.
Proof using.
  revert k s e l l' k'. induction f as [|f IH]; intros k s e l l' k' H; [done|]. cbn [quicksort] in H.
  destruct (decide (1 < e - s)); [|by injection H as _ ->]. destruct (decide (e - s ≤ 20)).
  { destruct (insertion_sort _ _ _ _ _); [|done]. by injection H as _ ->. }
  destruct (randomized_partition _ _ _ _ _ _) as [[l1 q]|]; [|done].
  destruct (quicksort cmp f rnd (k + 3) s q max l1) as [[l2 k2]| |] eqn:E; [|done|done]. apply IH in E.
  destruct (decide (q < max)); [|injection H as _ ->; lia]. apply IH in H. lia.
Qed.
Lemma quicksort_local f rnd rnd' k s e max l l' k' : quicksort cmp f rnd k s e max l = Done (l', k') →
  (∀ i, i < k' → rnd' i = rnd i) → quicksort cmp f rnd' k s e max l = Done (l', k').
Proof using.
  revert k s e l l' k'. induction f as [|f IH]; intros k s e l l' k' H Ha; [done|]. cbn [quicksort] in *.
  destruct (decide (1 < e - s)); [|done]. destruct (decide (e - s ≤ 20)); [done|].
  destruct (randomized_partition cmp rnd _ _ _ _) as [[l1 q]|] eqn:E0; [|done].
  destruct (quicksort cmp f rnd (k + 3) s q max l1) as [[l2 k2]| |] eqn:E; [|done|done].
  assert (k + 3 ≤ k2 ∧ k2 ≤ k') as [Hk1 Hk2].
  { split; [by eapply quicksort_k|]. destruct (decide (q < max)); [by eapply quicksort_k|by injection H as _ ->]. }
  rewrite (randomized_local rnd) by (intros; apply Ha; lia). rewrite E0.
  rewrite (IH _ _ _ _ _ _ E) by (intros; apply Ha; lia). destruct (decide (q < max)); [|done]. by apply IH.
Qed.
Lemma max_exists (m : list T) : m ≠ [] → ∃ i x, m !! i = Some x ∧ ∀ y, y ∈ m → le y x.
Proof using Hc.
  induction m as [|z m IH]; [done|]. intros _. destruct m as [|w m].
  - exists 0, z. split; [done|]. intros y ->%elem_of_list_singleton. apply le_refl.
  - destruct IH as (i & x & Hi & Hx); [done|]. destruct (cmp z x) eqn:E.
    1,2: exists (S i), x; split; [done|]; intros y [->|Hy]%elem_of_cons; [by rewrite E|by apply Hx].
    exists 0, z. split; [done|]. intros y [->|Hy]%elem_of_cons; [apply le_refl|].
    eapply (tp_trans _ Hc); [by apply Hx|]. by apply le_total.
Qed.

Lemma quicksort_ends N sz K rnd k a m b max : K - k ≤ N → length m ≤ sz →
  ∃ rnd' f r, (∀ i, i < K ∨ i < k → rnd' i = rnd i) ∧
    quicksort cmp f rnd' k (length a) (length a + length m) max (a ++ m ++ b) = Done r.
Proof using Hc.
  revert sz K rnd k a m b. induction N as [N IHN] using lt_wf_ind. intros sz. induction sz as [sz IHsz] using lt_wf_ind.
  intros K rnd k a m b HN Hsz.
  destruct (decide (1 < length m)) as [H1|H1].
  2: { exists rnd, 1. eexists. split; [done|]. cbn [quicksort]. rewrite decide_False by lia. done. }
  destruct (decide (length m ≤ 20)) as [H20|H20].
  { destruct (insertion_ok a [] m b) as (m' & H & Hp & Hs); [constructor|].
    cbn [length app] in H. rewrite Nat.add_0_r in H.
    exists rnd, 1. eexists. split; [done|]. cbn [quicksort].
    replace (length a + length m - length a) with (length m) by lia. rewrite decide_True by lia. rewrite decide_True by lia.
    by rewrite H. }
  assert (m ≠ []) as Hm by (intros ->; cbn in H1; lia).
  destruct (decide (k < K)) as [HkK|HkK].
  - destruct (randomized_ok rnd k a m b Hm) as (lo & pv & hi & Hr & Hp & Hlo & Hhi & _).
    destruct (IHN (K - (k + 3)) ltac:(lia) (length lo) K rnd (k + 3) a lo ((pv :: hi) ++ b)) as (rnd1 & f1 & [l2 k2] & Hag1 & Hq1);
      [lia|done|].
    pose proof (quicksort_ok f1 rnd1 (k + 3) a lo ((pv :: hi) ++ b) max) as Hok. rewrite Hq1 in Hok.
    destruct Hok as (lo' & -> & Hplo & _ & Hk2).
    assert (length lo = length lo') as Hll by (by rewrite Hplo).
    destruct (IHN (K - k2) ltac:(lia) (length (pv :: hi)) (K `max` k2) rnd1 k2 (a ++ lo') (pv :: hi) b)
      as (rnd2 & f2 & r3 & Hag2 & Hq2); [lia|done|].
    exists rnd2, (S (f1 `max` f2)).
    assert (∀ i, i < K ∨ i < k + 3 → rnd2 i = rnd i) as Hag.
    { intros i Hi. rewrite Hag2 by lia. apply Hag1. lia. }
    assert (quicksort cmp (f1 `max` f2) rnd2 (k + 3) (length a) (length a + length lo) max (a ++ (lo ++ pv :: hi) ++ b) =
      Done (a ++ lo' ++ (pv :: hi) ++ b, k2)) as Hlow.
    { apply (quicksort_mono f1); [lia|]. apply (quicksort_local _ rnd1); [|intros i Hi; apply Hag2; lia].
      rewrite <- Hq1. by rewrite <- app_assoc. }
    eexists. split; [intros i Hi; apply Hag; lia|]. cbn [quicksort].
    replace (length a + length m - length a) with (length m) by lia. rewrite decide_True by lia. rewrite decide_False by lia.
    rewrite (randomized_local rnd) by (intros; apply Hag; lia). rewrite Hr, Hlow.
    instantiate (1 := if decide (length a + length lo < max) then r3 else (a ++ lo' ++ (pv :: hi) ++ b, k2)).
    destruct (decide (length a + length lo < max)); [|done]. apply (quicksort_mono f2); [lia|]. rewrite <- Hq2.
    f_equal; [rewrite app_length; lia|rewrite Hp, !app_length; cbn; lia|by rewrite <- app_assoc].
  - destruct (max_exists m Hm) as (i & x & Hi & Hx).
    set (rnd0 := λ j, if decide (j < k) then rnd j else i).
    assert (∀ j, j < k → rnd0 j = rnd j) as Hr0 by (intros j Hj; unfold rnd0; by rewrite decide_True).
    assert (∀ j, k ≤ j → rnd0 j = i) as Hr1 by (intros j Hj; unfold rnd0; rewrite decide_False; [done|lia]).
    clearbody rnd0.
    destruct (randomized_ok rnd0 k a m b Hm) as (lo & pv & hi & Hr & Hp & Hlo & Hhi & Hmax).
    rewrite (Hmax i x Hi Hx) in * by (apply Hr1; lia). clear Hmax.
    assert (length m = length lo + 1) as Hlen by (rewrite Hp, app_length; done).
    destruct (IHsz (sz - 1) ltac:(lia) (k + 3) rnd0 (k + 3) a lo ([pv] ++ b)) as (rnd1 & f1 & [l2 k2] & Hag1 & Hq1); [lia|lia|].
    exists rnd1, (S f1). exists (l2, k2). split; [intros j Hj; rewrite Hag1 by lia; apply Hr0; lia|]. cbn [quicksort].
    replace (length a + length m - length a) with (length m) by lia. rewrite decide_True by lia. rewrite decide_False by lia.
    rewrite (randomized_local rnd0) by (intros; apply Hag1; lia). rewrite Hr.
    replace (a ++ (lo ++ [pv]) ++ b) with (a ++ lo ++ [pv] ++ b) by (by rewrite <- app_assoc). rewrite Hq1.
    destruct (decide (length a + length lo < max)); [|done].
    destruct f1 as [|f1]; [done|]. cbn [quicksort]. by rewrite decide_False by lia.
Qed.

Lemma sort_ends K rnd l n : ∃ rnd' f r, (∀ i, i < K → rnd' i = rnd i) ∧ sort_first_n_items cmp f rnd' l n = Done r.
Proof using Hc.
  destruct (quicksort_ends K (length l) K rnd 0 [] l [] n) as (rnd' & f & [r k'] & Ha & Hq); [lia|lia|].
  cbn [length app] in Hq. rewrite Nat.add_0_l, app_nil_r in Hq.
  exists rnd', f. unfold sort_first_n_items. destruct (decide (0 < length l)).
  - rewrite Hq. exists r. split; [|done]. intros i Hi. apply Ha. by left.
  - exists l. split; [|done]. intros i Hi. apply Ha. by left.
Qed.
Lemma sort_first_mono f g rnd l n r : f ≤ g → sort_first_n_items cmp f rnd l n = Done r → sort_first_n_items cmp g rnd l n = Done r.
Proof using.
  unfold sort_first_n_items. intros Hfg. destruct (decide (0 < length l)); [|done].
  destruct (quicksort cmp f _ _ _ _ _ _) as [[l' k']| |] eqn:E; [|done|done]. by rewrite (quicksort_mono f g _ _ _ _ _ _ _ Hfg E).
Qed.
End Proofs.
