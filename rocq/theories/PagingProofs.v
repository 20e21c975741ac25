From stdpp Require Import base list sorting.
From Coq Require Import NArith Lia.
From Verif Require Import QuickSort QuickSortSpec QuickSortProofs Paging PagingSpec.

Lemma dropN_drop {A} n (l : list A) : dropN n l = drop (N.to_nat n) l.
Proof.
  revert n. induction l as [|x l IH]; intros n; cbn; [by rewrite drop_nil|].
  destruct (N.eqb_spec n 0) as [->|Hn]; [done|]. rewrite IH.
  replace (N.to_nat n) with (S (N.to_nat (n - 1))) by lia. done.
Qed.
Lemma takeN_take {A} n (l : list A) : takeN n l = take (N.to_nat n) l.
Proof.
  revert n. induction l as [|x l IH]; intros n; cbn; [by rewrite take_nil|].
  destruct (N.eqb_spec n 0) as [->|Hn]; [done|]. rewrite IH.
  replace (N.to_nat n) with (S (N.to_nat (n - 1))) by lia. done.
Qed.
Lemma mapM_id_fmap {A} (l : list A) : mapM id (Some <$> l) = Some l.
Proof. induction l as [|x l IH]; [done|]. cbn. cbn in IH. by rewrite IH. Qed.
Lemma no_error_items {M} (l : list (option M)) : None ∉ l → ∃ ms, l = Some <$> ms.
Proof.
  induction l as [|[x|] l IH]; intros H.
  - by exists [].
  - apply not_elem_of_cons in H as [_ H]. destruct (IH H) as [ms ->]. by exists (x :: ms).
  - apply not_elem_of_cons in H as [H _]. done.
Qed.
Lemma no_error_iff {M} (l : list (option M)) : None ∉ l ↔ ∃ ms, l = Some <$> ms.
Proof. split; [apply no_error_items|]. intros [ms ->] H. apply elem_of_list_fmap in H as (? & [=] & _). Qed.

Section Proofs.
Context {M D : Type} (cmp : M → M → comparison) (desc : M → D) (Hc : total_preorder cmp).

Lemma ascending_sorted l : StronglySorted (λ x y, cmp x y ≠ Gt) l → ascending cmp l.
Proof using. intros H i j x y. by apply sorted_lookup. Qed.
Lemma ascending_exists l : ∃ l', Permutation l' l ∧ ascending cmp l'.
Proof using Hc.
  set (R := λ x y, cmp x y ≠ Gt).
  assert (∀ x y, Decision (R x y)) as Hd by (intros; unfold R; apply _).
  assert (Transitive R) by (intros x y z; apply (tp_trans _ Hc)).
  assert (Total R). { intros x y. unfold R. rewrite (tp_flip _ Hc x y). destruct (cmp x y); cbn; auto. }
  exists (merge_sort R l). split; [apply merge_sort_Permutation|]. apply ascending_sorted. by apply (StronglySorted_merge_sort R).
Qed.
Lemma extend_prefix n l : first_sorted cmp n l → ∃ l', Permutation l' l ∧ ascending cmp l' ∧ take n l' = take n l.
Proof using Hc.
  intros Hf. destruct (ascending_exists (drop n l)) as (r & Hr & Hs).
  assert (length (drop n l) = length r) as Hlr by (by rewrite Hr).
  exists (take n l ++ r). split; [by rewrite Hr, take_drop|]. split.
  - intros i j x y Hij Hi Hj.
    assert (∀ k z, (take n l ++ r) !! k = Some z → (k < n ∧ k < length l ∧ l !! k = Some z) ∨
       (n ≤ k ∧ r !! (k - n) = Some z ∧ z ∈ drop n l)) as Hk.
    { intros k z [Hz|[Hk Hz]]%lookup_app_Some.
      - left. pose proof (lookup_lt_Some _ _ _ Hz) as Hlt. rewrite take_length in Hlt.
        rewrite lookup_take in Hz by lia. split_and!; [lia|lia|done].
      - right. rewrite take_length in Hk, Hz. pose proof (lookup_lt_Some _ _ _ Hz) as Hlt. rewrite <- Hlr, drop_length in Hlt.
        replace (n `min` length l) with n in * by lia. split_and!; [done|done|]. rewrite <- Hr. by eapply elem_of_list_lookup_2. }
    destruct (Hk _ _ Hi) as [(Hi1 & Hi2 & Hi3)|(Hi1 & Hi2 & Hi3)].
    + destruct (Hk _ _ Hj) as [(Hj1 & Hj2 & Hj3)|(Hj1 & Hj2 & Hj3)].
      * by apply (Hf i j).
      * apply elem_of_list_lookup in Hj3 as [k Hk3]. rewrite lookup_drop in Hk3. apply (Hf i (n + k)); [done|lia|done|done].
    + destruct (Hk _ _ Hj) as [(Hj1 & Hj2 & Hj3)|(Hj1 & Hj2 & Hj3)]; [lia|].
      apply (Hs (i - n) (j - n)); [lia|done|done].
  - destruct (decide (n ≤ length l)).
    + rewrite take_app_alt; [done|]. rewrite take_length. lia.
    + rewrite (take_ge l) by lia. assert (r = []) as ->; [|by rewrite app_nil_r, take_ge by lia].
      apply length_zero_iff_nil. rewrite <- Hlr, drop_length. lia.
Qed.

Lemma page_prefix {A} (o : N) (n : N) (k : nat) (l l' : list A) : (N.to_nat o + N.to_nat n ≤ k)%nat →
  take k l = take k l' → page o (Some n) l = page o (Some n) l'.
Proof using.
  intros Hk Ht. unfold page. rewrite !take_drop_commute.
  replace (take (N.to_nat o + N.to_nat n) l) with (take (N.to_nat o + N.to_nat n) (take k l))
    by (rewrite take_take; f_equal; lia).
  rewrite Ht, take_take. f_equal. f_equal. lia.
Qed.

Definition bounded (o : N) (lim : option N) : Prop := match lim with Some n => (o + n < 2 ^ 64)%N | None => True end.

Lemma iterator_ok f rnd c o lim : no_error c → bounded o lim →
  match find_iterator cmp f rnd c o lim with
  | Done it => ∃ full l, it = Some <$> l ∧ ordered_matches cmp c full ∧ length l = length full ∧ page o lim l = page o lim full
  | Failed => False | NoFuel => True end.
Proof using Hc.
  intros He Hb. unfold find_iterator, ordered_matches. apply no_error_items in He as [ms Hms].
  destruct (s_direct c); [by exists ms, ms|]. rewrite Hms, mapM_id_fmap.
  pose proof (sort_first_ok cmp Hc f rnd ms (sort_size o lim (length ms))) as Hs.
  destruct (sort_first_n_items _ _ _ _ _) as [l| |]; [|done|done]. destruct Hs as [Hp Hs].
  destruct (extend_prefix _ _ Hs) as (full & Hf1 & Hf2 & Hf3).
  exists full, l. split; [done|]. split; [exists ms; split_and!; [done|by rewrite Hf1|done]|]. split; [by rewrite Hf1|].
  unfold sort_size in Hf3. destruct lim as [n|].
  - cbn in Hb. rewrite N.mod_small in Hf3 by done. symmetry. eapply page_prefix; [|exact Hf3]. lia.
  - cbn. f_equal. rewrite !take_ge in Hf3; [done|by rewrite Hp|by rewrite Hf1, Hp].
Qed.

Lemma single_ok f rnd c o lim : no_error c → bounded o lim →
  match find_single cmp desc f rnd c o lim with
  | Done (r, sk) => ∃ full, ordered_matches cmp c full ∧ r = desc <$> page o lim full ∧ sk = N.min o (N.of_nat (length full))
  | Failed => False | NoFuel => True end.
Proof using Hc.
  intros He Hb. unfold find_single. pose proof (iterator_ok f rnd c o lim He Hb) as H.
  destruct (find_iterator _ _ _ _ _ _) as [it| |]; [|done|done]. destruct H as (full & l & -> & Hf & Hl & Hp).
  rewrite dropN_drop, <- fmap_drop.
  assert ((match lim with Some n => takeN n (Some <$> drop (N.to_nat o) l) | None => Some <$> drop (N.to_nat o) l end) =
     Some <$> page o lim l) as ->.
  { unfold page. destruct lim; [|done]. by rewrite takeN_take, fmap_take. }
  rewrite mapM_id_fmap. exists full. split; [done|]. rewrite Hp. split; [done|]. by rewrite fmap_length, Hl.
Qed.

Lemma ordered_exists c : no_error c → ∃ full, ordered_matches cmp c full.
Proof using Hc.
  intros [ms Hms]%no_error_items. unfold ordered_matches. destruct (s_direct c); [by exists ms|].
  destruct (ascending_exists ms) as (l & H1 & H2). by exists l, ms.
Qed.
Lemma ordered_exists_all cs : Forall no_error cs → ∃ fulls, Forall2 (ordered_matches cmp) cs fulls.
Proof using Hc.
  induction 1 as [|c cs Hn _ [fulls IH]]; [by exists []; constructor|].
  destruct (ordered_exists c Hn) as [full Hf]. exists (full :: fulls). by constructor.
Qed.

(** One round of the loop *)
Lemma page_app (o : N) lim (L full : list M) cur :
  cur = (o - N.of_nat (length L))%N →
  desc <$> page o lim (L ++ full) =
  match lim with
  | Some n => let remaining := (n - N.of_nat (length (desc <$> page o lim L)))%N in
              if (N.of_nat (length (desc <$> page cur lim full)) <=? remaining)%N then (desc <$> page o lim L) ++ (desc <$> page cur lim full)
              else (desc <$> page o lim L) ++ takeN remaining (desc <$> page cur lim full)
  | None => (desc <$> page o lim L) ++ (desc <$> page cur lim full)
  end.
Proof using.
  intros ->. unfold page. replace (N.to_nat (o - N.of_nat (length L))) with (N.to_nat o - length L) by lia.
  assert (drop (N.to_nat o) (L ++ full) = drop (N.to_nat o) L ++ drop (N.to_nat o - length L) full) as Hd.
  { destruct (decide (N.to_nat o ≤ length L)).
    - rewrite drop_app_le by done. replace (N.to_nat o - length L) with 0 by lia. done.
    - rewrite drop_app_ge by lia. by rewrite (drop_ge L) by lia. }
  rewrite Hd. destruct lim as [n|]; [|by rewrite fmap_app].
  set (X := drop (N.to_nat o) L). set (Y := drop (N.to_nat o - length L) full). clearbody X Y. clear Hd.
  assert (take (N.to_nat n) (X ++ Y) = take (N.to_nat n) X ++ take (N.to_nat n - length (take (N.to_nat n) X)) Y) as Ht.
  { rewrite take_length. destruct (decide (N.to_nat n ≤ length X)).
    - rewrite take_app_le by done. replace (N.to_nat n - N.to_nat n `min` length X) with 0 by lia. by rewrite app_nil_r.
    - rewrite take_app_ge by lia. rewrite (take_ge X) by lia. f_equal. f_equal. lia. }
  rewrite Ht, fmap_app. cbv zeta.
  assert (fmap desc (take (N.to_nat n - length (take (N.to_nat n) X)) Y) =
     takeN (n - N.of_nat (length (desc <$> take (N.to_nat n) X)))%N (desc <$> take (N.to_nat n) Y)) as Hy.
  { rewrite takeN_take, <- fmap_take, take_take, fmap_length. f_equal. f_equal. lia. }
  destruct (N.leb_spec (N.of_nat (length (desc <$> take (N.to_nat n) Y)))
     (n - N.of_nat (length (desc <$> take (N.to_nat n) X)))) as [Hle|Hgt]; [|by rewrite Hy].
  f_equal. rewrite Hy, takeN_take, take_ge; [done|lia].
Qed.

Lemma loop_ok f rnds k o lim cs L cur : Forall no_error cs → bounded o lim → cur = (o - N.of_nat (length L))%N →
  match find_loop cmp desc f rnds k o lim cur (desc <$> page o lim L) cs with
  | Done r => ∃ fulls, Forall2 (ordered_matches cmp) cs fulls ∧ r = desc <$> page o lim (L ++ mjoin fulls)
  | Failed => False | NoFuel => True end.
Proof using Hc.
  revert k L cur. induction cs as [|c cs IH]; intros k L cur Hne Hb Hcur.
  { cbn. exists []. split; [constructor|]. cbn. by rewrite app_nil_r. }
  inversion Hne as [|? ? Hn1 Hn2]; subst. cbn [find_loop].
  set (cur := (o - N.of_nat (length L))%N).
  assert (bounded cur lim) as Hb' by (unfold cur; destruct lim; cbn in *; [lia|done]).
  pose proof (single_ok f (rnds k) c cur lim Hn1 Hb') as Hs.
  destruct (find_single _ _ _ _ _ _ _) as [[single sk]| |]; [|done|done]. destruct Hs as (full & Hfull & -> & ->).
  cbv zeta. pose proof (page_app o lim L full cur eq_refl) as Hpa. cbv zeta in Hpa. rewrite <- Hpa. clear Hpa.
  match goal with |- context [if ?b then Done _ else _] => destruct b eqn:Eb end.
  - destruct (ordered_exists_all cs Hn2) as [fulls Hfs]. exists (full :: fulls). split; [by constructor|].
    destruct lim as [n|]; [|done]. apply N.eqb_eq in Eb. cbn [mjoin list_join]. f_equal. rewrite app_assoc.
    unfold page in *. rewrite fmap_length, take_length in Eb.
    destruct (decide (N.to_nat o ≤ length (L ++ full))).
    + rewrite (drop_app_le _ (mjoin fulls)) by done. rewrite (take_app_le _ (mjoin fulls)); [done|lia].
    + rewrite drop_length in Eb. replace (N.to_nat n) with 0 by lia. by rewrite !take_0.
  - specialize (IH (S k) (L ++ full) (o - N.of_nat (length (L ++ full)))%N Hn2 Hb eq_refl).
    replace (if (N.min cur (N.of_nat (length full)) <? o)%N then (cur - N.min cur (N.of_nat (length full)))%N else 0%N)
      with (o - N.of_nat (length (L ++ full)))%N.
    2: { unfold cur. rewrite app_length. destruct (N.ltb_spec (N.min (o - N.of_nat (length L)) (N.of_nat (length full))) o); lia. }
    destruct (find_loop _ _ _ _ _ _ _ _ _ _) as [r| |]; [|done|done]. destruct IH as (fulls & Hfs & ->).
    exists (full :: fulls). split; [by constructor|]. cbn [mjoin list_join]. by rewrite <- app_assoc.
Qed.

Lemma find_ok f rnds cs o lim : Forall no_error cs → bounded o lim →
  match find cmp desc f rnds cs o lim with
  | Done r => ∃ fulls, Forall2 (ordered_matches cmp) cs fulls ∧ r = page o lim (desc <$> mjoin fulls)
  | Failed => False | NoFuel => True end.
Proof using Hc.
  intros Hn Hb. assert (∀ l : list M, desc <$> page o lim l = page o lim (desc <$> l)) as Hfp.
  { intros l. unfold page. destruct lim; by rewrite ?fmap_take, fmap_drop. }
  destruct cs as [|c [|c' cs]]; cbn [find].
  - exists []. split; [constructor|]. cbn. unfold page. destruct lim; by rewrite drop_nil, ?take_nil.
  - inversion Hn as [|? ? Hn1 _]; subst. pose proof (single_ok f (rnds 0) c o lim Hn1 Hb) as Hs.
    destruct (find_single _ _ _ _ _ _ _) as [[r sk]| |]; [|done|done]. destruct Hs as (full & Hfull & -> & _).
    exists [full]. split; [by repeat constructor|]. cbn. by rewrite app_nil_r, Hfp.
  - pose proof (loop_ok f rnds 0 o lim (c :: c' :: cs) [] o Hn Hb) as Hl.
    replace (desc <$> page o lim []) with (@nil D) in Hl.
    2: { unfold page. destruct lim; by rewrite drop_nil, ?take_nil. }
    specialize (Hl ltac:(cbn; lia)). destruct (find_loop _ _ _ _ _ _ _ _ _ _) as [r| |]; [|done|done].
    destruct Hl as (fulls & Hfs & ->). exists fulls. split; [done|]. by rewrite Hfp.
Qed.

(** ** The order is unique if the comparison tells different matches apart *)
Lemma ascending_head x l : ascending cmp (x :: l) → (∀ y, y ∈ l → cmp x y ≠ Gt) ∧ ascending cmp l.
Proof using.
  intros H. split.
  - intros y [i Hi]%elem_of_list_lookup. apply (H 0 (S i)); [lia|done|done].
  - intros i j y z Hij Hy Hz. apply (H (S i) (S j)); [lia|done|done].
Qed.
Lemma ascending_unique l l' : (∀ x y, x ∈ l → y ∈ l → cmp x y = Eq → x = y) → Permutation l l' →
  ascending cmp l → ascending cmp l' → l = l'.
Proof using Hc.
  revert l'. induction l as [|x l IH]; intros l' Hq Hp Ha Ha'; [by apply Permutation_nil in Hp|].
  destruct l' as [|x' l']; [by apply Permutation_sym, Permutation_nil in Hp|].
  apply ascending_head in Ha as [H1 H2], Ha' as [H1' H2'].
  assert (x = x') as <-.
  { assert (x' ∈ x :: l) as Hx' by (rewrite Hp; by left). assert (x ∈ x' :: l') as Hx by (rewrite <- Hp; by left).
    apply elem_of_cons in Hx' as [->|Hx']; [done|]. apply elem_of_cons in Hx as [->|Hx]; [done|].
    apply H1 in Hx'. apply H1' in Hx. apply Hq; [by left| |].
    - rewrite Hp. by left.
    - rewrite (tp_flip _ Hc x x') in Hx. by destruct (cmp x x'). }
  f_equal. apply Permutation_cons_inv in Hp. apply IH; [|done..]. intros y z Hy Hz. apply Hq; by right.
Qed.
Lemma ordered_unique c l l' :
  (∀ x y, Some x ∈ s_plan c → Some y ∈ s_plan c → cmp x y = Eq → x = y) →
  ordered_matches cmp c l → ordered_matches cmp c l' → l = l'.
Proof using Hc.
  intros Hq. unfold ordered_matches. destruct (s_direct c).
  - intros H1 H2. rewrite H1 in H2. apply (f_equal (mapM id)) in H2. rewrite !mapM_id_fmap in H2. by injection H2.
  - intros (ms & H1 & H2 & H3) (ms' & H1' & H2' & H3'). rewrite H1 in H1'. apply (f_equal (mapM id)) in H1'.
    rewrite !mapM_id_fmap in H1'. injection H1' as <-.
    apply ascending_unique; [|by rewrite H2, H2'|done|done].
    intros x y Hx Hy. apply Hq; rewrite H1; apply elem_of_list_fmap; eexists; (split; [done|]); by rewrite <- H2.
Qed.
Lemma ordered_unique_all cs fs fs' :
  Forall (λ c, ∀ x y, Some x ∈ s_plan c → Some y ∈ s_plan c → cmp x y = Eq → x = y) cs →
  Forall2 (ordered_matches cmp) cs fs → Forall2 (ordered_matches cmp) cs fs' → fs = fs'.
Proof using Hc.
  intros Hq H. revert fs'. induction H as [|c f cs fs H _ IH]; intros fs' H'; inversion H'; subst; [done|].
  inversion Hq; subst. f_equal; [by eapply ordered_unique|by apply IH].
Qed.

(** ** Count *)
Lemma fold_count (cs : list (search M)) n : fold_left (λ n c, n + N.of_nat (length (s_plan c)))%N cs n = (n + count cs)%N.
Proof using.
  unfold count. revert n. induction cs as [|c cs IH]; intros n; cbn [fold_left]; [lia|]. rewrite IH, (IH (0 + _)%N). lia.
Qed.
Lemma count_full cs fulls : Forall2 (ordered_matches cmp) cs fulls → count cs = N.of_nat (length (mjoin fulls)).
Proof using.
  induction 1 as [|c f cs fs H _ IH]; [done|]. unfold count. cbn [fold_left]. rewrite fold_count, IH. change (mjoin (f :: fs)) with (f ++ mjoin fs).
  rewrite app_length. assert (length (s_plan c) = length f) as ->; [|lia].
  unfold ordered_matches in H. destruct (s_direct c); [by rewrite H, fmap_length|].
  destruct H as (ms & -> & Hp & _). by rewrite fmap_length, Hp.
Qed.
Lemma count_find f rnds cs r : Forall no_error cs → find cmp desc f rnds cs 0 None = Done r → count cs = N.of_nat (length r).
Proof using Hc.
  intros Hn Hf. pose proof (find_ok f rnds cs 0 None Hn ltac:(done)) as H. rewrite Hf in H.
  destruct H as (fulls & H1 & ->). rewrite (count_full cs fulls H1). cbn. by rewrite drop_0, fmap_length.
Qed.

Lemma pages_join f1 f2 f3 r1 r2 r3 cs o n1 n2 p1 p2 p : Forall no_error cs →
  Forall (λ c, ∀ x y, Some x ∈ s_plan c → Some y ∈ s_plan c → cmp x y = Eq → x = y) cs →
  (o + n1 + n2 < 2 ^ 64)%N →
  find cmp desc f1 r1 cs o (Some n1) = Done p1 → find cmp desc f2 r2 cs (o + n1) (Some n2) = Done p2 →
  find cmp desc f3 r3 cs o (Some (n1 + n2)%N) = Done p → p = p1 ++ p2.
Proof using Hc.
  intros Hn Hq Hb H1 H2 H3.
  pose proof (find_ok f1 r1 cs o (Some n1) Hn ltac:(cbn; lia)) as K1. rewrite H1 in K1. destruct K1 as (l1 & L1 & ->).
  pose proof (find_ok f2 r2 cs (o + n1)%N (Some n2) Hn ltac:(cbn; lia)) as K2. rewrite H2 in K2. destruct K2 as (l2 & L2 & ->).
  pose proof (find_ok f3 r3 cs o (Some (n1 + n2)%N) Hn ltac:(cbn; lia)) as K3. rewrite H3 in K3. destruct K3 as (l3 & L3 & ->).
  rewrite (ordered_unique_all cs l2 l1 Hq L2 L1), (ordered_unique_all cs l3 l1 Hq L3 L1).
  set (l := desc <$> mjoin l1). clearbody l. unfold page. rewrite !N2Nat.inj_add.
  rewrite <- (drop_drop l (N.to_nat n1) (N.to_nat o)). set (X := drop (N.to_nat o) l).
  rewrite <- (take_drop (N.to_nat n1) (take (N.to_nat n1 + N.to_nat n2) X)). f_equal.
  - rewrite take_take. f_equal. lia.
  - rewrite skipn_firstn_comm. f_equal. lia.
Qed.
End Proofs.
Lemma mjoin_concat {A} (l : list (list A)) : mjoin l = concat l.
Proof. induction l as [|x l IH]; [done|]. cbn. by rewrite <- IH. Qed.
