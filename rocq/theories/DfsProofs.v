From stdpp Require Import base list gmap fin_sets.
From Coq Require Import NArith Lia.
From Verif Require Import SymbolTable SortedMap GraphSpec Dfs.

(** ** Walks *)
Section walks.
Context (E : N → N → Prop).
Lemma walk_app s p t q u : walk E s p t → walk E t q u → walk E s (p ++ q) u.
Proof.
  revert s. induction p as [|x p IH]; intros s; simpl; [by intros ->|]. intros [H1 H2] H3. split; [done|by apply IH].
Qed.
Lemma walk_app_inv s p q u : walk E s (p ++ q) u → ∃ t, walk E s p t ∧ walk E t q u.
Proof.
  revert s. induction p as [|x p IH]; intros s; simpl; [by eauto|]. intros [H1 H2].
  destruct (IH x H2) as (t & ? & ?). eauto.
Qed.
Lemma walk_last s p t : walk E s p t → last (s :: p) = Some t.
Proof.
  revert s. induction p as [|x p IH]; intros s; simpl; [by intros ->|]. intros [_ H]. by apply IH.
Qed.
Lemma walk_snoc s p t u : walk E s p t → E t u → walk E s (p ++ [u]) u.
Proof. intros H1 H2. eapply walk_app; [done|]. simpl. done. Qed.
(** Every walk can be shortened to a simple path. *)
Lemma walk_simple s p t : walk E s p t → ∃ q, simple_path E s q t ∧ length q ≤ length p ∧ ∀ x, x ∈ q → x ∈ p.
Proof.
  revert s. induction p as [|x p IH]; intros s; simpl.
  - intros ->. exists []. split; [split; [done|apply NoDup_singleton]|done].
  - intros [He H]. destruct (IH x H) as (q & [Hw Hnd] & Hl & Hsub).
    destruct (decide (s ∈ x :: q)) as [Hin|Hin].
    + apply elem_of_cons in Hin as [->|Hin].
      * exists q. split; [done|]. split; [lia|]. intros y ?. right. auto.
      * apply elem_of_list_split in Hin as (q1 & q2 & ->). exists q2. split; [split|].
        -- change (q1 ++ s :: q2) with (q1 ++ [s] ++ q2) in Hw. rewrite (assoc_L (++)) in Hw.
           apply walk_app_inv in Hw as (u & H1 & H2). apply walk_last in H1. rewrite app_comm_cons, last_snoc in H1.
           by injection H1 as ->.
        -- apply NoDup_cons in Hnd as [_ Hnd]. by apply NoDup_app in Hnd as (_ & _ & ?).
        -- rewrite app_length in Hl. simpl in Hl. split; [lia|]. intros y Hy. right. apply Hsub.
           apply elem_of_app. right. by right.
    + exists (x :: q). split; [split|].
      * done.
      * by constructor.
      * simpl. split; [lia|]. intros y [->|Hy]%elem_of_cons; [by left|right; auto].
Qed.
Lemma reachable_simple s t : reachable E s t ↔ ∃ p, simple_path E s p t.
Proof.
  split.
  - intros [p Hp]. destruct (walk_simple s p t Hp) as (q & ? & _). eauto.
  - intros (p & ? & _). by exists p.
Qed.
Lemma reachable_refl s : reachable E s s.
Proof. by exists []. Qed.
Lemma reachable_trans s t u : reachable E s t → reachable E t u → reachable E s u.
Proof. intros [p ?] [q ?]. exists (p ++ q). by eapply walk_app. Qed.
Lemma reachable_step s t u : reachable E s t → E t u → reachable E s u.
Proof. intros Hr He. eapply reachable_trans; [done|]. exists [u]. simpl. done. Qed.
End walks.

Lemma walk_reverse (E : N → N → Prop) s p t : walk E s p t →
  ∃ q, walk (λ a b, E b a) t q s ∧ length q = length p ∧ reverse (s :: p) = t :: q.
Proof.
  revert s. induction p as [|x p IH]; intros s; simpl.
  - intros ->. by exists [].
  - intros [He H]. destruct (IH x H) as (q & Hw & Hl & Hr). exists (q ++ [s]). split_and!.
    + by eapply walk_snoc.
    + rewrite app_length. simpl. lia.
    + rewrite (reverse_cons _ s), Hr. done.
Qed.
Lemma simple_path_reverse (E : N → N → Prop) s p t : simple_path E s p t →
  ∃ q, simple_path (λ a b, E b a) t q s ∧ length q = length p.
Proof.
  intros [Hw Hnd]. destruct (walk_reverse E s p t Hw) as (q & H1 & H2 & H3). exists q. split; [split; [done|]|done].
  rewrite <- H3. by rewrite (reverse_Permutation (s :: p)).
Qed.
Lemma walk_ext (E E' : N → N → Prop) s p t : (∀ a b, E a b → E' a b) → walk E s p t → walk E' s p t.
Proof.
  intros HE. revert s. induction p as [|x p IH]; intros s; simpl; [done|]. intros [? ?]. auto.
Qed.

(** ** The search *)
Section search.
Context (nb : N → list N) (min max : N) (Vs : gset N).
Context (Hclosed : ∀ a b, a ∈ Vs → b ∈ nb a → b ∈ Vs).
Notation E := (λ a b, b ∈ nb a).

Definition in_rng (d : nat) : bool := (min <=? N.of_nat d)%N && (N.of_nat d <=? max)%N.

(** What processing one stack entry yields. *)
Fixpoint enum (k : nat) (pre : list N) (node : N) : list (N * nat) :=
  match k with
  | 0 => []
  | S k' =>
      if decide (node ∈ pre) then []
      else (if in_rng (length pre) then [(node, length pre)] else []) ++
           (if (N.of_nat (length pre) <? max)%N
            then reverse (nb node) ≫= enum k' (pre ++ [node]) else [])
  end.
Fixpoint cyc (k : nat) (pre : list N) (node : N) : bool :=
  match k with
  | 0 => false
  | S k' =>
      if decide (node ∈ pre) then true
      else (N.of_nat (length pre) <? max)%N && existsb (cyc k' (pre ++ [node])) (reverse (nb node))
  end.

Definition fits_path (s : dfs) (pre : list N) : Prop :=
  d_in_path s = list_to_set (d_path s) ∧ NoDup (d_path s) ∧
  if decide (length pre ≤ d_last s) then take (length pre) (d_path s) = pre else d_path s = pre.

Lemma remove_all (l : list N) (X : gset N) :
  fold_left (λ (X : gset N) x, X ∖ {[x]}) l X = X ∖ list_to_set l.
Proof.
  revert X. induction l as [|x l IH]; intros X; simpl; [set_solver|]. rewrite IH. set_solver.
Qed.

Lemma leave_lemma s pre : fits_path s pre → dfs_leave s (length pre) = (pre, list_to_set pre).
Proof.
  intros (Hs & Hnd & Hp). unfold dfs_leave. destruct (decide _).
  - rewrite Hp, remove_all, Hs. f_equal.
    rewrite <- (take_drop (length pre) (d_path s)) in Hnd |- * at 1. rewrite Hp in Hnd |- *.
    apply NoDup_app in Hnd as (_ & Hd & _). apply set_eq. intros x.
    rewrite elem_of_difference, list_to_set_app, elem_of_union, !elem_of_list_to_set. naive_solver.
  - by rewrite Hs, Hp.
Qed.

Definition outs_app (l : list (N * nat)) (r : option (list (N * nat) * dfs)) :=
  match r with Some (l', s) => Some (l ++ l', s) | None => None end.
Lemma outs_app_app l1 l2 r : outs_app l1 (outs_app l2 r) = outs_app (l1 ++ l2) r.
Proof. destruct r as [[? ?]|]; simpl; [by rewrite (assoc_L (++))|done]. Qed.
Lemma outs_app_nil r : outs_app [] r = r.
Proof. by destruct r as [[? ?]|]. Qed.

Lemma big_step k : ∀ pre node s rest, size (Vs ∖ list_to_set pre) < k → node ∈ Vs → NoDup pre →
  d_stack s = (node, length pre) :: rest → fits_path s pre →
  ∃ n s', (∀ f, dfs_loop nb min max (n + f) s = outs_app (enum k pre node) (dfs_loop nb min max f s')) ∧
    d_stack s' = rest ∧ fits_path s' pre ∧ length pre ≤ d_last s' ∧ d_cycle s' = d_cycle s || cyc k pre node.
Proof.
  induction k as [|k IH]; intros pre node s rest Hk Hnode Hnd Hst Hf; [lia|].
  simpl enum. simpl cyc. destruct (decide (node ∈ pre)) as [Hin|Hin].
  - exists 1, (DFS rest pre (list_to_set pre) (length pre) true). split_and!.
    + intros f. simpl. rewrite Hst. unfold dfs_enter. rewrite (leave_lemma s pre Hf).
      rewrite decide_True by (by apply elem_of_list_to_set). rewrite outs_app_nil.
      by destruct (dfs_loop _ _ _ f _) as [[? ?]|].
    + done.
    + split_and!; [done|done|]. simpl. rewrite decide_True by done. apply take_ge. done.
    + simpl. lia.
    + simpl. by rewrite orb_true_r.
  - set (s1 := (dfs_enter nb min max s node (length pre) rest).1).
    assert (∀ f, dfs_loop nb min max (S f) s =
              outs_app (if in_rng (length pre) then [(node, length pre)] else []) (dfs_loop nb min max f s1)) as Hstep.
    { intros f. simpl. rewrite Hst. subst s1. unfold dfs_enter. rewrite (leave_lemma s pre Hf).
      rewrite decide_False by (by rewrite elem_of_list_to_set). cbn [fst].
      fold (in_rng (length pre)). destruct (dfs_loop _ _ _ f _) as [[? ?]|]; [|done]. simpl.
      by destruct (in_rng _). }
    assert (fits_path s1 (pre ++ [node]) ∧ d_last s1 = length pre ∧ d_cycle s1 = d_cycle s ∧
            d_stack s1 = (if (N.of_nat (length pre) <? max)%N
                 then reverse ((λ o, (o, S (length pre))) <$> nb node) ++ rest else rest) ∧
            d_path s1 = pre ++ [node] ∧ d_in_path s1 = list_to_set (pre ++ [node])) as (Hf1 & Hl1 & Hc1 & Hst1 & Hp1 & Hip1).
    { subst s1. unfold dfs_enter. rewrite (leave_lemma s pre Hf).
      rewrite decide_False by (by rewrite elem_of_list_to_set). simpl.
      assert ({[node]} ∪ list_to_set pre = list_to_set (pre ++ [node]) :> gset N) as Hset.
      { rewrite list_to_set_app_L. simpl. set_solver. }
      split_and!; try done. split_and!; simpl; [done| |].
      - apply NoDup_app. split_and!; [done| |apply NoDup_singleton]. intros x Hx ->%elem_of_list_singleton. done.
      - rewrite decide_False; [done|]. rewrite app_length. simpl. lia. }
    destruct (N.of_nat (length pre) <? max)%N eqn:Emax; simpl.
    + (* children *)
      assert (size (Vs ∖ list_to_set (pre ++ [node])) < k) as Hk1.
      { assert (size (Vs ∖ list_to_set (pre ++ [node])) < size (Vs ∖ list_to_set pre)); [|lia].
        apply subset_size. split.
        - intros x. rewrite !elem_of_difference, !elem_of_list_to_set, elem_of_app. tauto.
        - intros Hsub. assert (node ∈ Vs ∖ list_to_set (pre ++ [node])) as Hbad.
          { apply Hsub. rewrite elem_of_difference, elem_of_list_to_set. done. }
          rewrite elem_of_difference, elem_of_list_to_set, elem_of_app, elem_of_list_singleton in Hbad. tauto. }
      assert (NoDup (pre ++ [node])) as Hnd1.
      { apply NoDup_app. split_and!; [done| |apply NoDup_singleton]. intros x Hx ->%elem_of_list_singleton. done. }
      assert (∀ ch s2, (∀ o, o ∈ ch → o ∈ Vs) → fits_path s2 (pre ++ [node]) → length pre ≤ d_last s2 →
                take (length pre) (d_path s2) = pre →
                d_stack s2 = ((λ o, (o, S (length pre))) <$> ch) ++ rest →
                ∃ n s', (∀ f, dfs_loop nb min max (n + f) s2 =
                           outs_app (ch ≫= enum k (pre ++ [node])) (dfs_loop nb min max f s')) ∧
                  d_stack s' = rest ∧ fits_path s' pre ∧ length pre ≤ d_last s' ∧
                  d_cycle s' = d_cycle s2 || existsb (cyc k (pre ++ [node])) ch) as Hch.
      { induction ch as [|o ch IHch]; intros s2 Hch Hf2 Hl2 Ht2 Hs2.
        - exists 0, s2. split_and!.
          + intros f. simpl. by rewrite outs_app_nil.
          + done.
          + destruct Hf2 as (A & B & C). split_and!; [done|done|]. by rewrite decide_True by done.
          + done.
          + simpl. by rewrite orb_false_r.
        - destruct (IH (pre ++ [node]) o s2 (((λ o, (o, S (length pre))) <$> ch) ++ rest)) as (n1 & s3 & L1 & S1 & F1 & D1 & C1).
          { done. } { apply Hch. by left. } { done. }
          { rewrite Hs2, app_length. simpl. by rewrite Nat.add_1_r. } { done. }
          rewrite app_length in D1. simpl in D1.
          destruct (IHch s3) as (n2 & s4 & L2 & S2 & F2 & D2 & C2).
          { intros o' Ho'. apply Hch. by right. } { done. } { lia. }
          { destruct F1 as (A & B & C). rewrite app_length in C. simpl in C. rewrite decide_True in C by lia.
            assert (take (length pre) (take (length pre + 1) (d_path s3)) = pre) as Htt.
            { rewrite C. by rewrite take_app. }
            by rewrite take_take, Nat.min_l in Htt by lia. }
          { done. }
          exists (n1 + n2), s4. split_and!; [|done..|].
          + intros f. rewrite <- Nat.add_assoc, L1, L2, outs_app_app. done.
          + simpl. rewrite C2, C1, orb_assoc. done. }
      destruct (Hch (reverse (nb node)) s1) as (n & s' & L & S' & F & D & C).
      { intros o Ho. rewrite elem_of_reverse in Ho. by apply (Hclosed node). } { done. } { lia. }
      { by rewrite Hp1, take_app. } { rewrite Hst1. by rewrite fmap_reverse. }
      exists (S n), s'. split_and!; [|done..|].
      * intros f. change (S n + f) with (S (n + f)). rewrite Hstep, L, outs_app_app. done.
      * rewrite C, Hc1. done.
    + exists 1, s1. split_and!.
      * intros f. simpl plus. rewrite Hstep, app_nil_r. done.
      * done.
      * split_and!; [by rewrite Hip1, Hp1|by destruct Hf1 as (_ & ? & _)|]. rewrite Hl1, decide_True by done.
        by rewrite Hp1, take_app.
      * lia.
      * rewrite Hc1. by rewrite orb_false_r.
Qed.

Lemma enum_spec k : ∀ pre node, size (Vs ∖ list_to_set pre) < k → node ∈ Vs →
  ∀ m d, (m, d) ∈ enum k pre node ↔
    ∃ p, walk E node p m ∧ NoDup (node :: p) ∧ (∀ x, x ∈ node :: p → x ∉ pre) ∧ d = length pre + length p ∧ in_rng d = true.
Proof.
  induction k as [|k IH]; intros pre node Hk Hnode m d; [lia|]. simpl.
  destruct (decide (node ∈ pre)) as [Hin|Hin].
  { split; [by intros ?%elem_of_nil|]. intros (p & _ & _ & Hp & _). destruct (Hp node); [by left|done]. }
  rewrite elem_of_app.
  assert (size (Vs ∖ list_to_set (pre ++ [node])) < k) as Hk1.
  { assert (size (Vs ∖ list_to_set (pre ++ [node])) < size (Vs ∖ list_to_set pre)); [|lia].
    apply subset_size. split.
    - intros x. rewrite !elem_of_difference, !elem_of_list_to_set, elem_of_app. tauto.
    - intros Hsub. assert (node ∈ Vs ∖ list_to_set (pre ++ [node])) as Hbad.
      { apply Hsub. rewrite elem_of_difference, elem_of_list_to_set. done. }
      rewrite elem_of_difference, elem_of_list_to_set, elem_of_app, elem_of_list_singleton in Hbad. tauto. }
  split.
  - intros [H1|H2].
    + destruct (in_rng (length pre)) eqn:Er; [|by apply elem_of_nil in H1].
      apply elem_of_list_singleton in H1. injection H1 as -> ->. exists []. split_and!; [done|apply NoDup_singleton| |simpl; lia|done].
      intros x ->%elem_of_list_singleton. done.
    + destruct (N.of_nat (length pre) <? max)%N eqn:Em; [|by apply elem_of_nil in H2].
      apply elem_of_list_bind in H2 as (o & Ho & Hno). rewrite elem_of_reverse in Hno.
      apply IH in Ho as (p & Hw & Hnd & Hp & -> & Hr); [|done|by apply (Hclosed node)].
      exists (o :: p). split_and!.
      * done.
      * constructor; [|done]. intros Hx. apply (Hp node Hx). apply elem_of_app. right. by left.
      * intros x [->|Hx]%elem_of_cons; [done|]. intros Hpre. apply (Hp x Hx). apply elem_of_app. by left.
      * rewrite app_length. simpl. lia.
      * done.
  - intros (p & Hw & Hnd & Hp & -> & Hr). destruct p as [|o p].
    + left. simpl in Hw. subst m. rewrite Nat.add_0_r in *. rewrite Hr. by left.
    + right. destruct Hw as [He Hw]. assert (N.of_nat (length pre) <? max = true)%N as ->.
      { apply N.ltb_lt. apply andb_true_iff in Hr as [_ Hr%N.leb_le]. simpl in Hr. lia. }
      apply elem_of_list_bind. exists o. split; [|by rewrite elem_of_reverse].
      apply NoDup_cons in Hnd as [Hn1 Hnd].
      apply IH; [done|by apply (Hclosed node)|]. exists p. split_and!; [done|done| | |done].
      * intros x Hx [Hx'| ->%elem_of_list_singleton]%elem_of_app; [|done]. apply (Hp x); [by right|done].
      * rewrite app_length. simpl. lia.
Qed.

Lemma cyc_spec k : ∀ pre node, size (Vs ∖ list_to_set pre) < k → node ∈ Vs →
  cyc k pre node = true ↔
    node ∈ pre ∨ ∃ p x y, walk E node p x ∧ NoDup (node :: p) ∧ (∀ x, x ∈ node :: p → x ∉ pre) ∧
       (N.of_nat (length pre + length p) < max)%N ∧ y ∈ nb x ∧ (y ∈ pre ∨ y ∈ node :: p).
Proof.
  induction k as [|k IH]; intros pre node Hk Hnode; [lia|]. simpl.
  destruct (decide (node ∈ pre)) as [Hin|Hin]; [tauto|].
  assert (size (Vs ∖ list_to_set (pre ++ [node])) < k) as Hk1.
  { assert (size (Vs ∖ list_to_set (pre ++ [node])) < size (Vs ∖ list_to_set pre)); [|lia].
    apply subset_size. split.
    - intros x. rewrite !elem_of_difference, !elem_of_list_to_set, elem_of_app. tauto.
    - intros Hsub. assert (node ∈ Vs ∖ list_to_set (pre ++ [node])) as Hbad.
      { apply Hsub. rewrite elem_of_difference, elem_of_list_to_set. done. }
      rewrite elem_of_difference, elem_of_list_to_set, elem_of_app, elem_of_list_singleton in Hbad. tauto. }
  rewrite andb_true_iff, N.ltb_lt, existsb_exists. split.
  - intros [Hm (o & Ho & Hc)]. right. apply elem_of_list_In in Ho. rewrite elem_of_reverse in Ho.
    apply IH in Hc as [Hc|(p & x & y & Hw & Hnd & Hp & Hl & Hy & Hback)]; [| |done|by apply (Hclosed node)].
    + exists [], node, o. split_and!; [done|apply NoDup_singleton| |simpl; lia|done|].
      * intros x ->%elem_of_list_singleton. done.
      * by apply elem_of_app in Hc.
    + exists (o :: p), x, y. split_and!.
      * done.
      * constructor; [|done]. intros Hx. apply (Hp node Hx). apply elem_of_app. right. by left.
      * intros z [->|Hx]%elem_of_cons; [done|]. intros Hpre. apply (Hp z Hx). apply elem_of_app. by left.
      * rewrite app_length in Hl. simpl in *. lia.
      * done.
      * rewrite elem_of_app, elem_of_list_singleton in Hback. rewrite (elem_of_cons (o :: p)). tauto.
  - intros [?|(p & x & y & Hw & Hnd & Hp & Hl & Hy & Hback)]; [done|]. split; [lia|]. destruct p as [|o p].
    + simpl in Hw. subst x. exists y. split; [by apply elem_of_list_In, elem_of_reverse|].
      apply IH; [done|by apply (Hclosed node)|]. left. by apply elem_of_app.
    + destruct Hw as [He Hw]. exists o. split; [by apply elem_of_list_In, elem_of_reverse|].
      apply NoDup_cons in Hnd as [Hn1 Hnd].
      apply IH; [done|by apply (Hclosed node)|]. right. exists p, x, y. split_and!; [done|done| | |done|].
      * intros z Hx [Hx'| ->%elem_of_list_singleton]%elem_of_app; [|done]. apply (Hp z); [by right|done].
      * rewrite app_length. simpl in *. lia.
      * rewrite elem_of_app, elem_of_list_singleton. rewrite (elem_of_cons (o :: p)) in Hback. tauto.
Qed.

(** Monotonicity in the fuel *)
Lemma loop_mono f f' s r : f ≤ f' → dfs_loop nb min max f s = Some r → dfs_loop nb min max f' s = Some r.
Proof.
  revert f' s r. induction f as [|f IH]; intros f' s r Hle; simpl.
  - destruct f'; simpl; [done|]. destruct (d_stack s) as [|[a b] rest]; [done|]. done.
  - destruct f' as [|f']; [lia|]. simpl. destruct (d_stack s) as [|[a b] rest]; [done|].
    destruct (dfs_enter _ _ _ _ _ _ _) as [s' found].
    destruct (dfs_loop _ _ _ f s') as [[l s'']|] eqn:E; [|done].
    rewrite (IH f' s' _ ltac:(lia) E). done.
Qed.
Lemma loop_det f f' s r r' : dfs_loop nb min max f s = Some r → dfs_loop nb min max f' s = Some r' → r = r'.
Proof.
  intros H1 H2. destruct (decide (f ≤ f')).
  - apply (loop_mono f f') in H1; [congruence|done].
  - apply (loop_mono f' f) in H2; [congruence|lia].
Qed.

Lemma fits_new s node : d_path s = [] → d_in_path s = ∅ → d_last s = 0 → d_stack s = [(node, 0)] → fits_path s [].
Proof.
  intros Hp Hi Hl Hs. split_and!; [by rewrite Hi, Hp|rewrite Hp; constructor|]. rewrite Hl, Hp. by destruct (decide _).
Qed.

Lemma search_total s node : node ∈ Vs → d_path s = [] → d_in_path s = ∅ → d_last s = 0 → d_stack s = [(node, 0)] →
  ∃ f0, ∀ f, f0 ≤ f → ∃ l s', dfs_loop nb min max f s = Some (l, s') ∧
    (∀ m d, (m, d) ∈ l ↔ ∃ p, simple_path E node p m ∧ d = length p ∧ in_rng d = true) ∧
    (d_cycle s' = true ↔ d_cycle s = true ∨ ∃ p x y, simple_path E node p x ∧ (N.of_nat (length p) < max)%N ∧
       y ∈ nb x ∧ y ∈ node :: p).
Proof.
  intros Hn Hp Hi Hl Hs. set (k := S (size (Vs ∖ list_to_set []))).
  destruct (big_step k [] node s []) as (n & s' & L & S' & F & D & C).
  { lia. } { done. } { constructor. } { done. } { by eapply fits_new. }
  exists n. intros f Hf. exists (enum k [] node), s'. split_and!.
  - replace f with (n + (f - n)) by lia. rewrite L. destruct (f - n); simpl; rewrite S'; simpl; by rewrite app_nil_r.
  - intros m d. rewrite (enum_spec k [] node) by (done || lia). split.
    + intros (p & Hw & Hnd & _ & -> & Hr). exists p. done.
    + intros (p & [Hw Hnd] & -> & Hr). exists p. split_and!; [done|done| |done|done]. intros x _. apply not_elem_of_nil.
  - rewrite C, orb_true_iff, (cyc_spec k [] node) by (done || lia). apply or_iff_compat_l. split.
    + intros [[]%elem_of_nil|(p & x & y & Hw & Hnd & _ & Hlt & Hy & [[]%elem_of_nil|Hb])]. by exists p, x, y.
    + intros (p & x & y & [Hw Hnd] & Hlt & Hy & Hb). right. exists p, x, y. split_and!; try done; [|by right].
      intros z _. apply not_elem_of_nil.
Qed.
End search.
