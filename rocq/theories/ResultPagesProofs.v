From stdpp Require Import base list.
From Coq Require Import NArith Lia.
From Verif Require Import QuickSort QuickSortSpec Paging PagingSpec PagingProofs PagingProps Types SortMatches Joins JoinsSpec ResultPages ResultPagesSpec.

Lemma tag_items i items : JoinsSpec.no_error items → tag_item i <$> items = Some <$> ((λ g, (i, g)) <$> oks items).
Proof.
  intros [H1 H2]. induction items as [|it items IH]; [done|]. apply not_elem_of_cons in H1 as [N1 H1], H2 as [N2 H2].
  destruct it as [g| |]; [|done..]. cbn. f_equal. by apply IH.
Qed.
Section Proofs.
Context (cmp : nat * group → nat * group → comparison).
Definition full_of (k : nat) (R : group → Prop) (r : run) (full : list (nat * group)) : Prop :=
  NoDup full ∧ (∀ i g, (i, g) ∈ full ↔ i = k ∧ R g) ∧ (r_direct r = false → ascending cmp full).
Lemma ordered_full k R r full : finds_exactly R r → ordered_matches cmp (corpus_search k r) full → full_of k R r full.
Proof.
  intros (Hn & Hd & Hr). unfold ordered_matches. cbn [corpus_search s_direct s_plan]. rewrite (tag_items k _ Hn).
  assert (∀ l l' : list (nat * group), Some <$> l = Some <$> l' → l = l') as Hinj by (intros l l'; apply (inj (fmap Some))).
  assert (NoDup ((λ g, (k, g)) <$> oks (r_items r))) as HN by (apply NoDup_fmap; [by intros ? ? [= ->]|done]).
  assert (∀ i g, (i, g) ∈ (λ g, (k, g)) <$> oks (r_items r) ↔ i = k ∧ R g) as HI.
  { intros i g. rewrite elem_of_list_fmap, <- Hr. split; [intros (? & [= -> ->] & ?); done|intros [-> ?]; eauto]. }
  unfold full_of. destruct (r_direct r).
  - intros <-%Hinj. split_and!; [done|done|discriminate].
  - intros (ms & <-%Hinj & Hp & Ha). split_and!; [by rewrite Hp| |done]. intros i g. by rewrite Hp.
Qed.
Lemma fulls_all k Rs runs fulls : Forall2 finds_exactly Rs runs → Forall2 (ordered_matches cmp) (imap (λ j, corpus_search (k + j)) runs) fulls →
  NoDup (concat fulls) ∧ (∀ i g, (i, g) ∈ concat fulls ↔ ∃ R, k ≤ i ∧ Rs !! (i - k) = Some R ∧ R g) ∧
  (∀ x y a b, concat fulls !! x = Some a → concat fulls !! y = Some b → x < y →
    a.1 < b.1 ∨ (a.1 = b.1 ∧ ∀ r, runs !! (a.1 - k) = Some r → r_direct r = false → cmp a b ≠ Gt)).
Proof.
  intros HF. revert k fulls. induction HF as [|R r Rs runs Hr HF IH]; intros k fulls Hf.
  { inversion Hf; subst. cbn. split_and!; [constructor|intros i g; split; [intros H; inversion H|intros (? & _ & [=] & _)]|intros x y a b [=]]. }
  rewrite imap_cons in Hf. apply Forall2_cons_inv_l in Hf as (full & fulls' & H1 & H2 & ->). rewrite Nat.add_0_r in H1.
  apply (ordered_full k R r) in H1 as (N1 & I1 & A1); [|done].
  assert (Forall2 (ordered_matches cmp) (imap (λ j, corpus_search (S k + j)) runs) fulls') as H2'.
  { erewrite imap_ext; [exact H2|]. intros j x _. cbn. by rewrite Nat.add_succ_r. }
  destruct (IH (S k) fulls' H2') as (N2 & I2 & O2). clear H2 H2' IH. cbn [concat].
  assert (∀ a, a ∈ concat fulls' → S k ≤ a.1) as Hle by (intros [i g] (R' & ? & _)%I2; done).
  assert (∀ a, a ∈ full → a.1 = k) as Heq by (intros [i g] [-> _]%I1; done).
  split_and!.
  - apply NoDup_app. split_and!; [done| |done]. intros a Ha Hb. specialize (Hle a Hb). specialize (Heq a Ha). lia.
  - intros i g. rewrite elem_of_app, I1, I2. split.
    + intros [[-> Hg]|(R' & Hk & Hl & Hg)]; [exists R; by rewrite Nat.sub_diag|]. exists R'. split_and!; [lia| |done].
      replace (i - k) with (S (i - S k)) by lia. done.
    + intros (R' & Hk & Hl & Hg). destruct (decide (i = k)) as [-> |Hn]; [rewrite Nat.sub_diag in Hl; injection Hl as ->; by left|]. right. exists R'.
      replace (i - k) with (S (i - S k)) in Hl by lia. split_and!; [lia|done|done].
  - intros x y a b Hx Hy Hxy. destruct (decide (y < length full)) as [Hyl|Hyl].
    + rewrite lookup_app_l in Hx, Hy by lia. pose proof (Heq a (elem_of_list_lookup_2 _ _ _ Hx)) as Ea. pose proof (Heq b (elem_of_list_lookup_2 _ _ _ Hy)) as Eb.
      right. split; [lia|]. intros r'. rewrite Ea, Nat.sub_diag. intros [= <-] Hd. exact (A1 Hd x y a b Hxy Hx Hy).
    + rewrite lookup_app_r in Hy by lia. pose proof (Hle b (elem_of_list_lookup_2 _ _ _ Hy)) as Eb. destruct (decide (x < length full)) as [Hxl|Hxl].
      * rewrite lookup_app_l in Hx by lia. pose proof (Heq a (elem_of_list_lookup_2 _ _ _ Hx)) as Ea. left. lia.
      * rewrite lookup_app_r in Hx by lia. pose proof (Hle a (elem_of_list_lookup_2 _ _ _ Hx)) as Ea.
        destruct (O2 _ _ _ _ Hx Hy) as [?|[E1 E2]]; [lia|by left|]. right. split; [done|]. intros r' Hr'. apply E2. replace (a.1 - k) with (S (a.1 - S k)) in Hr' by lia. done.
Qed.
Lemma searches_no_error Rs runs : Forall2 finds_exactly Rs runs → Forall PagingSpec.no_error (searches runs).
Proof.
  intros HF. apply Forall_forall. intros c Hc. unfold searches in Hc. apply elem_of_lookup_imap in Hc as (i & r & -> & Hi).
  apply no_error_iff. destruct (Forall2_lookup_r _ _ _ _ _ HF Hi) as (R & _ & Hn & _). eexists. cbn. by apply tag_items.
Qed.
Lemma count_plans {M} (cs : list (Paging.search M)) : count cs = N.of_nat (length (concat (s_plan <$> cs))).
Proof.
  unfold count. assert (∀ n, fold_left (λ n c, (n + N.of_nat (length (s_plan c)))%N) cs n = (n + N.of_nat (length (concat (s_plan <$> cs))))%N) as H; [|by rewrite H].
  induction cs as [|c cs IH]; intros n; cbn; [lia|]. rewrite IH, app_length. lia.
Qed.
Lemma results_lemma Rs runs : Forall2 finds_exactly Rs runs → ∃ L, concat (s_plan <$> searches runs) = Some <$> L ∧ all_results Rs L.
Proof.
  intros HF. assert (∀ k, ∃ L, concat (s_plan <$> imap (λ j, corpus_search (k + j)) runs) = Some <$> L ∧ NoDup L ∧
    ∀ i g, (i, g) ∈ L ↔ ∃ R, k ≤ i ∧ Rs !! (i - k) = Some R ∧ R g) as HH.
  { induction HF as [|R r Rs runs Hr HF IH]; intros k.
    { exists []. split_and!; [done|constructor|]. intros i g. split; [intros H; inversion H|intros (? & _ & [=] & _)]. }
    rewrite imap_cons. destruct (IH (S k)) as (L & E & N2 & I2). destruct Hr as (Hn & Hd & HR).
    exists (((λ g, (k, g)) <$> oks (r_items r)) ++ L). split_and!.
    - rewrite fmap_app, <- E. cbn. rewrite Nat.add_0_r, (tag_items k _ Hn). f_equal. f_equal. f_equal. apply imap_ext. intros j x _. cbn. by rewrite Nat.add_succ_r.
    - apply NoDup_app. split_and!; [apply NoDup_fmap; [by intros ? ? [= ->]|done]| |done].
      intros [i g] (g' & [= -> ->] & _)%elem_of_list_fmap (R' & Hk & _)%I2. lia.
    - intros i g. rewrite elem_of_app, I2, elem_of_list_fmap. split.
      + intros [(g' & [= -> ->] & Hg)|(R' & Hk & Hl & Hg)]; [exists R; rewrite Nat.sub_diag; split_and!; [done|done|by apply HR]|]. exists R'. split_and!; [lia| |done].
        replace (i - k) with (S (i - S k)) by lia. done.
      + intros (R' & Hk & Hl & Hg). destruct (decide (i = k)) as [-> |Hne]; [rewrite Nat.sub_diag in Hl; injection Hl as ->; left; exists g; split; [done|by apply HR]|].
        right. exists R'. replace (i - k) with (S (i - S k)) in Hl by lia. split_and!; [lia|done|done]. }
  destruct (HH 0) as (L & E & N & I). exists L. split; [exact E|]. split; [done|]. intros i g. rewrite I. setoid_rewrite Nat.sub_0_r. split; [intros (R & _ & H); eauto|intros (R & H); exists R; split; [lia|done]].
Qed.
Lemma all_results_length Rs L L' : all_results Rs L → all_results Rs L' → length L = length L'.
Proof.
  intros [N1 I1] [N2 I2]. apply Permutation_length, NoDup_Permutation; [done|done|]. intros [i g]. by rewrite I1, I2.
Qed.
Lemma count_results Rs runs L : Forall2 finds_exactly Rs runs → all_results Rs L → count (searches runs) = N.of_nat (length L).
Proof.
  intros HF HL. destruct (results_lemma Rs runs HF) as (L' & E & HL'). rewrite count_plans, E, fmap_length. f_equal. by eapply all_results_length.
Qed.
Lemma find_results {D} (desc : nat * group → D) fuel rnds Rs runs offset limit r : total_preorder cmp → Forall2 finds_exactly Rs runs →
  (∀ n, limit = Some n → offset + n < 2 ^ 64)%N → find cmp desc fuel rnds (searches runs) offset limit = Done r →
  ∃ L, all_results Rs L ∧ in_order cmp runs L ∧ r = page offset limit (desc <$> L).
Proof.
  intros Hc HF Hb E. destruct (C28_find_is_a_slice_partial cmp desc fuel rnds (searches runs) offset limit Hc (searches_no_error Rs runs HF) Hb) as [_ HH].
  destruct (HH r E) as (fulls & Hf & ->). destruct (fulls_all 0 Rs runs fulls HF Hf) as (N & I & O). exists (concat fulls). split_and!.
  - split; [done|]. intros i g. rewrite I. setoid_rewrite Nat.sub_0_r. split; [intros (R & _ & H); eauto|intros (R & H); exists R; split; [lia|done]].
  - intros x y a b Hx Hy Hxy. destruct (O x y a b Hx Hy Hxy) as [?|[E1 E2]]; [by left|right]. split; [done|]. rewrite Nat.sub_0_r in E2. done.
  - done.
Qed.
End Proofs.

(** *** Errors *)
Lemma mapM_id_all {A} (l : list (option A)) k : mapM id l = Some k → None ∉ l.
Proof.
  intros H%mapM_Some Hn.
  apply elem_of_list_lookup in Hn as [i Hi]. destruct (Forall2_lookup_l _ _ _ _ _ H Hi) as (y & _ & Hy). discriminate Hy.
Qed.
Section errors.
Context {M D : Type} (cmp : M → M → comparison) (desc : M → D).
Lemma single_no_error fuel rnd c r : find_single cmp desc fuel rnd c 0 None = Done r → None ∉ s_plan c.
Proof.
  unfold find_single, find_iterator. destruct (s_direct c).
  - destruct (s_plan c) as [|x l]; cbn [dropN]; [intros _; apply not_elem_of_nil|]. cbn [N.eqb].
    destruct (mapM id (x :: l)) eqn:E; [|done]. intros _. by eapply mapM_id_all.
  - destruct (mapM id (s_plan c)) eqn:E; [|done]. intros _. by eapply mapM_id_all.
Qed.
Lemma loop_no_error fuel rnds k res cs r : find_loop cmp desc fuel rnds k 0 None 0 res cs = Done r → ∀ c, c ∈ cs → None ∉ s_plan c.
Proof.
  revert k res. induction cs as [|c cs IH]; intros k res H c' Hc; [by apply elem_of_nil in Hc|]. cbn [find_loop] in H.
  destruct (find_single cmp desc fuel (rnds k) c 0 None) as [[single skipped]| |] eqn:E; [|done|done].
  assert ((skipped <? 0)%N = false) as Es by (apply N.ltb_ge; lia). rewrite Es in H.
  apply elem_of_cons in Hc as [->|Hc]; [by eapply single_no_error|by eapply IH].
Qed.
Lemma find_no_error fuel rnds cs r : find cmp desc fuel rnds cs 0 None = Done r → ∀ c, c ∈ cs → None ∉ s_plan c.
Proof.
  unfold find. destruct cs as [|c [|c2 cs]]; [intros _ c Hc; by apply elem_of_nil in Hc| |apply loop_no_error].
  destruct (find_single cmp desc fuel (rnds 0) c 0 None) as [p| |] eqn:E; [|done|done]. intros _ c' ->%elem_of_list_singleton. by eapply single_no_error.
Qed.
End errors.
Lemma results_no_error {D} cmp (desc : nat * group → D) fuel rnds runs r : find cmp desc fuel rnds (searches runs) 0 None = Done r →
  ∀ i run, runs !! i = Some run → JoinsSpec.no_error (r_items run).
Proof.
  intros H i run Hi. assert (corpus_search i run ∈ searches runs) as Hc.
  { apply elem_of_list_lookup. exists i. unfold searches. rewrite list_lookup_imap, Hi. done. }
  pose proof (find_no_error cmp desc fuel rnds _ _ H _ Hc) as Hn. cbn [s_plan corpus_search] in Hn.
  split; intros He; apply Hn; apply elem_of_list_fmap; eexists; (split; [|exact He]); reflexivity.
Qed.
