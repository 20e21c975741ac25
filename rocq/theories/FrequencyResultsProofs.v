(** Proofs about FrequencyResults.v. *)
From stdpp Require Import base list gmap sorting.
From Coq Require Import NArith Lia.
From Verif Require Import KeySer Types SymbolTable AnnoMem AnnoSpec AnnoMemProofs AnnoMemQueries SortMatches Adjacency TokenHelper TokenSearchSpec TokenSearchProofs NodeSearchSpec
  Joins JoinsSpec Query Paging Frequency FrequencySpec FrequencyProofs FrequencyProps ResultPages ResultPagesSpec ResultPagesProofs FrequencyResults FrequencyResultsSpec.

Notation fc_of := (λ s, stored (so_db s) (so_items s)).
Lemma stored_qnames db c items : holds_content db c → qnames_ok (stored db items).
Proof.
  intros H. destruct (labels_inv db c H) as [leak I]. intros name k. cbn. destruct (qnames_lemma N.compare _ leak _ name I) as [_ HQ]. rewrite HQ.
  setoid_rewrite (get_value_lemma N.compare _ leak _ _ _ I). done.
Qed.
Lemma stored_value db c items n d v : holds_content db c → label_value (stored db items) n d v → value_for c n d v.
Proof.
  intros H. destruct (labels_inv db c H) as [leak I]. unfold label_value, value_for, label.
  assert (∀ n k, fc_value (stored db items) n k = ct_labels c !! (n, k)) as HV by (intros n' k; exact (get_value_lemma N.compare _ leak _ n' k I)).
  destruct (fd_ns d) as [ns|].
  - rewrite HV. destruct (ct_labels c !! _) as [w|]; cbn; [left; by subst|right; by subst].
  - setoid_rewrite HV. intros [([nm ns] & Hn & Hv)|[Hn Hv]]; [left; exists ns; cbn in Hn; by subst|right]. split; [|done]. intros ns. by apply Hn.
Qed.
Lemma stored_row db c items pos defs g row : holds_content db c → row_of pos defs (stored db items) g row → row_for pos defs c g row.
Proof.
  intros H. unfold row_of, row_for. intros HF. eapply Forall2_impl; [exact HF|]. intros d v Hd p Hp. specialize (Hd p Hp).
  destruct (g !! p); [|done]. by eapply stored_value.
Qed.
Lemma stored_matches db items : JoinsSpec.no_error items → matches_of (stored db items) = Some ((λ g, (stored db items, g)) <$> oks items).
Proof.
  intros [H1 H2]. unfold matches_of. cbn [stored fc_plan mbind option_bind]. generalize (stored db items) as fc. intros fc.
  induction items as [|it items IH]; [done|]. apply not_elem_of_cons in H1 as [N1 H1], H2 as [N2 H2].
  destruct it as [g| |]; [|done..]. cbn. change (mapM (λ i, match i with IOk g => Some (fc, g) | _ => None end) items) with
    (mapM (λ i : item, match i with IOk g => Some (fc, g) | _ => None end) items). rewrite (IH H1 H2). done.
Qed.
Lemma aligned_matches k ss : Forall (λ s, JoinsSpec.no_error (so_items s)) ss → ∃ L ms, all_matches (fc_of <$> ss) = Some ms ∧
  concat (s_plan <$> imap (λ j, corpus_search (k + j)) ((λ s, Run (so_items s) true) <$> ss)) = Some <$> L ∧
  Forall2 (λ x m, x.2 = m.2 ∧ ∃ s, k ≤ x.1 ∧ ss !! (x.1 - k) = Some s ∧ m.1 = fc_of s) L ms.
Proof.
  revert k. induction ss as [|s ss IH]; intros k HF.
  { exists [], []. split_and!; [done|done|constructor]. }
  apply Forall_cons in HF as [Hs HF]. destruct (IH (S k) HF) as (L & ms & E1 & E2 & H2).
  exists (((λ g, (k, g)) <$> oks (so_items s)) ++ L), (((λ g, (fc_of s, g)) <$> oks (so_items s)) ++ ms). split_and!.
  - unfold all_matches in *. cbn [fmap list_fmap mapM]. rewrite (stored_matches _ _ Hs). cbn [mbind option_bind].
    destruct (mapM matches_of _) as [l|]; [|discriminate E1]. cbn [mbind option_bind] in *. injection E1 as <-. done.
  - rewrite fmap_cons, imap_cons, fmap_cons. cbn [concat]. rewrite fmap_app, <- E2. cbn [corpus_search s_plan r_items]. rewrite Nat.add_0_r, (tag_items k _ Hs).
    f_equal. f_equal. f_equal. apply imap_ext. intros j x _. cbn. by rewrite Nat.add_succ_r.
  - apply Forall2_app.
    + apply Forall2_fmap, Forall_Forall2_diag, Forall_forall. intros g _. split; [done|]. exists s. cbn. rewrite Nat.sub_diag. done.
    + eapply Forall2_impl; [exact H2|]. intros x m (Hx & s' & Hk & Hl & Hm). split; [done|]. exists s'. split_and!; [lia| |done].
      replace (x.1 - k) with (S (x.1 - S k)) by lia. done.
Qed.
Lemma table_lemma pos defs ss L : Forall source_ok ss → all_results (so_results <$> ss) L → ∃ table rows,
  frequency pos defs (fc_of <$> ss) = Some table ∧ rows_for pos defs ss L rows ∧
  sum_list table.*2 = length L ∧ NoDup table.*1 ∧ StronglySorted (λ a b, b.2 ≤ a.2) table ∧
  ∀ t n, (t, n) ∈ table ↔ n = length (filter (λ r, r = t) rows) ∧ n ≠ 0.
Proof.
  intros HF HL.
  assert (Forall (λ s, JoinsSpec.no_error (so_items s)) ss) as Hn by (eapply Forall_impl; [exact HF|intros s (_ & Hs & _); exact Hs]).
  destruct (aligned_matches 0 ss Hn) as (L1 & ms & E1 & E2 & H2).
  assert (Forall2 finds_exactly (so_results <$> ss) ((λ s, Run (so_items s) true) <$> ss)) as HR.
  { apply Forall2_fmap, Forall_Forall2_diag. eapply Forall_impl; [exact HF|]. by intros s [_ Hs]. }
  destruct (results_lemma _ _ HR) as (L2 & E3 & HL2). unfold searches in E3. pose proof (eq_trans (eq_sym E3) E2) as E4.
  apply (inj (fmap Some)) in E4 as ->. clear E2 E3.
  assert (L1 ≡ₚ L) as HP.
  { destruct HL as [N1 I1], HL2 as [N2 I2]. apply NoDup_Permutation; [done|done|]. intros [i g]. by rewrite I1, I2. }
  assert (Forall qnames_ok (fc_of <$> ss)) as HQ.
  { apply Forall_fmap. eapply Forall_impl; [exact HF|]. intros s [Hs _]. by eapply stored_qnames. }
  pose proof (C40_frequency pos defs (fc_of <$> ss) HQ) as HC. rewrite E1 in HC. destruct HC as (table & rows & Ef & Hrow & Hsum & Hnd & Hso & Ht).
  assert (rows_for pos defs ss L1 rows) as Hrf.
  { unfold rows_for. eapply Forall2_transitive; [|exact H2|exact Hrow]. cbn. intros x m row (Hx & s & _ & Hl & Hm) Hr. rewrite Nat.sub_0_r in Hl.
    exists s. split; [done|]. rewrite Hx. rewrite Hm in Hr. assert (s ∈ ss) as Hin by (by eapply elem_of_list_lookup_2).
    rewrite Forall_forall in HF. destruct (HF s Hin) as [Hc _]. by eapply stored_row. }
  destruct (Permutation_Forall2 HP Hrf) as (rows' & HPr & Hrf').
  exists table, rows'. split_and!; [done|exact Hrf'| |done|done|].
  - rewrite Hsum, <- (Forall2_length _ _ _ H2). by rewrite HP.
  - intros t n. rewrite Ht. by rewrite HPr.
Qed.
