(** Documents with the same name. *)
From Coq Require Import NArith String Lia.
From stdpp Require Import base list gmap pretty.
From Verif Require Import KeySer KeySerSpec Types CompPath RelAnnis RelAnnisSpec RelAnnisTree RelAnnisNames RelAnnisFilesSpec RelAnnisFiles.

Lemma pretty_digits (n : N) : Forall (λ b, 48 <= b <= 57)%N (str (pretty n)).
Proof.
  assert (∀ x s, Forall (λ b, 48 <= b <= 57)%N (str s) → Forall (λ b, 48 <= b <= 57)%N (str (pretty_N_go x s))) as H.
  { induction x as [x IH] using (well_founded_induction N.lt_wf_0). intros s Hs. destruct (decide (0 < x)%N) as [H|H].
    - rewrite pretty_N_go_step by done. apply IH; [apply N.div_lt; lia|]. rewrite str_char. constructor; [|done]. pose proof (N.mod_upper_bound x 10 ltac:(done)). rewrite pretty_digit by done. clear IH. generalize dependent (x `mod` 10)%N. intros; lia.
    - assert (x = 0%N) as -> by lia. by rewrite pretty_N_go_0. }
  unfold pretty, pretty_N. destruct (decide (n = 0%N)); [assert (str "0" = [48%N]) as -> by (vm_compute; reflexivity); repeat constructor; lia|]. apply H. constructor.
Qed.
Lemma str_pretty_inj (a b : N) : str (pretty a) = str (pretty b) → a = b.
Proof.
  intros E. set (m := N.max a b). pose proof (parse_number m a ltac:(lia)) as Ha. pose proof (parse_number m b ltac:(lia)) as Hb. rewrite E in Ha. congruence.
Qed.
Lemma last_sep_inj {A} (s : A) a a' d d' : s ∉ d → s ∉ d' → a ++ [s] ++ d = a' ++ [s] ++ d' → a = a' ∧ d = d'.
Proof.
  intros H H' E. apply (f_equal reverse) in E. rewrite !reverse_app in E. assert (∀ x : list A, reverse x = reverse x → x = x) as _ by done.
  assert (reverse d ++ [s] ++ reverse a = reverse d' ++ [s] ++ reverse a') as E'. { rewrite <- !(assoc_L (++)) in E. exact E. }
  apply app_sep_inj in E' as [E1 E2]; [|by rewrite elem_of_reverse|by rewrite elem_of_reverse]. split; by apply (inj reverse).
Qed.
Lemma duplicate_inj n k n' k' : duplicate_name n k = duplicate_name n' k' → n = n' ∧ k = k'.
Proof.
  unfold duplicate_name. assert (str "_duplicated_document_name_" = str "_duplicated_document_name" ++ [95%N]) as -> by (vm_compute; reflexivity). intros E.
  rewrite <- !(assoc_L (++)) in E. rewrite !(assoc_L (++) n), !(assoc_L (++) n') in E. apply last_sep_inj in E as [E1 E2].
  - split; [by apply app_inv_tail in E1|by apply str_pretty_inj].
  - intros H. apply (proj1 (Forall_forall _ _) (pretty_digits k)) in H. lia.
  - intros H. apply (proj1 (Forall_forall _ _) (pretty_digits k')) in H. lia.
Qed.
Lemma occurrences_snoc n l r : occurrences n (l ++ [r]) = (occurrences n l + if decide (cr_doc r = true ∧ cr_name r = n) then 1 else 0)%nat.
Proof. unfold occurrences. rewrite filter_app, app_length. f_equal. rewrite filter_cons, filter_nil. by destruct (decide _). Qed.
Lemma rename_from rs : ∀ seen before, (∀ n, default 0%N (seen !! n) = N.of_nat (occurrences n before)) →
  rename_documents seen rs = imap (λ i r, renamed_row (before ++ take i rs) r) rs.
Proof.
  induction rs as [|r rs IH]; intros seen before H; [done|]. cbn [rename_documents imap]. rewrite take_0, app_nil_r.
  assert (∀ seen', (∀ n, default 0%N (seen' !! n) = N.of_nat (occurrences n (before ++ [r]))) → rename_documents seen' rs = imap ((λ i r0, renamed_row (before ++ take i (r :: rs)) r0) ∘ S) rs) as Hr.
  { intros seen' Hs. rewrite (IH seen' (before ++ [r]) Hs). apply imap_ext. intros i x _. cbn. by rewrite <- (assoc_L (++)). }
  unfold renamed_row. destruct (cr_doc r) eqn:Ed.
  - cbv zeta. rewrite H. rewrite Hr.
    + f_equal. destruct (N.ltb_spec 1 (N.of_nat (occurrences (cr_name r) before) + 1)) as [Hl|Hl].
      * rewrite decide_True by (split; [done|lia]). unfold with_name. rewrite Ed. do 2 f_equal. lia.
      * rewrite decide_False; [done|]. intros [_ E]. lia.
    + intros n. rewrite occurrences_snoc. destruct (decide (cr_name r = n)) as [<- |Hne].
      * rewrite lookup_insert, decide_True by done. cbn. lia.
      * rewrite lookup_insert_ne by done. rewrite H. rewrite decide_False by (intros [? ?]; done). lia.
  - rewrite decide_False by (intros [E _]; done). rewrite Hr; [done|]. intros n. rewrite H, occurrences_snoc. rewrite decide_False by (rewrite Ed; intros [E _]; done). lia.
Qed.
Lemma rename_spec rs : rename_documents ∅ rs = renamed rs.
Proof. rewrite (rename_from rs ∅ []); [done|]. intros n. by rewrite lookup_empty. Qed.
Lemma occurrences_take n rs i j r : i < j → rs !! i = Some r → cr_doc r = true → cr_name r = n → occurrences n (take i rs) < occurrences n (take j rs).
Proof.
  intros Hij Hi Hd Hn. assert (take j rs = take i rs ++ [r] ++ drop (S i) (take j rs)) as ->.
  { assert (take j rs !! i = Some r) as Hj by (rewrite lookup_take; done). rewrite <- (take_drop_middle _ _ _ Hj) at 1. rewrite take_take, Nat.min_l by lia. done. }
  unfold occurrences. rewrite !filter_app, !app_length. rewrite filter_cons, decide_True by done. cbn. lia.
Qed.
Lemma renamed_doc before r : cr_doc (renamed_row before r) = cr_doc r.
Proof. unfold renamed_row. by destruct (decide _). Qed.
Lemma renamed_distinct rs : no_duplicate_names rs → NoDup (cr_name <$> filter (λ r, cr_doc r = true) (renamed rs)).
Proof.
  intros Hno. unfold renamed.
  assert (∀ i j r r', rs !! i = Some r → rs !! j = Some r' → cr_doc r = true → cr_doc r' = true → cr_name (renamed_row (take i rs) r) = cr_name (renamed_row (take j rs) r') → i = j) as Hinj.
  { intros i j r r' Hi Hj Hd Hd' E. unfold renamed_row in E.
    assert (∀ i j, rs !! i = Some r → rs !! j = Some r' → cr_name r = cr_name r' → occurrences (cr_name r) (take i rs) = occurrences (cr_name r') (take j rs) → i = j) as Hc.
    { clear -Hd Hd'. intros i j Hi Hj En Eo. rewrite <- En in Eo. destruct (lt_eq_lt_dec i j) as [[H|H]|H]; [|done|].
      - pose proof (occurrences_take (cr_name r) rs i j r H Hi Hd eq_refl). lia.
      - pose proof (occurrences_take (cr_name r) rs j i r' H Hj Hd' (eq_sym En)). lia. }
    destruct (decide _) as [H1|H1] in E; destruct (decide _) as [H2|H2] in E; cbn [with_name cr_name] in E.
    - apply duplicate_inj in E as [En Ek]. apply Hc; [done|done|done|lia].
    - exfalso. symmetry in E. by apply (proj1 (Forall_forall _ _) Hno r' (elem_of_list_lookup_2 _ _ _ Hj)) in E.
    - exfalso. by apply (proj1 (Forall_forall _ _) Hno r (elem_of_list_lookup_2 _ _ _ Hi)) in E.
    - assert (occurrences (cr_name r) (take i rs) = 0) as E1 by (destruct (decide (occurrences (cr_name r) (take i rs) = 0)); [done|by destruct H1]).
      assert (occurrences (cr_name r') (take j rs) = 0) as E2 by (destruct (decide (occurrences (cr_name r') (take j rs) = 0)); [done|by destruct H2]). apply Hc; [done|done|done|lia]. }
  set (f := λ i r, renamed_row (take i rs) r) in *. assert (∀ i x, imap f rs !! i = Some x → ∃ r, rs !! i = Some r ∧ x = renamed_row (take i rs) r) as Hl.
  { intros i x H. rewrite list_lookup_imap in H. apply fmap_Some in H as (r & Hr & ->). by exists r. }
  assert (∀ i j x y, imap f rs !! i = Some x → imap f rs !! j = Some y → cr_doc x = true → cr_doc y = true → cr_name x = cr_name y → i = j) as Hd.
  { intros i j x y Hi Hj Hx Hy E. apply Hl in Hi as (r & Hr & ->), Hj as (r' & Hr' & ->). rewrite renamed_doc in Hx, Hy. by eapply Hinj. }
  clear -Hd. revert Hd. generalize (imap f rs). clear. induction l as [|x l IH]; intros Hd; [constructor|]. rewrite filter_cons. destruct (decide (cr_doc x = true)) as [Hx|Hx].
  - cbn. constructor.
    + intros H. apply elem_of_list_fmap in H as (y & E & Hy). apply elem_of_list_filter in Hy as [Hy Hin]. apply elem_of_list_lookup in Hin as (j & Hj). by pose proof (Hd 0 (S j) x y eq_refl Hj Hx Hy E).
    + apply IH. intros i j a b Hi Hj Ha Hb E. by injection (Hd (S i) (S j) a b Hi Hj Ha Hb E).
  - apply IH. intros i j a b Hi Hj Ha Hb E. by injection (Hd (S i) (S j) a b Hi Hj Ha Hb E).
Qed.
Lemma import_renamed v33 ext T : no_duplicate_names (t_corpus T) → import_events v33 ext T = import_events v33 ext (with_corpora T (renamed (t_corpus T))).
Proof.
  intros H. unfold import_events, with_corpora. cbn [t_corpus t_text t_cannos t_nodes t_nannos t_comps t_ranks t_eannos].
  assert (corpus_table (renamed (t_corpus T)) = corpus_table (t_corpus T)) as ->; [|done]. unfold corpus_table. rewrite (rename_spec (t_corpus T)). cbv zeta.
  rewrite (rename_id (renamed (t_corpus T)) ∅); [done|by apply renamed_distinct|]. intros r _ _. by rewrite lookup_empty.
Qed.
