(** Proofs about the responses of the web service. *)
From Coq Require Import NArith String Lia.
From stdpp Require Import base list gmap sorting.
From Verif Require Import ListExtra KeySer KeySerSpec Percent PercentProofs CompPath CompPathSpec CompPathProofs CorpusDir CorpusDirProofs HistogramSpec AnnoMem AnnoMemQueries Service ServiceSpec ServiceProofs ServiceJobs.

Lemma from_request_claims v h c : from_request v h = Some c → c = Claims (str "anonymous") [] [] ∨ ∃ t, v t = Some c.
Proof.
  unfold from_request. destruct h as [h|]; [|intros [= <-]; by left]. destruct (to_str h) as [s|]; [|intros [= <-]; by left].
  destruct (_ || _); [|intros [= <-]; by left]. intros H. right. by eexists.
Qed.
Lemma from_request_bearer v t : Forall (λ b, 32 ≤ b ≤ 126)%N t → trim t = t → from_request v (Some (str "Bearer " ++ t)) = v t.
Proof.
  intros Ht Htr. unfold from_request, to_str. assert (forallb visible (str "Bearer " ++ t) = true) as ->.
  { rewrite forallb_app. apply andb_true_iff. split; [vm_compute; reflexivity|]. apply forallb_forall. intros b Hb. rewrite Forall_forall in Ht.
    apply elem_of_list_In in Hb. apply Ht in Hb. unfold visible. apply orb_true_iff. right. apply andb_true_iff. split; apply N.leb_le; lia. }
  assert (starts_with (str "Bearer") (str "Bearer " ++ t) = true) as ->.
  { unfold starts_with. apply bool_decide_true. vm_compute. reflexivity. }
  rewrite orb_true_r. change (drop 6 (str "Bearer " ++ t)) with (32%N :: t). unfold trim. change (trim_start (32%N :: t)) with (trim_start t). fold (trim t). by rewrite Htr.
Qed.

Section final.
Context {C : Type} (en : engine C) (set : settings).
Lemma admin_refused fk s v h c q : from_request v h = Some c → ¬ administrator c → admin_only q = true → respond en set fk s v h q = (s, ForbiddenAdmin).
Proof.
  intros E Ha Hq. unfold respond. rewrite E. assert (is_admin c = false) as Hc by (by apply bool_decide_false). destruct q; try done; by rewrite Hc.
Qed.
Lemma invalid_token fk s v h q : from_request v h = None → public q = false → respond en set fk s v h q = (s, Unauthorized).
Proof. intros E Hq. unfold respond. rewrite E. by destruct q. Qed.
Lemma secrecy st1 fs1 l1 st2 fs2 l2 v h c q s1 s2 :
  s1 = run en set true (sv_new st1 fs1) l1 → s2 = run en set true (sv_new st2 fs2) l2 → grants l1 = grants l2 →
  (∀ l, en_shuffle en l ≡ₚ l) → set_data set ≠ [] → set_anonymous_access set = false →
  from_request v h = Some c → ¬ administrator c →
  (∀ n, may_read (grants l1) c n → same_corpus set n s1 s2) →
  (∀ n node, q = ListFiles n node → plain_name n) → (q = ListCorpora → readable en s1 ∧ readable en s2) →
  (respond en set true s1 v h q).2 = (respond en set true s2 v h q).2.
Proof.
  intros -> -> Hg Hp Hd Hs E Ha Hsame Hplain Hr. pose proof (run_new_db_ok en set st1 fs1 l1) as O1. pose proof (run_new_db_ok en set st2 fs2 l2) as O2. rewrite <- Hg in O2.
  set (s1 := run en set true (sv_new st1 fs1) l1) in *. set (s2 := run en set true (sv_new st2 fs2) l2) in *.
  assert (∀ n, n ∈ authorized_corpora c (sv_db s1) ↔ n ∈ authorized_corpora c (sv_db s2)) as Hauth.
  { intros n. by rewrite (authorized_may_read _ _ c n O1), (authorized_may_read _ _ c n O2). }
  destruct (public q) eqn:Epub; [by destruct q|]. destruct (admin_only q) eqn:Eadm; [by rewrite !(admin_refused _ _ _ _ c)|].
  destruct (match q with ListCorpora => true | _ => false end) eqn:El.
  - destruct q; try done. destruct Hr as [R1 R2]; [done|]. unfold respond. rewrite E. cbn [snd]. apply list_corpora_ext; try done.
    intros n Hn. apply Hsame. by apply (authorized_may_read _ _ c n O1).
  - assert (q ≠ ListCorpora) as Hq by (intros ->; done). rewrite !(respond_read _ _ _ _ _ _ _ c) by done.
    destruct (decide (Forall (λ n, n ∈ authorized_corpora c (sv_db s1)) (named_corpora q))) as [Hall|Hall].
    + rewrite Forall_forall in Hall. rewrite (check_read_ok set (sv_db s1)) by (intros n Hn; by apply Hall). rewrite (check_read_ok set (sv_db s2)) by (intros n Hn; apply Hauth; by apply Hall). apply read_corpora_ext; try done.
      intros n Hn. apply Hsame. apply (authorized_may_read _ _ c n O1). by apply Hall.
    + rewrite !check_read_refused; try done.
      * f_equal. apply list_filter_iff. intros n. by rewrite Hauth.
      * intros H. apply Hall. apply Forall_forall. intros n Hn. apply Hauth. by apply H.
      * intros H. apply Hall. apply Forall_forall. intros n Hn. by apply H.
Qed.
Lemma refused st fs l v h c q n :
  set_anonymous_access set = false → from_request v h = Some c → ¬ administrator c →
  n ∈ named_corpora q → ¬ may_read (grants l) c n →
  ∃ ns, (respond en set true (run en set true (sv_new st fs) l) v h q).2 = ForbiddenCorpora ns ∧
    ∀ m, m ∈ ns ↔ m ∈ named_corpora q ∧ ¬ may_read (grants l) c m.
Proof.
  intros Hs E Ha Hn Hm. pose proof (run_new_db_ok en set st fs l) as O. set (s := run en set true (sv_new st fs) l) in *.
  rewrite (respond_read _ _ _ _ _ _ _ c); try done; [|by destruct q; try (apply elem_of_nil in Hn)..|by intros ->; apply elem_of_nil in Hn].
  rewrite check_read_refused; try done.
  - eexists. split; [reflexivity|]. intros m. rewrite elem_of_list_filter, (authorized_may_read _ _ c m O). tauto.
  - intros H. apply Hm. apply (authorized_may_read _ _ c n O). by apply H.
Qed.
Lemma permitted st fs l v h c v' h' c' q :
  from_request v h = Some c → from_request v' h' = Some c' → administrator c' →
  q ≠ ListCorpora → admin_only q = false →
  set_anonymous_access set = true ∨ (∀ n, n ∈ named_corpora q → may_read (grants l) c n) →
  (respond en set true (run en set true (sv_new st fs) l) v h q).2 = (respond en set true (run en set true (sv_new st fs) l) v' h' q).2.
Proof.
  intros E E' Ha Hq Hadm H. pose proof (run_new_db_ok en set st fs l) as O. set (s := run en set true (sv_new st fs) l) in *.
  destruct (public q) eqn:Ep; [by destruct q|]. rewrite (respond_read _ _ _ _ _ _ _ c), (respond_read _ _ _ _ _ _ _ c') by done.
  assert (check_read set (sv_db s) c' (named_corpora q) = inr (named_corpora q)) as ->.
  { unfold check_read. assert (is_admin c' = true) as -> by (by apply bool_decide_true). done. }
  assert (check_read set (sv_db s) c (named_corpora q) = inr (named_corpora q)) as ->; [|done].
  destruct H as [H|H].
  - unfold check_read. rewrite H, orb_true_r. done.
  - apply check_read_ok. intros n Hn. apply (authorized_may_read _ _ c n O). by apply H.
Qed.
Lemma listed st fs l v h c s : s = run en set true (sv_new st fs) l → from_request v h = Some c → readable en s →
  ∃ ns, (respond en set true s v h ListCorpora).2 = Ok (BNames ns) ∧ NoDup ns ∧ StronglySorted str_not_above ns ∧
    ∀ n, n ∈ ns ↔ is_Some (sv_store s !! n) ∧ (administrator c ∨ set_anonymous_access set = true ∨ may_read (grants l) c n).
Proof.
  intros -> E Hr. pose proof (run_new_db_ok en set st fs l) as O. set (s := run en set true (sv_new st fs) l) in *.
  destruct (list_corpora_spec en set s c Hr) as (ns & E1 & Hsort & Hperm). exists ns. unfold respond. rewrite E. split; [exact E1|].
  assert (is_admin c || set_anonymous_access set = true ↔ administrator c ∨ set_anonymous_access set = true) as Hb.
  { rewrite orb_true_iff. unfold is_admin. rewrite bool_decide_eq_true. done. }
  split; [|split; [exact Hsort|]].
  - rewrite Hperm. destruct (_ || _); [|apply NoDup_filter]; apply NoDup_fst_map_to_list.
  - intros n. rewrite Hperm. destruct (is_admin c || set_anonymous_access set).
    + rewrite elem_of_list_fmap. split.
      * intros ((k & x) & -> & Hx). apply elem_of_map_to_list in Hx. split; [by eexists|]. destruct (proj1 Hb eq_refl); tauto.
      * intros [[x Hx] _]. exists (n, x). split; [done|]. by apply elem_of_map_to_list.
    + rewrite keys_filter, (authorized_may_read _ _ c n O). split.
      * intros [H1 H2]. tauto.
      * intros [H1 [H2|[H2|H2]]]; [| |done]; exfalso; [assert (false = true) by (apply Hb; by left)|assert (false = true) by (apply Hb; by right)]; done.
Qed.
Lemma groups_listed st fs l v h c : from_request v h = Some c → administrator c →
  ∃ L, (respond en set true (run en set true (sv_new st fs) l) v h ListGroups).2 = Ok (BGroups L) ∧ NoDup L.*1 ∧
    (∀ g cs, (g, cs) ∈ L → NoDup cs ∧ grants l !! g = Some (list_to_set cs)) ∧
    (∀ g S, grants l !! g = Some S → ∃ cs, (g, cs) ∈ L).
Proof.
  intros E Ha. pose proof (run_new_db_ok en set st fs l) as O. set (s := run en set true (sv_new st fs) l) in *.
  unfold respond. rewrite E. assert (is_admin c = true) as -> by (by apply bool_decide_true). cbn [administrate snd]. eexists. split; [reflexivity|].
  assert ((list_groups (sv_db s)).*1 = db_groups (sv_db s)) as El.
  { unfold list_groups. rewrite <- list_fmap_compose. cbn. apply list_fmap_id. }
  split; [rewrite El; apply O|]. split.
  - intros g cs H. unfold list_groups in H. apply elem_of_list_fmap in H as (g' & [= -> ->] & Hg). split.
    + apply NoDup_fmap_2_strong; [|apply NoDup_filter; apply O]. intros [x1 y1] [x2 y2] H1 H2. apply elem_of_list_filter in H1 as [H1 _], H2 as [H2 _]. cbn in *. by intros ->; subst.
    + apply (ok_groups _ _ O) in Hg as [S HS]. rewrite HS. f_equal. apply set_eq. intros n. rewrite elem_of_list_to_set, elem_of_list_fmap. split.
      * intros Hn. exists (g', n). split; [done|]. apply elem_of_list_filter. split; [done|]. apply (ok_rows _ _ O). by exists S.
      * intros ([x y] & -> & H). apply elem_of_list_filter in H as [H1 H2]. cbn in H1. subst x. apply (ok_rows _ _ O) in H2 as (S' & H3 & H4). cbn. congruence.
  - intros g S HS. assert (g ∈ db_groups (sv_db s)) as Hg by (apply (ok_groups _ _ O); by eexists). unfold list_groups. eexists. apply elem_of_list_fmap. exists g. split; [reflexivity|done].
Qed.
End final.

(** Files *)
Lemma segment_inj n m : pct_encode path_segment_encode_set n = escaped_corpus_name m → Forall is_byte n → Forall is_byte m → n = m.
Proof.
  intros E Hn Hm. rewrite <- (escaped_decode m) by done. rewrite <- E. symmetry. by apply pct_decode_encode.
Qed.
