(** Proofs about the web service. *)
From Coq Require Import NArith String Lia.
From stdpp Require Import base list gmap sorting.
From Verif Require Import KeySer KeySerSpec SortedMap Percent PercentProofs CompPath CompPathSpec CompPathProofs CorpusDir CorpusDirProofs AnnoMem AnnoMemQueries HistogramSpec HistogramProofs EdgeOpsProofs Service ServiceSpec.

(** * Sorting *)
Lemma sort_names_sorted l : StronglySorted str_not_above (sort_names l).
Proof.
  apply sort_list_sorted.
  - exact lex_le_trans.
  - done.
  - intros a b H. unfold str_not_above. apply (cmp_gt_lt lex_compare) in H. by rewrite H.
Qed.
Global Instance str_not_above_antisym : AntiSymm (=) str_not_above.
Proof. intros a b. apply lex_antisym. Qed.
Lemma sort_names_perm l l' : l ≡ₚ l' → sort_names l = sort_names l'.
Proof.
  intros H. apply (StronglySorted_unique str_not_above).
  - apply sort_names_sorted.
  - apply sort_names_sorted.
  - unfold sort_names. by rewrite !sort_list_perm.
Qed.

(** * The database *)
Lemma elem_of_authorized c d n : n ∈ authorized_corpora c d ↔ ∃ g, (g = anonymous ∨ g ∈ cl_groups c) ∧ (g, n) ∈ db_rows d.
Proof.
  unfold authorized_corpora. rewrite elem_of_list_fmap. split.
  - intros ([g m] & -> & H). apply elem_of_list_filter in H as [H1 H2]. cbn in *. exists g. split; [|done].
    apply elem_of_cons in H1. done.
  - intros (g & H1 & H2). exists (g, n). split; [done|]. apply elem_of_list_filter. split; [|done]. cbn. by apply elem_of_cons.
Qed.
Record db_ok (G : groups) (d : database) : Prop := {
  ok_groups : ∀ g, g ∈ db_groups d ↔ is_Some (G !! g);
  ok_rows : ∀ g n, (g, n) ∈ db_rows d ↔ ∃ S, G !! g = Some S ∧ n ∈ S;
  ok_nodup : NoDup (db_groups d);
  ok_nodup_rows : NoDup (db_rows d) }.
Lemma db_ok_empty : db_ok ∅ db_empty.
Proof.
  split; cbn; [..|constructor|constructor].
  - intros g. rewrite lookup_empty. split; [by intros ?%elem_of_nil|by intros [? ?]].
  - intros g n. split; [by intros ?%elem_of_nil|]. intros (S & H & _). by rewrite lookup_empty in H.
Qed.
Lemma db_ok_delete G d g : db_ok G d → db_ok (delete g G) (delete_group true g d).
Proof.
  intros [H1 H2 H3 H4]. unfold delete_group. split; cbn [db_groups db_rows].
  - intros g'. rewrite elem_of_list_filter, H1. destruct (decide (g' = g)) as [-> |Hne].
    + rewrite lookup_delete. split; [by intros [? _]|by intros [? ?]].
    + rewrite lookup_delete_ne by done. tauto.
  - intros g' n. cbn [andb]. destruct (bool_decide_reflect (g ∈ db_groups d)) as [Hg|Hg].
    + rewrite elem_of_list_filter, H2. cbn. destruct (decide (g' = g)) as [-> |Hne].
      * rewrite lookup_delete. split; [by intros [? _]|by intros (? & ? & _)].
      * rewrite lookup_delete_ne by done. tauto.
    + rewrite H2. destruct (decide (g' = g)) as [-> |Hne].
      * rewrite lookup_delete. split; [|by intros (? & ? & _)]. intros (S & E & _). destruct Hg. apply H1. by eexists.
      * by rewrite lookup_delete_ne.
  - by apply NoDup_filter.
  - destruct (_ && _); [by apply NoDup_filter|done].
Qed.
Lemma insert_rows_spec d rs : NoDup rs → (∀ r, r ∈ rs → r ∉ db_rows d) → insert_rows d rs = Some (Database (db_groups d) (db_rows d ++ rs)).
Proof.
  revert d. induction rs as [|r rs IH]; intros d Hn Hr; cbn [insert_rows].
  - rewrite app_nil_r. by destruct d.
  - apply NoDup_cons in Hn as [Hn1 Hn2]. unfold insert_row. rewrite decide_False by (apply Hr; left). rewrite IH; cbn [db_groups db_rows].
    + by rewrite <- app_assoc.
    + done.
    + intros x Hx. rewrite elem_of_app, elem_of_list_singleton. intros [H| ->]; [|done]. by apply (Hr x); [right|].
Qed.
Lemma insert_rows_conflict d rs r : r ∈ db_rows d → r ∈ rs → insert_rows d rs = None.
Proof.
  revert d. induction rs as [|x rs IH]; intros d H1 H2; [by apply elem_of_nil in H2|]. cbn [insert_rows]. unfold insert_row.
  destruct (decide (x ∈ db_rows d)); [done|]. apply elem_of_cons in H2 as [-> | H2]; [done|]. apply IH; [|done]. cbn. apply elem_of_app. by left.
Qed.
Lemma insert_rows_dup d rs : ¬ NoDup rs → insert_rows d rs = None.
Proof.
  revert d. induction rs as [|r rs IH]; intros d Hd; [destruct Hd; constructor|]. cbn [insert_rows]. unfold insert_row.
  destruct (decide (r ∈ db_rows d)); [done|]. destruct (decide (r ∈ rs)) as [Hr|Hr].
  - apply (insert_rows_conflict _ _ r); [|done]. cbn. apply elem_of_app. right. by apply elem_of_list_singleton.
  - apply IH. intros Hn. apply Hd. by constructor.
Qed.
Lemma NoDup_pairs (g : bytes) (l : list bytes) : NoDup ((λ c, (g, c)) <$> l) ↔ NoDup l.
Proof. split; [apply NoDup_fmap_1|]. apply NoDup_fmap_2. by intros ? ? [= ->]. Qed.
Lemma db_ok_put G d g corpora : db_ok G d → NoDup corpora →
  ∃ d', add_or_replace_group true g corpora d = Some d' ∧ db_ok (<[g := list_to_set corpora]> G) d'.
Proof.
  intros [H1 H2 H3 H4] Hn. unfold add_or_replace_group, delete_group. cbn [db_groups db_rows].
  assert (∀ b : bool, (if b then filter (λ r : bytes * bytes, r.1 ≠ g) (filter (λ r, r.1 ≠ g) (db_rows d)) else filter (λ r, r.1 ≠ g) (db_rows d)) = filter (λ r, r.1 ≠ g) (db_rows d)) as Hf.
  { intros [|]; [|done]. rewrite list_filter_filter. apply list_filter_iff. intros x. tauto. }
  rewrite Hf. clear Hf. eexists. split.
  - apply insert_rows_spec; [by apply NoDup_pairs|]. cbn [db_rows]. intros r Hr. rewrite elem_of_list_filter. intros [Hne _].
    apply elem_of_list_fmap in Hr as (c & -> & _). by apply Hne.
  - cbn [db_groups db_rows]. split; cbn [db_groups db_rows].
    + intros g'. rewrite elem_of_app, elem_of_list_filter, elem_of_list_singleton, H1. destruct (decide (g' = g)) as [-> |Hne].
      * rewrite lookup_insert. split; [by eexists|by right].
      * rewrite lookup_insert_ne by done. split; [intros [[? ?]|?]; done|by left].
    + intros g' n. rewrite elem_of_app, elem_of_list_filter, elem_of_list_fmap, H2. cbn. destruct (decide (g' = g)) as [-> |Hne].
      * rewrite lookup_insert. split.
        -- intros [[? _]|(c & [= <-] & Hc)]; [done|]. eexists. split; [done|]. by apply elem_of_list_to_set.
        -- intros (S & [= <-] & Hn'). right. exists n. split; [done|]. by apply elem_of_list_to_set in Hn'.
      * rewrite lookup_insert_ne by done. split; [intros [[_ ?]|(c & [= ? _] & _)]; done|by left].
    + apply NoDup_app. split; [by apply NoDup_filter|]. split; [|apply NoDup_singleton].
      intros x. rewrite elem_of_list_filter, elem_of_list_singleton. by intros [? _] ->.
    + apply NoDup_app. split; [by apply NoDup_filter|]. split; [|by apply NoDup_pairs].
      intros x. rewrite elem_of_list_filter. intros [Hne _] (c & -> & _)%elem_of_list_fmap. by apply Hne.
Qed.
Lemma put_dup fk d g corpora : ¬ NoDup corpora → add_or_replace_group fk g corpora d = None.
Proof. intros H. unfold add_or_replace_group. apply insert_rows_dup. by rewrite NoDup_pairs. Qed.

Section run.
Context {C : Type} (en : engine C) (set : settings).

Lemma is_admin_spec c : is_admin c = bool_decide (administrator c).
Proof. done. Qed.
(** * Requests that are not by an administrator change nothing *)
Lemma respond_unchanged fk s v h q : (∀ c, from_request v h = Some c → ¬ administrator c) → (respond en set fk s v h q).1 = s.
Proof.
  intros Hc. unfold respond. destruct (from_request v h) as [c|] eqn:E; [|by destruct q].
  assert (is_admin c = false) as Ha by (rewrite is_admin_spec; apply bool_decide_false; by apply Hc).
  destruct q; rewrite ?Ha; try done; by destruct (check_read _ _ _ _).
Qed.
Lemma job_answer_db (s : service C) u : sv_db (job_answer s u).1 = sv_db s.
Proof. unfold job_answer. destruct u as [u|]; [|done]. destruct (sv_jobs s !! u) as [j|]; [|done]. destruct (job_status j) as [| |[[? ?]|]]; done. Qed.
Lemma act_db_ok G s a : db_ok G (sv_db s) → db_ok (grant G a) (sv_db (act en set true s a).1).
Proof.
  intros HG. destruct a as [v h q|id m|id|st fs]; cbn [act fst grant].
  - destruct (from_request v h) as [c|] eqn:E.
    + destruct (decide (administrator c)) as [Ha|Ha].
      * unfold respond. rewrite E. assert (is_admin c = true) as Ha' by (rewrite is_admin_spec; by apply bool_decide_true). rewrite ?Ha'.
        destruct q; cbn [fst]; try done; try (destruct (check_read _ _ _ _); done); cbn [administrate].
        -- by destruct (sv_store s !! corpus).
        -- cbn [fst with_db sv_db]. by apply db_ok_delete.
        -- destruct (decide (name = group)) as [-> |Hne].
           ++ destruct (decide (NoDup corpora)) as [Hn|Hn].
              ** rewrite decide_True by done. destruct (db_ok_put _ _ group corpora HG Hn) as (d' & -> & Hd'). done.
              ** rewrite decide_False by tauto. by rewrite put_dup.
           ++ rewrite decide_False by tauto. done.
        -- destruct (job_answer s uuid) eqn:Ej. cbn [fst]. replace s0 with (job_answer s uuid).1 by by rewrite Ej. by rewrite job_answer_db.
      * assert (act en set true s (Request v h q) = (s, Some (respond en set true s v h q).2)) as Hs.
        { cbn [act]. pose proof (respond_unchanged true s v h q) as Hu. destruct (respond en set true s v h q) as [s' r]. cbn [fst snd] in *. rewrite Hu; [done|].
          intros c' Hc'. congruence. }
        cbn [act] in Hs. rewrite Hs. cbn [fst]. destruct q; try done; rewrite decide_False by tauto; done.
    + pose proof (respond_unchanged true s v h q) as Hu. destruct (respond en set true s v h q) as [s' r]. cbn [fst snd] in *. rewrite Hu by (intros c' Hc'; congruence).
      destruct q; done.
  - unfold progress. by destruct (sv_tasks s !! id).
  - unfold finish. destruct (sv_tasks s !! id) as [[zip ov|names]|]; [| |done].
    + by destruct (en_import en zip ov (sv_store s)) as [st [ns|e]].
    + by destruct (export_all en (sv_store s) names).
  - done.
Qed.
Lemma run_db_ok G s l : db_ok G (sv_db s) → db_ok (fold_left grant l G) (sv_db (run en set true s l)).
Proof.
  revert G s. induction l as [|a l IH]; intros G s HG; cbn [run fold_left]; [done|]. apply IH. by apply act_db_ok.
Qed.
Lemma run_new_db_ok st fs l : db_ok (grants l) (sv_db (run en set true (sv_new st fs) l)).
Proof. apply run_db_ok. apply db_ok_empty. Qed.
Lemma authorized_may_read G d c n : db_ok G d → n ∈ authorized_corpora c d ↔ may_read G c n.
Proof.
  intros HG. rewrite elem_of_authorized. unfold may_read. split.
  - intros (g & Hg & Hr). apply (ok_rows _ _ HG) in Hr as (S & H1 & H2). by exists g, S.
  - intros (g & S & Hg & H1 & H2). exists g. split; [done|]. apply (ok_rows _ _ HG). by exists S.
Qed.

(** * Reading *)
Lemma check_read_ok d c names : (∀ n, n ∈ names → n ∈ authorized_corpora c d) → check_read set d c names = inr names.
Proof.
  intros H. unfold check_read. destruct (_ || _); [done|]. assert (forallb (λ n, bool_decide (n ∈ authorized_corpora c d)) names = true) as ->; [|done].
  apply forallb_forall. intros x Hx. apply bool_decide_true. apply H. by apply elem_of_list_In.
Qed.
Lemma check_read_refused d c names : ¬ administrator c → set_anonymous_access set = false →
  ¬ (∀ n, n ∈ names → n ∈ authorized_corpora c d) → check_read set d c names = inl (ForbiddenCorpora (filter (λ n, n ∉ authorized_corpora c d) names)).
Proof.
  intros Ha Hs H. unfold check_read. rewrite is_admin_spec, bool_decide_false, Hs by done. cbn [orb].
  destruct (forallb _ names) eqn:E; [|done]. destruct H. intros n Hn. rewrite forallb_forall in E. apply elem_of_list_In in Hn. apply E in Hn. by apply bool_decide_eq_true in Hn.
Qed.
Lemma list_infos_ok st names : (∀ n c, st !! n = Some c → is_Some (en_config en c)) → list_infos en st names = Fine names.
Proof.
  intros H. induction names as [|n names IH]; cbn [list_infos]; [done|]. unfold corpus_info. destruct (st !! n) as [c|] eqn:E.
  - destruct (H n c E) as [t ->]. by rewrite IH.
  - by rewrite IH.
Qed.
Lemma count_extra_ext st1 st2 names q : (∀ n, n ∈ names → st1 !! n = st2 !! n) → ∀ a b, count_extra en st1 names q a b = count_extra en st2 names q a b.
Proof.
  intros H. induction names as [|n names IH]; intros a b; cbn [count_extra]; [done|]. rewrite (H n) by left.
  destruct (en_count en (st2 !! n) q) as [[x y]|]; [|done]. apply IH. intros m Hm. apply H. by right.
Qed.
Lemma find_loop_ext st1 st2 names q off lim ord : (∀ n, n ∈ names → st1 !! n = st2 !! n) → ∀ cur found,
  find_loop en st1 names q off cur lim ord found = find_loop en st2 names q off cur lim ord found.
Proof.
  intros H. induction names as [|n names IH]; intros cur found; cbn [find_loop]; [done|]. rewrite (H n) by left.
  destruct (en_find en (st2 !! n) q cur lim ord) as [[x y]|]; [|done]. destruct (decide _); [done|]. apply IH. intros m Hm. apply H. by right.
Qed.
Lemma find_ext st1 st2 names q off lim ord : (∀ l, en_shuffle en l ≡ₚ l) → (∀ n, n ∈ names → st1 !! n = st2 !! n) →
  find en st1 names q off lim ord = find en st2 names q off lim ord.
Proof.
  intros Hp H. unfold find. destruct names as [|n [|n' names]]; [done|by rewrite (H n) by left|]. set (names' := n :: n' :: names) in *. clearbody names'.
  apply find_loop_ext. intros m Hm. apply H. destruct ord; [|rewrite elem_of_reverse in Hm|..|by rewrite Hp in Hm]; unfold sort_names in Hm; by rewrite sort_list_perm in Hm.
Qed.
Lemma frequencies_ext st1 st2 names q def : (∀ n, n ∈ names → st1 !! n = st2 !! n) → ∀ f, frequencies en st1 names q def f = frequencies en st2 names q def f.
Proof.
  intros H. induction names as [|n names IH]; intros f; cbn [frequencies]; [done|]. rewrite (H n) by left.
  destruct (en_frequency en (st2 !! n) q def); [|done]. apply IH. intros m Hm. apply H. by right.
Qed.

(** * Paths *)
Lemma parts_app p s cur : parts (p ++ slash :: s) cur = parts p cur ++ parts s [].
Proof.
  revert cur. induction p as [|b p IH]; intros cur; cbn [app parts].
  - by rewrite decide_True.
  - destruct (decide (b = slash)); cbn [app]; [f_equal|]; apply IH.
Qed.
(** The names a relative path without ".." goes down *)
Definition down (s : bytes) : list bytes := filter (λ p, p ≠ [] ∧ p ≠ str ".") (parts s []).
Lemma walk_down ps acc : str ".." ∉ ps → fold_left walk_part ps acc = reverse (filter (λ p, p ≠ [] ∧ p ≠ str ".") ps) ++ acc.
Proof.
  revert acc. induction ps as [|p ps IH]; intros acc Hn; cbn [fold_left]; [done|]. rewrite not_elem_of_cons in Hn. destruct Hn as [H1 H2].
  rewrite IH by done. unfold walk_part. destruct (decide (p = [] ∨ p = str ".")) as [Hp|Hp].
  - rewrite filter_cons_False; [done|]. intros [A B]. destruct Hp; done.
  - rewrite decide_False by congruence. rewrite filter_cons_True by tauto. rewrite reverse_cons, <- app_assoc. done.
Qed.
Lemma has_dots_cons a s : has_dots (a :: s) = false → has_dots s = false.
Proof. destruct s as [|b s]; [done|]. cbn [has_dots]. intros H. by apply orb_false_iff in H as [_ H]. Qed.
Lemma has_dots_app a s : has_dots (a ++ s) = false → has_dots s = false.
Proof. induction a as [|x a IH]; [done|]. cbn [app]. intros H. apply has_dots_cons in H. by apply IH. Qed.
Lemma parts_no_dots s : has_dots s = false → str ".." ∉ parts s [].
Proof.
  assert (∀ s cur, has_dots (reverse cur ++ s) = false → str ".." ∉ parts s cur) as H; [|by apply (H s [])].
  clear s. induction s as [|b s IH]; intros cur H; cbn [parts].
  - rewrite app_nil_r in H. rewrite elem_of_list_singleton. intros E. rewrite <- E in H. by vm_compute in H.
  - destruct (decide (b = slash)) as [-> |Hb].
    + apply not_elem_of_cons. split.
      * intros E. rewrite <- E in H. by vm_compute in H.
      * apply IH. cbn. apply has_dots_app in H. by apply has_dots_cons in H.
    + apply IH. by rewrite reverse_cons, <- app_assoc.
Qed.
Lemma push_down p s : p ≠ [] → starts_with [slash] s = false → has_dots s = false →
  resolve (push p s) = ((resolve p).1, (resolve p).2 ++ down s).
Proof.
  intros Hp Hs Hd. apply parts_no_dots in Hd.
  assert (∀ q, q ≠ [] → resolve (q ++ slash :: s) = ((resolve q).1, (resolve q).2 ++ down s)) as Hr.
  { intros q Hq. unfold resolve. rewrite parts_app, fold_left_app, walk_down by done. rewrite reverse_app, reverse_involutive. cbn [fst snd]. f_equal. by destruct q. }
  assert (∀ q, q ≠ [] → resolve (q ++ [slash]) = resolve q) as Hr0.
  { intros q Hq. unfold resolve. rewrite parts_app, fold_left_app. cbn [fold_left parts]. unfold walk_part at 1. rewrite decide_True by (by left).
    f_equal. by destruct q. }
  destruct (last p) as [e|] eqn:El; [|by apply last_None in El].
  destruct s as [|b s].
  - cbn [push]. rewrite El. assert (down [] = []) as -> by (vm_compute; reflexivity). rewrite app_nil_r. destruct (decide (e = slash)).
    + by destruct (resolve p).
    + rewrite Hr0 by done. by destruct (resolve p).
  - cbn [push]. rewrite decide_False. 2:{ intros ->. unfold starts_with in Hs. by vm_compute in Hs. }
    rewrite El. destruct (decide (e = slash)) as [-> |He]; [|by apply Hr].
    apply last_Some in El as [q ->]. rewrite <- app_assoc. cbn [app]. destruct q as [|b0 q].
    + cbn [app]. unfold resolve. assert (parts (slash :: b :: s) [] = [] :: parts (b :: s) []) as ->.
      { cbn [parts]. by rewrite decide_True. }
      cbn [fold_left]. assert (walk_part [] [] = []) as -> by (vm_compute; reflexivity). rewrite walk_down by done. rewrite app_nil_r, reverse_involutive.
      cbn [fst snd]. rewrite bool_decide_true by done. f_equal.
    + rewrite Hr, Hr0 by done. done.
Qed.
Lemma push_ne p s : p ≠ [] → push p s ≠ [].
Proof.
  intros Hp. destruct s as [|b s]; cbn [push].
  - destruct (last p) as [e|] eqn:E; [|by apply last_None in E]. destruct (decide (e = slash)); [done|]. by destruct p.
  - destruct (decide (b = slash)); [done|]. destruct (last p) as [e|] eqn:E; [|by apply last_None in E]. destruct (decide (e = slash)); by destruct p.
Qed.
Lemma segment_file_name n : Forall is_byte n → n ≠ [] → n ≠ str "." → n ≠ str ".." →
  file_name (pct_encode path_segment_encode_set n) ∧ pct_encode path_segment_encode_set n ≠ [].
Proof.
  intros Hb H0 H1 H2. split; [split; [apply pct_encode_no; [done|vm_compute; reflexivity|unfold slash; lia..]|]|intros H; by apply pct_encode_nil_inv in H].
  assert (∀ s, Forall is_byte s → Forall (λ b, should_encode path_segment_encode_set b = false) s → n ≠ s → pct_encode path_segment_encode_set n ≠ s) as Hd.
  { intros s Hs Hn Hne E. apply Hne. apply (pct_encode_inj path_segment_encode_set); [done|done| ..]. all: try done. rewrite E. symmetry. by apply pct_encode_id. }
  split; apply Hd; try done; repeat constructor.
Qed.
Lemma files_dir_spec n : set_data set ≠ [] → Forall is_byte n → n ≠ [] → n ≠ str "." → n ≠ str ".." →
  resolve (files_dir set n) = ((resolve (set_data set)).1, (resolve (set_data set)).2 ++ [pct_encode path_segment_encode_set n; str "files"]).
Proof.
  intros Hd Hb H0 H1 H2. destruct (segment_file_name n Hb H0 H1 H2) as [Hf Hne]. unfold files_dir. rewrite push_resolve.
  - rewrite push_resolve by done. cbn [fst snd]. rewrite <- app_assoc. done.
  - by apply push_ne.
  - done.
  - split; [|done]. unfold slash. vm_compute. intros H. repeat (apply elem_of_cons in H as [H|H]; [done|]). by apply elem_of_nil in H.
Qed.
Lemma plain_dots n : has_dots n = false → n ≠ str "..".
Proof. intros H ->. by vm_compute in H. Qed.
Lemma files_dir_ne n : set_data set ≠ [] → files_dir set n ≠ [].
Proof. intros H. by apply push_ne, push_ne. Qed.

Lemma strip_prefix_spec base p rel : strip_prefix base p = Some rel ↔ p = (base.1, base.2 ++ rel).
Proof.
  unfold strip_prefix. destruct base as [a b], p as [c d]. cbn [fst snd]. split.
  - destruct (decide _) as [[-> E]|]; [|done]. intros [= <-]. rewrite <- E at 1. by rewrite take_drop.
  - intros [= -> ->]. rewrite decide_True by (split; [done|apply take_app]). by rewrite drop_app.
Qed.
Lemma below_spec base p : below base p = true ↔ ∃ rel, p = (base.1, base.2 ++ rel).
Proof.
  unfold below. rewrite bool_decide_eq_true. split.
  - intros [rel H]. exists rel. by apply strip_prefix_spec.
  - intros [rel H]. exists rel. by apply strip_prefix_spec.
Qed.
Lemma files_below_ext fs1 fs2 base d : (∀ rel, fs1 !! (base.1, base.2 ++ rel) = fs2 !! (base.1, base.2 ++ rel)) →
  files_below fs1 (base.1, base.2 ++ d) = files_below fs2 (base.1, base.2 ++ d).
Proof.
  intros H. unfold files_below. f_equal. f_equal. apply map_eq. intros p.
  destruct (decide (below (base.1, base.2 ++ d) p = true)) as [Hb|Hb].
  - assert (fs1 !! p = fs2 !! p) as E. { apply below_spec in Hb as [rel ->]. cbn [fst snd]. rewrite <- app_assoc. apply H. }
    apply option_eq. intros x. rewrite !map_filter_lookup_Some, E. done.
  - rewrite !map_filter_lookup_None_2; [done|..]; right; intros x _ [? _]; done.
Qed.
Lemma check_path_none p : check_path p = None → has_dots p = false ∧ starts_with [slash] p = false.
Proof. unfold check_path. destruct (has_dots p); [done|]. by destruct (starts_with [slash] p). Qed.
Lemma list_files_ext fs1 fs2 n node : set_data set ≠ [] → plain_name n →
  (∀ rel, fs1 !! ((files_of set n).1, (files_of set n).2 ++ rel) = fs2 !! ((files_of set n).1, (files_of set n).2 ++ rel)) →
  list_files set fs1 n node = list_files set fs2 n node.
Proof.
  intros Hd (Hb & H0 & H1 & H2 & H3) H. unfold list_files. cbv zeta. change (resolve (files_dir set n)) with (files_of set n). set (base := files_of set n) in *.
  assert (fs1 !! base = fs2 !! base) as ->. { specialize (H []). rewrite app_nil_r in H. by destruct base. }
  assert (∀ s, has_dots s = false → starts_with [slash] s = false → resolve (push (files_dir set n) s) = (base.1, base.2 ++ down s)) as Hp.
  { intros s Hs1 Hs2. apply push_down; [by apply files_dir_ne|done|done]. }
  destruct (fs2 !! base); [|done]. cbv zeta. destruct node as [node|].
  - destruct (check_path (trim node)) eqn:E; [done|]. apply check_path_none in E as [E1 E2]. rewrite Hp, H by done. by rewrite (files_below_ext fs1 fs2).
  - rewrite Hp, H by done. by rewrite (files_below_ext fs1 fs2).
Qed.
Lemma file_content_ext fs1 fs2 n name : set_data set ≠ [] →
  (∀ rel, fs1 !! ((files_of set n).1, (files_of set n).2 ++ rel) = fs2 !! ((files_of set n).1, (files_of set n).2 ++ rel)) →
  file_content set fs1 n name = file_content set fs2 n name.
Proof.
  intros Hd H. unfold file_content. destruct (check_path _) eqn:E; [done|]. apply check_path_none in E as [E1 E2].
  rewrite push_down by (try done; by apply files_dir_ne). by rewrite H.
Qed.

Lemma read_corpora_ext s1 s2 q : (∀ l, en_shuffle en l ≡ₚ l) → set_data set ≠ [] → (∀ n, n ∈ named_corpora q → same_corpus set n s1 s2) →
  (∀ n node, q = ListFiles n node → plain_name n) → read_corpora en set s1 q = read_corpora en set s2 q.
Proof.
  intros Hp Hd H Hl. destruct q; cbn [read_corpora named_corpora] in *; try done.
  - rewrite (count_extra_ext _ (sv_store s2)); [done|]. intros n Hn. by apply H.
  - rewrite (find_ext _ (sv_store s2)); [done|done|]. intros n Hn. by apply H.
  - rewrite (frequencies_ext _ (sv_store s2)); [done|]. intros n Hn. by apply H.
  - destruct (H corpus) as [-> _]; [by left|]. done.
  - unfold corpus_info. destruct (H corpus) as [-> _]; [by left|]. done.
  - destruct (H corpus) as [_ E]; [by left|]. apply list_files_ext; [done| |done]. by eapply Hl.
  - destruct (H corpus) as [_ E]; [by left|]. by apply file_content_ext.
Qed.
Lemma named_requested q : requested q = named_corpora q.
Proof. by destruct q. Qed.

(** The answer to a reading request *)
Lemma respond_read fk s v h q c : from_request v h = Some c → public q = false → admin_only q = false → q ≠ ListCorpora →
  (respond en set fk s v h q).2 = match check_read set (sv_db s) c (named_corpora q) with inl r => r | inr _ => read_corpora en set s q end.
Proof.
  intros E H1 H2 H3. unfold respond. rewrite E. destruct q; try done; cbn [requested named_corpora]; by destruct (check_read _ _ _ _).
Qed.
Lemma list_corpora_spec s c : readable en s → ∃ l, list_corpora en set (sv_store s) (sv_db s) c = Ok (BNames l) ∧ StronglySorted str_not_above l ∧
  l ≡ₚ (if is_admin c || set_anonymous_access set then (map_to_list (sv_store s)).*1 else filter (λ n, n ∈ authorized_corpora c (sv_db s)) (map_to_list (sv_store s)).*1).
Proof.
  intros Hr. unfold list_corpora. rewrite list_infos_ok by (intros n x Hx; exact (Hr n x Hx)). eexists. split; [reflexivity|]. split; [apply sort_names_sorted|].
  unfold sort_names. by rewrite sort_list_perm.
Qed.
Lemma keys_filter (st : gmap bytes C) (P : bytes → Prop) `{!∀ n, Decision (P n)} n : n ∈ filter P (map_to_list st).*1 ↔ P n ∧ is_Some (st !! n).
Proof.
  rewrite elem_of_list_filter, elem_of_list_fmap. split.
  - intros [HP ((k & x) & -> & Hx)]. split; [done|]. apply elem_of_map_to_list in Hx. by eexists.
  - intros [HP [x Hx]]. split; [done|]. exists (n, x). split; [done|]. by apply elem_of_map_to_list.
Qed.
Lemma list_corpora_ext s1 s2 c : readable en s1 → readable en s2 → ¬ administrator c → set_anonymous_access set = false →
  (∀ n, n ∈ authorized_corpora c (sv_db s1) ↔ n ∈ authorized_corpora c (sv_db s2)) →
  (∀ n, n ∈ authorized_corpora c (sv_db s1) → sv_store s1 !! n = sv_store s2 !! n) →
  list_corpora en set (sv_store s1) (sv_db s1) c = list_corpora en set (sv_store s2) (sv_db s2) c.
Proof.
  intros R1 R2 Ha Hs Hd Hst. unfold list_corpora. rewrite !list_infos_ok by (intros n x Hx; first [exact (R1 n x Hx)|exact (R2 n x Hx)]).
  rewrite is_admin_spec, bool_decide_false, Hs by done. cbn [orb]. f_equal. f_equal. apply sort_names_perm. apply NoDup_Permutation.
  - apply NoDup_filter. apply NoDup_fst_map_to_list.
  - apply NoDup_filter. apply NoDup_fst_map_to_list.
  - intros n. rewrite !keys_filter. rewrite <- Hd. split; intros [H1 H2]; (split; [done|]); rewrite Hst in *; done.
Qed.
End run.
