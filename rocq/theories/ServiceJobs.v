(** Proofs about the background jobs and about the responses of the web service. *)
From Coq Require Import NArith String Lia.
From stdpp Require Import base list gmap sorting.
From Verif Require Import ListExtra KeySer KeySerSpec Percent PercentProofs CompPath CompPathSpec CompPathProofs CorpusDir CorpusDirProofs HistogramSpec Service ServiceSpec ServiceProofs.

Section jobs.
Context {C : Type} (en : engine C) (set : settings).

(** * Jobs *)
Definition final (j : job) : response :=
  match job_status j with
  | Running => NotFound
  | JobFailed => Gone (job_messages j)
  | Finished (Some (name, zip)) => Ok (BZip name zip)
  | Finished None => Ok (BStatus (job_messages j))
  end.
Definition J (s : service C) (id : N) (w : jview) : Prop :=
  match w with
  | VNone => sv_jobs s !! id = None ∧ sv_tasks s !! id = None
  | VRunning t ms => sv_jobs s !! id = Some (Job ms Running) ∧ sv_tasks s !! id = Some t
  | VDone r => sv_tasks s !! id = None ∧ ∃ j, sv_jobs s !! id = Some j ∧ job_status j ≠ Running ∧ final j = r
  end.
Lemma J_ext s s' id w : sv_jobs s' !! id = sv_jobs s !! id → sv_tasks s' !! id = sv_tasks s !! id → J s id w → J s' id w.
Proof. intros E1 E2. unfold J. rewrite E1, E2. done. Qed.
Lemma export_zip st names : match zip_of en st names with inl l => export_all en st names = Fine l | inr e => export_all en st names = Fault e end.
Proof.
  induction names as [|n names IH]; cbn; [done|]. destruct (en_export en (st !! n)); [|done]. destruct (zip_of en st names); by rewrite IH.
Qed.
Lemma J_start s id i t w : J s id w → J (start_job s i t).1 id (if decide (i = id) then VRunning t [] else w).
Proof.
  intros H. destruct (decide (i = id)) as [-> |Hne].
  - cbn. by rewrite !lookup_insert.
  - eapply J_ext; [..|exact H]; cbn; by rewrite lookup_insert_ne.
Qed.
Lemma J_answer s id u w : J s id w →
  J (job_answer s (Some u)).1 id (if decide (u = id) then match w with VDone _ => VNone | _ => w end else w).
Proof.
  intros H. unfold job_answer. destruct (decide (u = id)) as [-> |Hne].
  - destruct w as [|t ms|r]; cbn [J] in *.
    + destruct H as [E H]. rewrite E. cbn. done.
    + destruct H as [E H]. rewrite E. cbn. done.
    + destruct H as (H1 & j & H2 & H3 & H4). rewrite H2. destruct (job_status j) as [| |[[? ?]|]]; [done|..]; cbn; rewrite lookup_delete; done.
  - destruct (sv_jobs s !! u) as [j|]; [|done]. destruct (job_status j) as [| |[[? ?]|]]; [done|..]; (eapply J_ext; [..|exact H]; cbn; by rewrite ?lookup_delete_ne).
Qed.
Lemma by_admin_spec v h c : from_request v h = Some c → by_admin v h = is_admin c.
Proof. intros E. unfold by_admin. by rewrite E. Qed.
Lemma J_act fk s id a w : J s id w → J (act en set fk s a).1 id (jnext en id (sv_store s) a w).
Proof.
  intros H. destruct a as [v h q|i m|i|st fs]; cbn [act fst].
  - destruct (by_admin v h) eqn:Eb.
    + unfold by_admin in Eb. destruct (from_request v h) as [c|] eqn:E; [|done]. assert (is_admin c = true) as Ha by exact Eb. unfold respond. rewrite E, Ha.
      pose proof (by_admin_spec v h c E) as Eb'. rewrite Ha in Eb'.
      destruct q; cbn [jnext fst]; rewrite ?Eb'; cbn [andb]; try exact H; try (destruct (check_read _ _ _ _); exact H); cbn [administrate].
      * destruct (sv_store s !! corpus); [|exact H]. eapply J_ext; [..|exact H]; done.
      * destruct (decide _); [|exact H]. destruct (add_or_replace_group _ _ _ _); [|exact H]. eapply J_ext; [..|exact H]; done.
      * pose proof (J_start s id id0 (TImport zip override) w H) as Hj. destruct (decide (id0 = id)); [rewrite bool_decide_true by done|rewrite bool_decide_false by done]; exact Hj.
      * pose proof (J_start s id id0 (TExport corpora) w H) as Hj. destruct (decide (id0 = id)); [rewrite bool_decide_true by done|rewrite bool_decide_false by done]; exact Hj.
      * destruct uuid as [u|]; [|exact H]. pose proof (J_answer s id u w H) as Hj. destruct (job_answer s (Some u)) as [s' r]. cbn [fst] in *.
        destruct (decide (u = id)); [rewrite bool_decide_true by done|rewrite bool_decide_false by done]; exact Hj.
    + pose proof (respond_unchanged en set fk s v h q) as Hu. destruct (respond en set fk s v h q) as [s' r]. cbn [fst] in *. rewrite Hu.
      * destruct q; cbn [jnext]; rewrite ?Eb; cbn [andb]; try exact H. by destruct uuid.
      * intros c E. unfold by_admin in Eb. rewrite E in Eb. by apply bool_decide_eq_false in Eb.
  - unfold progress. cbn [jnext]. destruct (bool_decide_reflect (i = id)) as [-> |Hne].
    + destruct w as [|t ms|r]; cbn [J] in *.
      * destruct H as [H1 H2]. rewrite H2. cbn [J]. done.
      * destruct H as [H1 H2]. rewrite H2. cbn. rewrite lookup_alter, H1. cbn. done.
      * destruct H as [H1 H2]. rewrite H1. cbn [J]. done.
    + destruct (sv_tasks s !! i); [|exact H]. eapply J_ext; [..|exact H]; cbn; [by rewrite lookup_alter_ne|done].
  - unfold finish. cbn [jnext]. destruct (bool_decide_reflect (i = id)) as [-> |Hne].
    + destruct w as [|t ms|r]; cbn [J] in *.
      * destruct H as [H1 H2]. rewrite H2. cbn [J]. done.
      * destruct H as [H1 H2]. rewrite H2. destruct t as [zip ov|names].
        -- cbn [result]. destruct (en_import en zip ov (sv_store s)) as [st [ns|e]]; cbn; rewrite lookup_delete, lookup_alter, H1; (split; [done|]); eexists; cbn; done.
        -- pose proof (export_zip (sv_store s) names) as Ez. cbn [result]. destruct (zip_of en (sv_store s) names) as [l|e]; rewrite Ez; cbn; rewrite lookup_delete, lookup_alter, H1;
             (split; [done|]); eexists; cbn; done.
      * destruct H as [H1 H2]. rewrite H1. cbn [J]. done.
    + destruct (sv_tasks s !! i) as [[zip ov|names]|]; [| |exact H].
      * destruct (en_import en zip ov (sv_store s)) as [st [ns|e]]; (eapply J_ext; [..|exact H]; cbn; [by rewrite lookup_alter_ne|by rewrite lookup_delete_ne]).
      * destruct (export_all en (sv_store s) names); (eapply J_ext; [..|exact H]; cbn; [by rewrite lookup_alter_ne|by rewrite lookup_delete_ne]).
  - eapply J_ext; [..|exact H]; done.
Qed.
Lemma J_run fk s id l w : J s id w → J (run en set fk s l) id (job_view en fk set id s l w).
Proof. revert s w. induction l as [|a l IH]; intros s w H; cbn [run job_view]; [done|]. apply IH. by apply J_act. Qed.
Lemma J_response fk s id w v h c : J s id w → from_request v h = Some c → administrator c →
  (respond en set fk s v h (Jobs (Some id))).2 = expected w.
Proof.
  intros H E Ha. unfold respond. rewrite E. assert (is_admin c = true) as -> by (by apply bool_decide_true). cbn [administrate]. unfold job_answer.
  destruct w as [|t ms|r]; cbn [J expected] in *.
  - by destruct H as [-> _].
  - by destruct H as [-> _].
  - destruct H as (_ & j & -> & Hr & <-). unfold final. by destruct (job_status j) as [| |[[? ?]|]].
Qed.
Lemma job_view_app fk id s l l' w : job_view en fk set id s (l ++ l') w = job_view en fk set id (run en set fk s l) l' (job_view en fk set id s l w).
Proof. revert s w. induction l as [|a l IH]; intros s w; cbn [app job_view run]; [done|]. apply IH. Qed.
Lemma run_app fk s l l' : run en set fk s (l ++ l') = run en set fk (run en set fk s l) l'.
Proof. revert s. induction l as [|a l IH]; intros s; cbn [app run]; [done|]. apply IH. Qed.
(** Without a new start, a job that is gone stays so *)
Lemma jnext_none id st a : (∀ i, started [a] = [i] → i ≠ id) → jnext en id st a VNone = VNone.
Proof.
  intros H. destruct a as [v h q|i m|i|st' fs]; cbn; try done.
  - destruct q; cbn; try done.
    + rewrite bool_decide_false by (by apply H). by rewrite andb_false_r.
    + rewrite bool_decide_false by (by apply H). by rewrite andb_false_r.
    + destruct uuid as [u|]; [|done]. by destruct (_ && _).
  - by destruct (bool_decide _).
  - by destruct (bool_decide _).
Qed.
Lemma job_view_none fk id s l : id ∉ started l → job_view en fk set id s l VNone = VNone.
Proof.
  revert s. induction l as [|a l IH]; intros s H; cbn [job_view]; [done|].
  assert (started (a :: l) = started [a] ++ started l) as E.
  { unfold started. cbn [omap list_omap]. destruct a as [v h q| | |]; try done; by destruct q. }
  rewrite E, elem_of_app in H. rewrite jnext_none.
  - apply IH. tauto.
  - intros i Hi ->. apply H. left. rewrite Hi. by apply elem_of_list_singleton.
Qed.
End jobs.

(** * Files *)
Section files.
Context (set : settings).
Lemma list_files_ok fs n node l : list_files set fs n node = Ok (BPaths l) →
  ∀ rel, rel ∈ l → ∃ t, fs !! ((files_of set n).1, (files_of set n).2 ++ rel) = Some (File t).
Proof.
  unfold list_files. cbv zeta. change (resolve (files_dir set n)) with (files_of set n). destruct (fs !! files_of set n); [|done].
  assert (∀ s, match fs !! resolve (push (files_dir set n) s) with
               | Some Dir => match strip_all (files_of set n) (files_below fs (resolve (push (files_dir set n) s))) with
                             | Some l => Ok (BPaths l) | None => Failed None end
               | _ => Ok (BPaths []) end = Ok (BPaths l) →
          ∀ rel, rel ∈ l → ∃ t, fs !! ((files_of set n).1, (files_of set n).2 ++ rel) = Some (File t)) as H.
  { intros s. destruct (fs !! resolve (push (files_dir set n) s)) as [[|t]|]; [|intros [= <-] rel Hr; by apply elem_of_nil in Hr..].
    destruct (strip_all _ _) as [l'|] eqn:Es; [|done]. intros [= ->] rel Hr.
    assert (∀ ps, strip_all (files_of set n) ps = Some l → ∃ p, p ∈ ps ∧ strip_prefix (files_of set n) p = Some rel) as Hs.
    { clear Es. revert Hr. induction l as [|x l IH]; intros Hr ps Hps; [by apply elem_of_nil in Hr|]. destruct ps as [|p ps]; cbn [strip_all] in Hps; [done|].
      destruct (strip_prefix _ p) as [x'|] eqn:E1; [|done]. destruct (strip_all _ ps) as [l2|] eqn:E2; [|done]. injection Hps as -> ->.
      apply elem_of_cons in Hr as [-> |Hr].
      - exists p. split; [left|done].
      - destruct (IH Hr ps E2) as (p' & H1 & H2). exists p'. split; [by right|done]. }
    destruct (Hs _ Es) as (p & Hp & Es'). clear Es Hs. rename Es' into Es. apply strip_prefix_spec in Es. subst p. unfold files_below in Hp. apply elem_of_list_fmap in Hp as ([p x] & E & Hp). cbn in E.
    apply elem_of_map_to_list in Hp. apply map_filter_lookup_Some in Hp as [Hp [_ Hx]]. cbn in Hx. subst p. destruct x as [|t]; [done|]. by exists t. }
  destruct node as [node|]; [|apply H]. destruct (check_path (trim node)) eqn:E; [|apply H]. unfold check_path in E.
  destruct (has_dots _); [by injection E as <-|]. destruct (starts_with _ _); [by injection E as <-|done].
Qed.
Lemma file_content_ok fs n name t : set_data set ≠ [] → file_content set fs n name = Ok (BText t) →
  ∃ rel, fs !! ((files_of set n).1, (files_of set n).2 ++ rel) = Some (File t).
Proof.
  intros Hd. unfold file_content. destruct (check_path _) eqn:E.
  - unfold check_path in E. destruct (has_dots _); [injection E as <-; done|]. destruct (starts_with _ _); [injection E as <-; done|done].
  - apply check_path_none in E as [E1 E2]. rewrite push_down by (try done; by apply files_dir_ne). fold (files_of set n).
    destruct (fs !! _) as [[|t']|] eqn:Ef; [done| |done]. intros [= ->]. by eexists.
Qed.
Lemma parts_join l : l ≠ [] → Forall (λ n, slash ∉ n) l → parts (join_path l) [] = l.
Proof.
  induction l as [|n l IH]; intros H0 H; [done|]. apply Forall_cons in H as [H1 H2]. destruct l as [|m l].
  - cbn [join_path]. by rewrite parts_plain.
  - change (join_path (n :: m :: l)) with (n ++ slash :: join_path (m :: l)). rewrite parts_app. rewrite parts_plain by done. cbn [app reverse]. f_equal. by apply IH.
Qed.
Lemma down_join l : l ≠ [] → Forall (λ n, file_name n ∧ n ≠ []) l → down (join_path l) = l.
Proof.
  intros H0 H. unfold down. rewrite parts_join; [|done|].
  - apply list_filter_all. intros n Hn. rewrite Forall_forall in H. destruct (H n Hn) as ((_ & H1 & _) & H2). done.
  - eapply Forall_impl; [exact H|]. intros n ((H1 & _) & _). done.
Qed.
Lemma join_not_absolute l : l ≠ [] → Forall (λ n, file_name n ∧ n ≠ []) l → starts_with [slash] (join_path l) = false.
Proof.
  intros H0 H. destruct l as [|n l]; [done|]. apply Forall_cons in H as [[(H1 & _) H2] _]. destruct n as [|b n]; [done|]. apply not_elem_of_cons in H1 as [H1 _].
  unfold starts_with. apply bool_decide_false. destruct l; cbn; congruence.
Qed.
Lemma file_content_join fs n name rel t : set_data set ≠ [] → rel ≠ [] → Forall (λ n, file_name n ∧ n ≠ []) rel →
  has_dots (join_path rel) = false → trim (pct_decode name) = join_path rel →
  fs !! ((files_of set n).1, (files_of set n).2 ++ rel) = Some (File t) → file_content set fs n name = Ok (BText t).
Proof.
  intros Hd H0 H1 H2 Ht Hf. unfold file_content. rewrite Ht. unfold check_path. rewrite H2. rewrite join_not_absolute by done.
  rewrite push_down; [|by apply files_dir_ne|by apply join_not_absolute|done]. fold (files_of set n). rewrite down_join by done. by rewrite Hf.
Qed.
Lemma strip_all_below base dir ps : (∀ p, p ∈ ps → below (base.1, base.2 ++ dir) p = true) → NoDup ps →
  ∃ l, strip_all base ps = Some l ∧ NoDup l ∧ ∀ rel, rel ∈ l ↔ (base.1, base.2 ++ rel) ∈ ps.
Proof.
  induction ps as [|p ps IH]; intros Hb Hn.
  - exists []. split; [reflexivity|]. split; [constructor|]. intros rel. by rewrite !elem_of_nil.
  - apply NoDup_cons in Hn as [Hp Hn]. destruct IH as (l & H1 & H2 & H3); [intros q Hq; apply Hb; by right|done|].
    destruct (proj1 (below_spec _ _) (Hb p (elem_of_list_here _ _))) as [r Hr]. cbn in Hr.
    assert (strip_prefix base p = Some (dir ++ r)) as E. { apply strip_prefix_spec. rewrite Hr. by rewrite (assoc_L (++)). }
    exists ((dir ++ r) :: l). split; [cbn [strip_all]; by rewrite E, H1|]. apply strip_prefix_spec in E. split.
    + apply NoDup_cons. split; [|done]. rewrite H3, <- E. done.
    + intros rel. rewrite !elem_of_cons, H3. split; (intros [H|H]; [left|by right]).
      * by rewrite H, E.
      * rewrite E in H. injection H as H. by apply (inj (app _)) in H.
Qed.
Lemma list_files_complete fs n dir node : set_data set ≠ [] → dir ≠ [] → Forall (λ n, file_name n ∧ n ≠ []) dir →
  has_dots (join_path dir) = false →
  (node = Some (join_path dir) ∧ trim (join_path dir) = join_path dir ∨ node = None ∧ n = join_path dir) →
  is_Some (fs !! files_of set n) → fs !! ((files_of set n).1, (files_of set n).2 ++ dir) = Some Dir →
  ∃ l, list_files set fs n node = Ok (BPaths l) ∧ NoDup l ∧
    ∀ rel, rel ∈ l ↔ (∃ rest, rel = dir ++ rest) ∧ ∃ t, fs !! ((files_of set n).1, (files_of set n).2 ++ rel) = Some (File t).
Proof.
  intros Hd H0 H1 H2 Hnode [x Hx] Hdir.
  assert (resolve (push (files_dir set n) (join_path dir)) = ((files_of set n).1, (files_of set n).2 ++ dir)) as Er.
  { rewrite push_down; [|by apply files_dir_ne|by apply join_not_absolute|done]. fold (files_of set n). by rewrite down_join by done. }
  destruct (strip_all_below (files_of set n) dir (files_below fs ((files_of set n).1, (files_of set n).2 ++ dir))) as (l & L1 & L2 & L3).
  { intros p Hp. unfold files_below in Hp. apply elem_of_list_fmap in Hp as ([p' y] & E & Hp). cbn in E. subst p'.
    apply elem_of_map_to_list in Hp. by apply map_filter_lookup_Some in Hp as [Hp [Hy _]]. }
  { unfold files_below. apply NoDup_fst_map_to_list. }
  exists l. split; [|split; [done|]].
  - unfold list_files. cbv zeta. change (resolve (files_dir set n)) with (files_of set n). rewrite Hx.
    destruct Hnode as [[-> Ht]|[-> Hn]].
    + rewrite Ht. unfold check_path. rewrite H2, join_not_absolute by done. by rewrite Er, Hdir, L1.
    + rewrite <- Hn in Er. by rewrite Er, Hdir, L1.
  - intros rel. rewrite L3. unfold files_below. rewrite elem_of_list_fmap. split.
    + intros ([p y] & E & Hp). cbn in E. subst p. apply elem_of_map_to_list in Hp. apply map_filter_lookup_Some in Hp as [Hp [Hb Hy]].
      cbn in Hb, Hy. apply below_spec in Hb as [r Hr]. cbn in Hr. injection Hr as Hr. rewrite <- (assoc_L (++)) in Hr. apply (inj (app _)) in Hr.
      split; [by exists r|]. destruct y as [|t]; [done|]. by exists t.
    + intros [[rest Hr] [t Ht]]. exists (((files_of set n).1, (files_of set n).2 ++ rel), File t). split; [done|].
      apply elem_of_map_to_list. apply map_filter_lookup_Some. split; [done|]. cbn. split; [|done]. apply below_spec. exists rest. cbn. rewrite Hr. by rewrite (assoc_L (++)).
Qed.
End files.
