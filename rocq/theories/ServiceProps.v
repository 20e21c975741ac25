(** Properties C55 (reading rights), C56 (groups), C57 (background jobs) and C58 (linked files) of the web service. *)
From Coq Require Import NArith String Lia.
From stdpp Require Import base list gmap sorting.
From Verif Require Import KeySer KeySerSpec Percent PercentProofs CompPath CompPathSpec CorpusDir HistogramSpec Service ServiceSpec ServiceProofs ServiceJobs ServiceFinal.
Local Open Scope string_scope.

(** * C55 *)
(** The claims of a request are those of a verified token, or those of the anonymous user, who has no group and no role *)
Theorem C55_claims v h c : from_request v h = Some c → c = Claims (str "anonymous") [] [] ∨ ∃ t, v t = Some c.
Proof. exact (from_request_claims v h c). Qed.
(** A token after "Bearer" is verified *)
Theorem C55_token v t : Forall (λ b, 32 ≤ b ≤ 126)%N t → trim t = t → from_request v (Some (str "Bearer " ++ t)%list) = v t.
Proof. exact (from_request_bearer v t). Qed.
(** A request with an invalid token has no effect and no answer *)
Theorem C55_invalid_token {C} (en : engine C) set fk s v h q : from_request v h = None → public q = false →
  respond en set fk s v h q = (s, Unauthorized).
Proof. exact (invalid_token en set fk s v h q). Qed.
(** Users without the role "admin" change nothing *)
Theorem C55_read_only {C} (en : engine C) set fk s v h q : (∀ c, from_request v h = Some c → ¬ administrator c) →
  (respond en set fk s v h q).1 = s.
Proof. exact (respond_unchanged en set fk s v h q). Qed.
(** Requests for administrators are refused for everyone else, also if everyone may read all corpora *)
Theorem C55_administration_refused {C} (en : engine C) set fk s v h c q : from_request v h = Some c → ¬ administrator c →
  admin_only q = true → (respond en set fk s v h q).2 = ForbiddenAdmin.
Proof. intros H1 H2 H3. rewrite (admin_refused en set fk s v h c q H1 H2 H3). reflexivity. Qed.
(** The answer to a user depends only on the corpora the user may read: two services with the same groups, and with the same
    content of these corpora, give the same answer.
    Missing: the list of corpora if a configuration file can not be read, and the list of files of corpora whose name is an
    absolute path or contains "..", see below *)
Theorem C55_secrecy_partial {C} (en : engine C) set st1 fs1 l1 st2 fs2 l2 v h c q s1 s2 :
  s1 = run en set true (sv_new st1 fs1) l1 → s2 = run en set true (sv_new st2 fs2) l2 → grants l1 = grants l2 →
  (∀ l, en_shuffle en l ≡ₚ l) → set_data set ≠ [] → set_anonymous_access set = false →
  from_request v h = Some c → ¬ administrator c →
  (∀ n, may_read (grants l1) c n → same_corpus set n s1 s2) →
  (∀ n node, q = ListFiles n node → plain_name n) → (q = ListCorpora → readable en s1 ∧ readable en s2) →
  (respond en set true s1 v h q).2 = (respond en set true s2 v h q).2.
Proof. exact (secrecy en set st1 fs1 l1 st2 fs2 l2 v h c q s1 s2). Qed.
(** A request that names a corpus the user may not read is refused, and the answer names exactly these corpora *)
Theorem C55_refused {C} (en : engine C) set st fs l v h c q n :
  set_anonymous_access set = false → from_request v h = Some c → ¬ administrator c →
  n ∈ named_corpora q → ¬ may_read (grants l) c n →
  ∃ ns, (respond en set true (run en set true (sv_new st fs) l) v h q).2 = ForbiddenCorpora ns ∧
    ∀ m, m ∈ ns ↔ m ∈ named_corpora q ∧ ¬ may_read (grants l) c m.
Proof. exact (refused en set st fs l v h c q n). Qed.
(** A request for corpora the user may read is answered in the same way as for an administrator *)
Theorem C55_permitted {C} (en : engine C) set st fs l v h c v' h' c' q :
  from_request v h = Some c → from_request v' h' = Some c' → administrator c' →
  q ≠ ListCorpora → admin_only q = false →
  set_anonymous_access set = true ∨ (∀ n, n ∈ named_corpora q → may_read (grants l) c n) →
  (respond en set true (run en set true (sv_new st fs) l) v h q).2 = (respond en set true (run en set true (sv_new st fs) l) v' h' q).2.
Proof. exact (permitted en set st fs l v h c v' h' c' q). Qed.
(** The list of corpora has exactly the existing corpora the user may read, sorted by name.
    Missing: a configuration file that can not be read *)
Theorem C55_listed_partial {C} (en : engine C) set st fs l v h c s : s = run en set true (sv_new st fs) l →
  from_request v h = Some c → readable en s →
  ∃ ns, (respond en set true s v h ListCorpora).2 = Ok (BNames ns) ∧ NoDup ns ∧ StronglySorted str_not_above ns ∧
    ∀ n, n ∈ ns ↔ is_Some (sv_store s !! n) ∧ (administrator c ∨ set_anonymous_access set = true ∨ may_read (grants l) c n).
Proof. exact (listed en set st fs l v h c s). Qed.

(** A small service: the content of a corpus is its text, a text "broken" has no readable configuration *)
Definition ex_engine : engine bytes := Engine
  (λ c _, match c with Some t => Fine (N.of_nat (length t), 1%N) | None => Fault (str "no corpus") end)
  (λ c _ _ _ _, match c with Some t => Fine ([t], 0%N) | None => Fault (str "no corpus") end)
  (λ c _ _, match c with Some t => Fine [[t]] | None => Fault (str "no corpus") end)
  (λ c _, match c with Some t => Fine t | None => Fault (str "no corpus") end)
  (λ q, Fine q.1)
  (λ t, if decide (t = str "broken") then None else Some (str "config"))
  (λ l, l)
  (λ zip _ st, (<[str "new" := zip]> st, Fine [str "new"]))
  (λ c, match c with Some t => Fine t | None => Fault (str "no corpus") end).
Definition ex_set : settings := Settings false (str "/data").
Definition ex_verify (t : bytes) : option claims :=
  if decide (t = str "root") then Some (Claims t [] [str "admin"])
  else if decide (t = str "jo") then Some (Claims t [str "team"] []) else None.
Definition as_root : option bytes := Some (str "Bearer root").
Definition as_jo : option bytes := Some (str "Bearer jo").
Definition ex_store : gmap bytes bytes := {[ str "a" := str "text of a"; str "b" := str "text of b"; str "c" := str "text of c" ]}.
Definition ex_files : gmap (bool * list bytes) fnode :=
  {[ (true, [str "data"; str "a"; str "files"]) := Dir;
     (true, [str "data"; str "a"; str "files"; str "a"]) := Dir;
     (true, [str "data"; str "a"; str "files"; str "a"; str "x.wav"]) := File (str "sound");
     (true, [str "data"; str "a"; str "files"; str "a"; str "y..wav"]) := File (str "noise") ]}.
Definition ex_history : list (action bytes) :=
  [Request ex_verify as_root (PutGroup (str "team") (str "team") [str "a"; str "b"]);
   Request ex_verify as_root (PutGroup (str "anonymous") (str "anonymous") [str "c"]);
   Request ex_verify as_root (PutGroup (str "team") (str "team") [str "a"; str "a"]);
   Request ex_verify as_jo (PutGroup (str "team") (str "team") [str "b"])].
Definition ex_service : service bytes := run ex_engine ex_set true (sv_new ex_store ex_files) ex_history.
(** The user jo may read the corpora a, b and c, everyone may read c *)
Example ex_jo : (respond ex_engine ex_set true ex_service ex_verify as_jo ListCorpora).2 = Ok (BNames [str "a"; str "b"; str "c"]) ∧
  (respond ex_engine ex_set true ex_service ex_verify None ListCorpora).2 = Ok (BNames [str "c"]) ∧
  (respond ex_engine ex_set true ex_service ex_verify as_jo (Count [str "a"; str "c"] (str "tok", 0%N))).2 = Ok (BCount 18 2) ∧
  (respond ex_engine ex_set true ex_service ex_verify None (Count [str "a"; str "c"] (str "tok", 0%N))).2 = ForbiddenCorpora [str "a"] ∧
  (respond ex_engine ex_set true ex_service ex_verify (Some (str "bearer nobody")) ListCorpora).2 = Unauthorized ∧
  (respond ex_engine ex_set true ex_service ex_verify as_jo (DeleteCorpus (str "a"))).2 = ForbiddenAdmin.
Proof. repeat split; vm_compute; reflexivity. Qed.
(** The hypotheses of [C55_secrecy_partial]: the corpora differ in b only *)
Example ex_secrecy : ∃ s1 s2, s1 = run ex_engine ex_set true (sv_new ex_store ex_files) ex_history ∧
  s2 = run ex_engine ex_set true (sv_new (<[str "b" := str "other"]> (delete (str "a") ex_store)) ex_files) ex_history ∧
  (∀ n, may_read (grants ex_history) (Claims (str "anonymous") [] []) n → same_corpus ex_set n s1 s2) ∧
  sv_store s1 ≠ sv_store s2 ∧ readable ex_engine s1 ∧ readable ex_engine s2.
Proof.
  eexists _, _. split; [reflexivity|]. split; [reflexivity|]. split.
  - intros n (g & S & [Hg|Hg] & HG & HS); [|by apply elem_of_nil in Hg]. subst g. assert (S = {[str "c"]}) as ->.
    { assert (grants ex_history !! str "anonymous" = Some {[str "c"]}) as E by (apply (bool_decide_unpack _); vm_compute; exact I). rewrite E in HG. by injection HG. }
    apply elem_of_singleton in HS as ->. split; [vm_compute; reflexivity|]. intros rel. reflexivity.
  - split; [intros E; apply (f_equal (λ m : gmap bytes bytes, m !! str "a")) in E; vm_compute in E; discriminate E|].
    split; apply (bool_decide_unpack _); vm_compute; exact I.
Qed.
(** Not true in general: a corpus with an unreadable configuration file makes the list of corpora fail for every user, and the
    error names the corpus, which the user may not know of *)
Theorem C55_list_refuted : ∃ st1 st2 : gmap bytes bytes,
  let s1 := run ex_engine ex_set true (sv_new st1 ex_files) ex_history in
  let s2 := run ex_engine ex_set true (sv_new st2 ex_files) ex_history in
  delete (str "secret") st1 = delete (str "secret") st2 ∧
  (∀ g, str "secret" ∉ default ∅ (grants ex_history !! g)) ∧
  (respond ex_engine ex_set true s1 ex_verify None ListCorpora).2 = Ok (BNames [str "c"]) ∧
  (respond ex_engine ex_set true s2 ex_verify None ListCorpora).2 = Failed (Some (str "loading corpus-config.toml for corpus secret failed")).
Proof.
  exists (<[str "secret" := str "fine"]> ex_store), (<[str "secret" := str "broken"]> ex_store). cbv zeta. split; [apply (bool_decide_unpack _); vm_compute; exact I|]. split.
  - intros g. assert (grants ex_history = {[str "team" := {[str "a"; str "b"]}; str "anonymous" := {[str "c"]}]}) as -> by (apply (bool_decide_unpack _); vm_compute; exact I).
    destruct (decide (g = str "team")) as [-> |H1]; [rewrite lookup_insert; apply (bool_decide_unpack _); vm_compute; exact I|]. rewrite lookup_insert_ne by done.
    destruct (decide (g = str "anonymous")) as [-> |H2]; [rewrite lookup_singleton; apply (bool_decide_unpack _); vm_compute; exact I|]. rewrite lookup_singleton_ne by done. apply not_elem_of_empty.
  - split; vm_compute; reflexivity.
Qed.
(** The list of files of a corpus named "/data/b/files" depends on the existence of files of the corpus b *)
Theorem C55_list_of_files_refuted :
  let l := [Request ex_verify as_root (PutGroup (str "team") (str "team") [str "/data/b/files"])] in
  let fs := {[ (true, [str "data"; str "%2Fdata%2Fb%2Ffiles"; str "files"]) := Dir; (true, [str "data"; str "b"; str "files"]) := Dir ]} in
  let s1 := run ex_engine ex_set true (sv_new ex_store fs) l in
  let s2 := run ex_engine ex_set true (sv_new ex_store (<[(true, [str "data"; str "b"; str "files"; str "x"]) := File (str "t")]> fs)) l in
  (respond ex_engine ex_set true s1 ex_verify as_jo (ListFiles (str "/data/b/files") None)).2 = Ok (BPaths []) ∧
  (respond ex_engine ex_set true s2 ex_verify as_jo (ListFiles (str "/data/b/files") None)).2 = Failed None.
Proof. split; vm_compute; reflexivity. Qed.

(** * C56 *)
(** The listed groups are those the administrators have set last, and have not deleted, with exactly their corpora *)
Theorem C56_groups {C} (en : engine C) set st fs l v h c : from_request v h = Some c → administrator c →
  ∃ L, (respond en set true (run en set true (sv_new st fs) l) v h ListGroups).2 = Ok (BGroups L) ∧ NoDup L.*1 ∧
    (∀ g cs, (g, cs) ∈ L → NoDup cs ∧ grants l !! g = Some (list_to_set cs)) ∧
    (∀ g S, grants l !! g = Some S → ∃ cs, (g, cs) ∈ L).
Proof. exact (groups_listed en set st fs l v h c). Qed.
(** After a group is deleted, its members can not read its corpora any more, unless another group allows it *)
Theorem C56_deleted {C} (en : engine C) set st fs l v h c v' h' c' g q n :
  set_anonymous_access set = false → from_request v h = Some c → administrator c →
  from_request v' h' = Some c' → ¬ administrator c' → n ∈ named_corpora q →
  (∀ g', g' ≠ g → g' = str "anonymous" ∨ g' ∈ cl_groups c' → n ∉ default ∅ (grants l !! g')) →
  ∃ ns, (respond en set true (run en set true (sv_new st fs) (l ++ [Request v h (DeleteGroup g)])%list) v' h' q).2 = ForbiddenCorpora ns ∧ n ∈ ns.
Proof.
  intros Hs E Ha E' Ha' Hn Hg.
  assert (¬ may_read (grants (l ++ [Request v h (DeleteGroup g)])%list) c' n) as Hm.
  { unfold grants. rewrite fold_left_app. cbn [fold_left grant]. rewrite E, decide_True by done. intros (g' & S & H1 & H2 & H3).
    apply lookup_delete_Some in H2 as [H2 H4]. apply (Hg g'); [done|done|]. unfold grants. rewrite H4. exact H3. }
  destruct (refused en set st fs _ v' h' c' q n Hs E' Ha' Hn Hm) as (ns & H1 & H2). exists ns. split; [exact H1|]. by apply H2.
Qed.
(** This depends on foreign keys being enforced by the database library: if it is built without, the members of a deleted
    group can still read its corpora *)
Theorem C56_without_foreign_keys_refuted :
  let l := (ex_history ++ [Request ex_verify as_root (DeleteGroup (str "team"))])%list in
  let s := run ex_engine ex_set false (sv_new ex_store ex_files) l in
  (respond ex_engine ex_set false s ex_verify as_root ListGroups).2 = Ok (BGroups [(str "anonymous", [str "c"])]) ∧
  (respond ex_engine ex_set false s ex_verify as_jo (Count [str "a"] (str "tok", 0%N))).2 = Ok (BCount 9 1).
Proof. split; vm_compute; reflexivity. Qed.
Example ex_groups : (respond ex_engine ex_set true ex_service ex_verify as_root ListGroups).2 =
    Ok (BGroups [(str "team", [str "a"; str "b"]); (str "anonymous", [str "c"])]) ∧
  (respond ex_engine ex_set true ex_service ex_verify as_root (PutGroup (str "x") (str "x") [str "a"; str "a"])).2 = BadGateway ∧
  (let s := run ex_engine ex_set true (sv_new ex_store ex_files) (ex_history ++ [Request ex_verify as_root (DeleteGroup (str "team"))])%list in
   (respond ex_engine ex_set true s ex_verify as_jo (Count [str "a"] (str "tok", 0%N))).2 = ForbiddenCorpora [str "a"]).
Proof. repeat split; vm_compute; reflexivity. Qed.

(** * C57 *)
(** An administrator who asks for a job gets the state of the job: running with its messages, or its result. The identifiers
    of jobs are different *)
Theorem C57_jobs {C} (en : engine C) set fk st fs l id v h c : NoDup (started l) → from_request v h = Some c → administrator c →
  (respond en set fk (run en set fk (sv_new st fs) l) v h (Jobs (Some id))).2 = expected (job_view en fk set id (sv_new st fs) l VNone).
Proof. intros _ E Ha. eapply J_response; [|exact E|exact Ha]. apply J_run. split; reflexivity. Qed.
(** The result is handed out once: afterwards the job is unknown *)
Theorem C57_once {C} (en : engine C) set fk st fs l l' id v h c v' h' c' r :
  NoDup (started (l ++ l')) → id ∈ started l →
  from_request v h = Some c → administrator c → from_request v' h' = Some c' → administrator c' →
  (respond en set fk (run en set fk (sv_new st fs) l) v h (Jobs (Some id))).2 = r → (∀ b, r ≠ Accepted b) →
  (respond en set fk (run en set fk (sv_new st fs) (l ++ Request v h (Jobs (Some id)) :: l')%list) v' h' (Jobs (Some id))).2 = NotFound.
Proof.
  intros Hn Hid E Ha E' Ha' Hr Hacc.
  assert (J (run en set fk (sv_new st fs) l) id (job_view en fk set id (sv_new st fs) l VNone)) as HJ by (apply J_run; split; reflexivity).
  rewrite (J_response en set fk _ id _ v h c HJ E Ha) in Hr.
  assert (J (run en set fk (sv_new st fs) (l ++ Request v h (Jobs (Some id)) :: l')%list) id
    (job_view en fk set id (sv_new st fs) (l ++ Request v h (Jobs (Some id)) :: l')%list VNone)) as HJ' by (apply J_run; split; reflexivity).
  rewrite (J_response en set fk _ id _ v' h' c' HJ' E' Ha'). rewrite job_view_app. set (w := job_view en fk set id (sv_new st fs) l VNone) in *. cbn [job_view].
  assert (jnext en id (sv_store (run en set fk (sv_new st fs) l)) (Request v h (Jobs (Some id))) w = VNone) as ->.
  { cbn [jnext]. rewrite (by_admin_spec v h c E). unfold is_admin. rewrite bool_decide_true by exact Ha. rewrite bool_decide_true by reflexivity. cbn [andb].
    destruct w as [|t ms|x]; [reflexivity| |reflexivity]. cbn in Hr. by destruct (Hacc (BStatus ms)). }
  rewrite job_view_none; [reflexivity|]. assert (started (l ++ l') = started l ++ started l')%list as Es by apply omap_app. rewrite Es in Hn. apply NoDup_app in Hn as (_ & H & _). by apply H.
Qed.
Example ex_jobs :
  let l := [Request ex_verify as_root (Export 1 [str "a"; str "b"]); Progress 1 (str "exporting"); Request ex_verify as_root (Import 2 (str "zip") true);
            Request ex_verify as_jo (Jobs (Some 1%N))] in
  let ask l := (respond ex_engine ex_set true (run ex_engine ex_set true (sv_new ex_store ex_files) l) ex_verify as_root (Jobs (Some 1%N))).2 in
  NoDup (started l) ∧ ask l = Accepted (BStatus [str "exporting"]) ∧
  ask (l ++ [Finish 1])%list = Ok (BZip (str "a_b.zip") [(str "a", str "text of a"); (str "b", str "text of b")]) ∧
  ask (l ++ [Finish 1; Request ex_verify as_root (Jobs (Some 1%N)); Finish 2])%list = NotFound.
Proof. split; [apply (bool_decide_unpack _); vm_compute; exact I|]. repeat split; vm_compute; reflexivity. Qed.

(** * C58 *)
(** The directory of linked files of a corpus lies in a directory for the corpus below the data directory.
    Missing: the names "", "." and "..", see below *)
Theorem C58_directory_partial set n : set_data set ≠ [] → Forall is_byte n → n ≠ [] → n ≠ str "." → n ≠ str ".." →
  ∃ child, slash ∉ child ∧ child ≠ [] ∧ child ≠ str "." ∧ child ≠ str ".." ∧
    files_of set n = ((resolve (set_data set)).1, ((resolve (set_data set)).2 ++ [child; str "files"])%list) ∧
    ∀ m, Forall is_byte m → child = escaped_corpus_name m → m = n.
Proof.
  intros H0 H1 H2 H3 H4. exists (pct_encode path_segment_encode_set n). destruct (segment_file_name n H1 H2 H3 H4) as [(A & B & D) E].
  split; [exact A|]. split; [exact E|]. split; [exact B|]. split; [exact D|]. split; [by apply files_dir_spec|].
  intros m Hm Em. symmetry. exact (segment_inj n m Em H1 Hm).
Qed.
(** The content of a file is only given if the file lies in this directory *)
Theorem C58_content_inside set fs n name t : set_data set ≠ [] → file_content set fs n name = Ok (BText t) →
  ∃ rel, fs !! ((files_of set n).1, ((files_of set n).2 ++ rel)%list) = Some (File t).
Proof. exact (file_content_ok set fs n name t). Qed.
(** The listed files are files in this directory *)
Theorem C58_list_inside set fs n node l : list_files set fs n node = Ok (BPaths l) →
  ∀ rel, rel ∈ l → ∃ t, fs !! ((files_of set n).1, ((files_of set n).2 ++ rel)%list) = Some (File t).
Proof. exact (list_files_ok set fs n node l). Qed.
(** All files in a directory [dir] of the corpus are listed, once, if the directory is given, or if it has the name of the corpus
    and no directory is given. Missing: directories that contain ".." or white space at an end *)
Theorem C58_list_complete_partial set fs n dir node : set_data set ≠ [] → dir ≠ [] → Forall (λ n, file_name n ∧ n ≠ []) dir →
  has_dots (join_path dir) = false →
  (node = Some (join_path dir) ∧ trim (join_path dir) = join_path dir ∨ node = None ∧ n = join_path dir) →
  is_Some (fs !! files_of set n) → fs !! ((files_of set n).1, ((files_of set n).2 ++ dir)%list) = Some Dir →
  ∃ l, list_files set fs n node = Ok (BPaths l) ∧ NoDup l ∧
    ∀ rel, rel ∈ l ↔ (∃ rest, rel = (dir ++ rest)%list) ∧ ∃ t, fs !! ((files_of set n).1, ((files_of set n).2 ++ rel)%list) = Some (File t).
Proof. exact (list_files_complete set fs n dir node). Qed.
(** A listed file can be fetched by its path.
    Missing: paths that contain ".." or white space at an end *)
Theorem C58_fetch_listed_partial set fs n node l rel name : set_data set ≠ [] → list_files set fs n node = Ok (BPaths l) → rel ∈ l →
  rel ≠ [] → Forall (λ n, file_name n ∧ n ≠ []) rel → has_dots (join_path rel) = false →
  trim (join_path rel) = join_path rel → pct_decode name = join_path rel →
  ∃ t, fs !! ((files_of set n).1, ((files_of set n).2 ++ rel)%list) = Some (File t) ∧ file_content set fs n name = Ok (BText t).
Proof.
  intros Hd Hl Hr H0 H1 H2 H3 H4. destruct (list_files_ok set fs n node l Hl rel Hr) as [t Ht]. exists t. split; [exact Ht|].
  apply (file_content_join set fs n name rel t Hd H0 H1 H2); [rewrite H4; exact H3|exact Ht].
Qed.
(** A file whose name contains two dots is listed, but can not be fetched *)
Theorem C58_fetch_listed_refuted :
  list_files ex_set ex_files (str "a") None = Ok (BPaths [[str "a"; str "y..wav"]; [str "a"; str "x.wav"]]) ∧
  file_content ex_set ex_files (str "a") (str "a%2Fx.wav") = Ok (BText (str "sound")) ∧
  file_content ex_set ex_files (str "a") (str "a%2Fy..wav") = BadRequest (str "No .. allowed in file name").
Proof. split; [vm_compute; reflexivity|]. split; vm_compute; reflexivity. Qed.
(** The corpus "." has its files in the directory of the corpus "files" *)
Theorem C58_directory_refuted : files_of ex_set (str ".") = resolve (corpus_directory_on_disk (str "/data") (str "files")) ∧
  files_of ex_set (str "..") = resolve (str "/files").
Proof. split; vm_compute; reflexivity. Qed.
(** The directory is the one where the corpus storage has put the files.
    Missing: names with ":", "|", "*" or "\", which the storage encodes, and the service does not *)
Theorem C58_same_directory_partial set n : Forall (λ b, b ∉ str ":|*\") n →
  files_of set n = resolve (push (push (set_data set) (escaped_corpus_name n)) (str "files")).
Proof.
  intros H. unfold files_of, files_dir. assert (pct_encode path_segment_encode_set n = escaped_corpus_name n) as ->; [|reflexivity].
  unfold escaped_corpus_name. induction n as [|b n IH]; [reflexivity|]. apply Forall_cons in H as [Hb H]. cbn [pct_encode]. rewrite (IH H). f_equal.
  assert (should_encode path_segment_encode_set b = should_encode path_encode_set b) as ->; [|reflexivity].
  unfold should_encode, path_segment_encode_set, path_encode_set. f_equal. f_equal. apply bool_decide_ext.
  assert (str " ""#<>`?{}%/:|*\" = str " ""#<>`?{}%/" ++ str ":|*\")%list as -> by (vm_compute; reflexivity). rewrite elem_of_app. tauto.
Qed.
Theorem C58_same_directory_refuted :
  files_of ex_set (str "a:b") ≠ resolve (push (push (set_data ex_set) (escaped_corpus_name (str "a:b"))) (str "files")).
Proof. vm_compute. discriminate. Qed.
Example ex_directory : files_of ex_set (str "a/b") = (true, [str "data"; str "a%2Fb"; str "files"]).
Proof. vm_compute. reflexivity. Qed.

Print Assumptions C55_claims.
Print Assumptions C55_token.
Print Assumptions C55_invalid_token.
Print Assumptions C55_read_only.
Print Assumptions C55_administration_refused.
Print Assumptions C55_secrecy_partial.
Print Assumptions C55_refused.
Print Assumptions C55_permitted.
Print Assumptions C55_listed_partial.
Print Assumptions C55_list_refuted.
Print Assumptions C55_list_of_files_refuted.
Print Assumptions C56_groups.
Print Assumptions C56_deleted.
Print Assumptions C56_without_foreign_keys_refuted.
Print Assumptions C57_jobs.
Print Assumptions C57_once.
Print Assumptions C58_directory_partial.
Print Assumptions C58_content_inside.
Print Assumptions C58_list_inside.
Print Assumptions C58_list_complete_partial.
Print Assumptions C58_fetch_listed_partial.
Print Assumptions C58_fetch_listed_refuted.
Print Assumptions C58_directory_refuted.
Print Assumptions C58_same_directory_partial.
Print Assumptions C58_same_directory_refuted.
