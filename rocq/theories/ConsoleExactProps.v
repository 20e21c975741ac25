(** C80: what each command of the console asks for. *)
From Coq Require Import NArith String.
From stdpp Require Import base list gmap.
From Verif Require Import KeySer Types CompPath Service RelAnnis RelAnnisConfig RelAnnisConfigSpec LinkedFiles Frequency CApiSpec Console ConsoleSpec ConsoleProofs ConsoleRuns ConsoleProps ConsoleExactSpec ConsoleExactProofs.

Theorem C80_list : ∀ (W Ans : Type) (api : call → W → W * option Ans) names exists_file r line w args w' x,
  typed "list" args line → ru_open r = true → api CList w = (w', x) → exec api names exists_file r line w = Some (r, answered w' CList x).
Proof. intros. by eapply list_lemma. Qed.
Print Assumptions C80_list.
Theorem C80_delete : ∀ (W Ans : Type) (api : call → W → W * option Ans) names exists_file r line w name w' x,
  typed "delete" name line → name ≠ [] → ru_open r = true → api (CDelete name) w = (w', x) → exec api names exists_file r line w = Some (r, performed w' (CDelete name) x).
Proof. intros. by apply delete_lemma. Qed.
Print Assumptions C80_delete.
(** The format of an import is chosen by the extension, in any case of letters; an existing corpus is replaced; each path has a format *)
Theorem C80_import : ∀ (W Ans : Type) (api : call → W → W * option Ans) names exists_file r line w args path name c w' x,
  typed "import" args line → import_args args path name → exists_file w path = true → ru_open r = true →
  import_call path name (ru_disk r) c → api c w = (w', x) → exec api names exists_file r line w = Some (r, performed w' c x).
Proof. intros. by eapply import_lemma. Qed.
Print Assumptions C80_import.
Theorem C80_import_format : ∀ path name disk, ∃ c, import_call path name disk c.
Proof. exact import_call_total. Qed.
Print Assumptions C80_import_format.
Theorem C80_export : ∀ (W Ans : Type) (api : call → W → W * option Ans) names exists_file r line w args path f w' x,
  typed "export" args line → first_part args path → ru_open r = true → export_kind path f →
  let c := CExport (ru_corpora r) path f in api c w = (w', x) → exec api names exists_file r line w = Some (r, performed w' c x).
Proof. intros. by eapply export_lemma. Qed.
Print Assumptions C80_export.
(** All definitions before the first space are passed on, and the text after it is the query *)
Theorem C80_frequency : ∀ (W Ans : Type) (api : call → W → W * option Ans) names exists_file r line w ds defs text w' x,
  typed "frequency" (join_comma ds ++ 32%N :: text) line → ds ≠ [] → Forall (λ d, 44%N ∉ d ∧ 32%N ∉ d) ds → Forall2 (λ d f, freq_def_from_str d = Some f) ds defs →
  ru_open r = true → ru_corpora r ≠ [] →
  let c := CFrequency (SearchQuery (ru_corpora r) text (ru_language r) (ru_timeout r)) defs in
  api c w = (w', x) → exec api names exists_file r line w = Some (r, answered w' c x).
Proof. intros. by eapply frequency_lemma. Qed.
Print Assumptions C80_frequency.
(** "info", "preload" and "re-optimize" go through the selected corpora in their order, and stop at the first error *)
Theorem C80_info : ∀ (W Ans : Type) (api : call → W → W * option Ans) names exists_file r line w args, typed "info" args line → ru_open r = true → ru_corpora r ≠ [] →
  (∀ w' answers, asked api w (CInfo <$> ru_corpora r) w' answers → exec api names exists_file r line w = Some (r, Done_ w' (CInfo <$> ru_corpora r) (Answer <$> answers) true)) ∧
  (∀ pre c post w1 w2 answers, ru_corpora r = pre ++ c :: post → asked api w (CInfo <$> pre) w1 answers → api (CInfo c) w1 = (w2, None) →
    exec api names exists_file r line w = Some (r, Done_ w2 (CInfo <$> pre ++ [c]) ((Answer <$> answers) ++ [Problem]) false)).
Proof. intros. by eapply info_lemma. Qed.
Print Assumptions C80_info.
Theorem C80_each : ∀ (W Ans : Type) (api : call → W → W * option Ans) names exists_file r line w args (f : bytes → call),
  (typed "preload" args line ∧ ru_corpora r ≠ [] ∧ f = CPreload) ∨ (typed "re-optimize" args line ∧ f = λ c, CReoptimize c (ru_disk r)) → ru_open r = true →
  (∀ w' answers, asked api w (f <$> ru_corpora r) w' answers → exec api names exists_file r line w = Some (r, Done_ w' (f <$> ru_corpora r) [] true)) ∧
  (∀ pre c post w1 w2 answers, ru_corpora r = pre ++ c :: post → asked api w (f <$> pre) w1 answers → api (f c) w1 = (w2, None) →
    exec api names exists_file r line w = Some (r, Done_ w2 (f <$> pre ++ [c]) [Problem] false)).
Proof. intros. by eapply quiet_lemma. Qed.
Print Assumptions C80_each.
(** Switching the parallel search opens the storage again, with the other settings and the selection kept; it does nothing if there is no change *)
Theorem C80_parallel : ∀ (W Ans : Type) (api : call → W → W * option Ans) names exists_file r line w v, sets_switch "set-parallel-search" line v →
  (v = ru_parallel r → exec api names exists_file r line w = Some (r, Done_ w [] [Message] true)) ∧
  (v ≠ ru_parallel r → ∀ w' a, api (COpen v) w = (w', Some a) → exec api names exists_file r line w =
    Some (Runner true (ru_corpora r) (ru_offset r) (ru_limit r) (ru_order r) v (ru_disk r) (ru_language r) (ru_timeout r), Done_ w' [COpen v] [Message] true)).
Proof. intros * H. split; [intros ->; by apply parallel_same|intros; by eapply parallel_lemma]. Qed.
Print Assumptions C80_parallel.
(** Any other line is an error without effect; so is a query if there is no storage *)
Theorem C80_unknown : ∀ (W Ans : Type) (api : call → W → W * option Ans) names exists_file r line w,
  (∀ s args, s ∈ command_names → ¬ typed s args line) → exec api names exists_file r line w = Some (r, Done_ w [] [Problem] false).
Proof. intros. by apply unknown_lemma. Qed.
Print Assumptions C80_unknown.
Theorem C80_closed : ∀ (W Ans : Type) (api : call → W → W * option Ans) names exists_file r line w text,
  ru_open r = false → ru_corpora r ≠ [] → typed "find" text line ∨ typed "count" text line ∨ typed "plan" text line → exec api names exists_file r line w = Some (r, Done_ w [] [Problem] false).
Proof. intros. by eapply closed_lemma. Qed.
Print Assumptions C80_closed.
(** A session does what its lines do, one after the other *)
Theorem C80_lines : ∀ (W Ans : Type) (api : call → W → W * option Ans) names exists_file,
  (∀ r w, start_loop api names exists_file r [] w = (r, w, [], [])) ∧
  (∀ r line w r' d, exec api names exists_file r line w = Some (r', d) → start_loop api names exists_file r [line] w = (r', d_world d, d_calls d, d_output d)) ∧
  (∀ ls1 ls2, (∀ l, l ∈ ls1 → ¬ ends l) → ∀ r w r1 w1 cs1 out1 r2 w2 cs2 out2,
    start_loop api names exists_file r ls1 w = (r1, w1, cs1, out1) → start_loop api names exists_file r1 ls2 w1 = (r2, w2, cs2, out2) →
    start_loop api names exists_file r (ls1 ++ ls2) w = (r2, w2, cs1 ++ cs2, out1 ++ out2)).
Proof. intros. split_and!; [done|intros *; apply single_lemma|apply append_lemma]. Qed.
Print Assumptions C80_lines.

(** ** Concrete cases *)
Definition two : runner := with_corpora runner_new [str "a"; str "b"].
Example import_example : import_args (str "x/Pcc.GraphML new name") (str "x/Pcc.GraphML") (Some (str "new")) ∧ ¬ zip_path (str "x/Pcc.GraphML") ∧ graphml_path (str "x/Pcc.GraphML") ∧
  export_kind (str "out.ZIP") ToZip ∧ export_kind (str "out") ToDirectory ∧ export_kind (str "out.graphml") ToGraphML ∧
  exec (small_api true) id (λ _ _, true) runner_new (str "import x/Pcc.GraphML new name") [] =
    Some (runner_new, performed [] (CImport (str "x/Pcc.GraphML") FromGraphML (Some (str "new")) false true) (Some [])).
Proof.
  split_and!.
  - split; [apply (bool_decide_unpack _); vm_compute; exact I|]. right. exists (str "new"). split_and!; [done|apply (bool_decide_unpack _); vm_compute; exact I|]. right. by exists (str "name").
  - rewrite <- lower_zip. apply (bool_decide_unpack _). vm_compute. exact I.
  - rewrite <- lower_graphml. apply (bool_decide_unpack _). vm_compute. exact I.
  - apply lower_zip. apply (bool_decide_unpack _). vm_compute. exact I.
  - vm_compute. reflexivity.
  - split; [rewrite <- lower_zip|]; apply (bool_decide_unpack _); vm_compute; exact I.
  - vm_compute. reflexivity.
Qed.
Example frequency_example : typed "frequency" (join_comma [str "1:pos"; str "2:annis::tok"] ++ 32%N :: str "pos & tok") (str "frequency 1:pos,2:annis::tok pos & tok") ∧
  Forall2 (λ d f, freq_def_from_str d = Some f) [str "1:pos"; str "2:annis::tok"] [FreqDef None (str "pos") (str "1"); FreqDef (Some (str "annis")) (str "tok") (str "2")].
Proof. split; [by left|]. repeat constructor; vm_compute; reflexivity. Qed.
Example each_example : asked (small_api true) [str "a"] (CInfo <$> ru_corpora two) [str "a"] [[]; []] ∧
  exec (small_api true) id no_file two (str "info") [str "a"] = Some (two, Done_ [str "a"] [CInfo (str "a"); CInfo (str "b")] [Answer []; Answer []] true).
Proof. split; [repeat (econstructor; [reflexivity|]); constructor|vm_compute; reflexivity]. Qed.
Example parallel_example : sets_switch "set-parallel-search" (str "set-parallel-search Off") false.
Proof. apply switch_iff; [reflexivity|]. split; vm_compute; reflexivity. Qed.
