(** C80: the commands of the interactive console. *)
From Coq Require Import NArith String.
From stdpp Require Import base list gmap.
From Verif Require Import KeySer Types CompPath Service RelAnnis RelAnnisConfig RelAnnisConfigSpec LinkedFiles Frequency Console ConsoleSpec ConsoleProofs ConsoleRuns.

(** ** The settings after any session: the value of the last line that sets it, and the default if no line does *)
Theorem C80_settings : ∀ (W Ans : Type) (api : call → W → W * option Ans) names exists_file lines w r w' calls out,
  (∀ l, l ∈ lines → ¬ ends l) → start_loop api names exists_file runner_new lines w = (r, w', calls, out) →
  setting offset_line lines 0%N (ru_offset r) ∧ setting limit_line lines None (ru_limit r) ∧ setting order_line lines Normal (ru_order r) ∧
  setting disk_line lines false (ru_disk r) ∧ setting language_line lines PlainAql (ru_language r) ∧ setting timeout_line lines None (ru_timeout r).
Proof.
  intros W Ans api names exists_file lines w r w' calls out He E. split_and!.
  - exact (run_setting api names exists_file _ _ (step_offset api names exists_file) lines _ _ _ _ _ _ He E).
  - exact (run_setting api names exists_file _ _ (step_limit api names exists_file) lines _ _ _ _ _ _ He E).
  - exact (run_setting api names exists_file _ _ (step_order api names exists_file) lines _ _ _ _ _ _ He E).
  - exact (run_setting api names exists_file _ _ (step_disk api names exists_file) lines _ _ _ _ _ _ He E).
  - exact (run_setting api names exists_file _ _ (step_language api names exists_file) lines _ _ _ _ _ _ He E).
  - exact (run_setting api names exists_file _ _ (step_timeout api names exists_file) lines _ _ _ _ _ _ He E).
Qed.
Print Assumptions C80_settings.

(** ** A query is passed on as it was typed, with the selection and the settings, and its answer or the error is shown *)
Theorem C80_find : ∀ (W Ans : Type) (api : call → W → W * option Ans) names exists_file r line w text w' x,
  typed "find" text line → ru_open r = true → ru_corpora r ≠ [] →
  let c := CFind (SearchQuery (ru_corpora r) text (ru_language r) (ru_timeout r)) (ru_offset r) (ru_limit r) (ru_order r) in
  api c w = (w', x) → exec api names exists_file r line w = Some (r, answered w' c x).
Proof. intros. by apply find_lemma. Qed.
Print Assumptions C80_find.
Theorem C80_count : ∀ (W Ans : Type) (api : call → W → W * option Ans) names exists_file r line w text w' x,
  typed "count" text line → ru_open r = true → ru_corpora r ≠ [] →
  let c := CCount (SearchQuery (ru_corpora r) text (ru_language r) (ru_timeout r)) in
  api c w = (w', x) → exec api names exists_file r line w = Some (r, answered w' c x).
Proof. intros. by apply count_lemma. Qed.
Print Assumptions C80_count.
Theorem C80_plan : ∀ (W Ans : Type) (api : call → W → W * option Ans) names exists_file r line w text w' x,
  typed "plan" text line → ru_open r = true → ru_corpora r ≠ [] →
  let c := CPlan (ru_corpora r) text (ru_language r) in
  api c w = (w', x) → exec api names exists_file r line w = Some (r, answered w' c x).
Proof. intros. by apply plan_lemma. Qed.
Print Assumptions C80_plan.
(** Without selected corpora a query is answered by a message, and nothing is called *)
Theorem C80_unselected : ∀ (W Ans : Type) (api : call → W → W * option Ans) names exists_file r line w text,
  typed "find" text line ∨ typed "count" text line ∨ typed "plan" text line ∨ typed "frequency" text line → ru_corpora r = [] →
  exec api names exists_file r line w = Some (r, Done_ w [] [Message] true).
Proof. intros. by eapply unselected_lemma. Qed.
Print Assumptions C80_unselected.

(** ** No line leads to other calls than the ones it stands for: only selected corpora are used, and only "delete" with the typed name deletes *)
Theorem C80_calls : ∀ (W Ans : Type) (api : call → W → W * option Ans) names exists_file r line w r' d c,
  exec api names exists_file r line w = Some (r', d) → c ∈ d_calls d → call_allowed r line c.
Proof. intros *. apply calls_lemma. Qed.
Print Assumptions C80_calls.

(** ** The selection is the list of the words that are names of corpora; other lines keep it *)
Theorem C80_selected : ∀ (W Ans : Type) (api : call → W → W * option Ans) names exists_file r line w ws w' a,
  typed "corpus" (unwords ws) line → ws ≠ [] → Forall word ws → ru_open r = true → api CList w = (w', Some a) →
  ∃ d, exec api names exists_file r line w = Some (with_corpora r (filter (λ s, s ∈ names a) ws), d).
Proof. intros. by eapply corpus_lemma. Qed.
Print Assumptions C80_selected.
Theorem C80_selection_kept : ∀ (W Ans : Type) (api : call → W → W * option Ans) names exists_file r line w r' d,
  (∀ args, ¬ typed "corpus" args line) → exec api names exists_file r line w = Some (r', d) → ru_corpora r' = ru_corpora r.
Proof. intros *. apply selection_kept. Qed.
Print Assumptions C80_selection_kept.

(** ** The console ends with the first "quit" or "exit": no later line has an effect, and no other line ends it *)
Theorem C80_end : ∀ (W Ans : Type) (api : call → W → W * option Ans) names exists_file lines q post r w,
  (∀ l, l ∈ lines → ¬ ends l) → ends q → start_loop api names exists_file r (lines ++ q :: post) w = start_loop api names exists_file r lines w.
Proof. intros. by apply run_end. Qed.
Print Assumptions C80_end.
Theorem C80_goes_on : ∀ (W Ans : Type) (api : call → W → W * option Ans) names exists_file r line w, exec api names exists_file r line w = None ↔ ends line.
Proof. intros *. apply exec_none. Qed.
Print Assumptions C80_goes_on.

(** ** A command that fails changes no setting and no selection (missing: "set-parallel-search") *)
Theorem C80_failed_partial : ∀ (W Ans : Type) (api : call → W → W * option Ans) names exists_file r line w r' d,
  (∀ args, ¬ typed "set-parallel-search" args line) → exec api names exists_file r line w = Some (r', d) → d_ok d = false → r' = r.
Proof. intros *. apply failed_lemma. Qed.
Print Assumptions C80_failed_partial.

(** A small storage: the names of its corpora; [ok] tells if it can be opened again *)
Definition small_api (ok : bool) (c : call) (w : list bytes) : list bytes * option (list bytes) :=
  match c with
  | CList => (w, Some w)
  | CDelete n => (filter (λ x, x ≠ n) w, Some [])
  | COpen _ => (w, if ok then Some [] else None)
  | _ => (w, Some [])
  end.
Definition no_file (w : list bytes) (p : bytes) : bool := false.
Notation small ok := (exec (small_api ok) id no_file).
Notation small_loop ok := (start_loop (small_api ok) id no_file).
(** When the storage can not be opened again, the console has no storage any more: later queries fail although the old storage was usable *)
Theorem C80_failed_refuted : ∃ r' d, small false runner_new (str "set-parallel-search off") [str "a"] = Some (r', d) ∧ d_ok d = false ∧ r' ≠ runner_new ∧
  small_loop false runner_new [str "corpus a"; str "set-parallel-search off"; str "find tok"] [str "a"] = (with_corpora r' [str "a"], [str "a"], [CList; COpen false], [Problem; Problem]).
Proof. eexists _, _. split; [vm_compute; reflexivity|]. split; [vm_compute; reflexivity|]. split; [intros [=]|vm_compute; reflexivity]. Qed.
Print Assumptions C80_failed_refuted.
(** Commands given as options go on after "quit" *)
Theorem C80_quit_in_options_refuted : ∃ r' w' out, run_commands (small_api true) id no_file runner_new [str "quit"; str "delete a"] [str "a"] = (r', w', [CDelete (str "a")], out) ∧ w' = [].
Proof. eexists _, _, _. split; vm_compute; reflexivity. Qed.
Print Assumptions C80_quit_in_options_refuted.
(** The import of a missing file is neither an error nor does it show anything *)
Theorem C80_missing_file_refuted : small true runner_new (str "import missing.zip") [] = Some (runner_new, Done_ [] [] [] true).
Proof. vm_compute. reflexivity. Qed.
Print Assumptions C80_missing_file_refuted.
(** A deleted corpus stays selected and is still searched *)
Theorem C80_deleted_refuted : ∃ r' out, small_loop true runner_new [str "corpus a"; str "delete a"; str "count tok"] [str "a"] =
  (r', [], [CList; CDelete (str "a"); CCount (SearchQuery [str "a"] (str "tok") PlainAql None)], out).
Proof. eexists _, _. vm_compute. reflexivity. Qed.
Print Assumptions C80_deleted_refuted.

(** ** A session *)
Definition session : list bytes := [str "corpus a x b"; str "set-limit 7"; str "set-offset 3"; str "set-limit nothing"; str "set-order Inverted"; str "set-quirks-mode  ON "; str "set-timeout 9"; str "set-offset"].
(** The session has no line that ends it, so that C80_settings and C80_end apply; "find" is typed with its query *)
Example session_example : (∀ l, l ∈ session → ¬ ends l) ∧ ends (str "exit") ∧ typed "find" (str "tok  & tok") (str "find tok  & tok") ∧ typed "corpus" (unwords [str "a"; str "x"; str "b"]) (str "corpus a x b").
Proof.
  split_and!; [|by exists []; right; right|by left|by left].
  intros l Hl. rewrite <- (C80_goes_on (list bytes) (list bytes) (small_api true) id no_file runner_new l []). unfold session in Hl. rewrite !elem_of_cons, elem_of_nil in Hl.
  destruct Hl as [-> |[-> |[-> |[-> |[-> |[-> |[-> |[-> |[]]]]]]]]]; intros Hx; vm_compute in Hx; discriminate Hx.
Qed.
Example session_find : ∃ out, small_loop true runner_new (session ++ [str "find tok  & tok"; str "exit"; str "delete a"]) [str "a"; str "b"] =
  (Runner true [str "a"; str "b"] 0 (Some 7%N) Inverted true false QuirksAql (Some 9%N), [str "a"; str "b"],
   [CList; CFind (SearchQuery [str "a"; str "b"] (str "tok  & tok") QuirksAql (Some 9%N)) 0 (Some 7%N) Inverted], out).
Proof. eexists. vm_compute. reflexivity. Qed.
