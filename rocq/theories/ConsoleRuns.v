(** Proofs about the calls of the console and its runs. *)
From Coq Require Import NArith String.
From stdpp Require Import base list gmap.
From Verif Require Import KeySer Types CompPath Service RelAnnis RelAnnisConfig RelAnnisConfigSpec RelAnnisConfigText RelAnnisConfigProofs LinkedFiles Frequency Console ConsoleSpec ConsoleProofs.

(** ** Words *)
Notation blankb := (λ b : N, bool_decide (b ∈ [32; 9; 10; 12; 13]%N)).
Lemma split_word w cur : Forall (λ b, ¬ blank b) w → split_on blankb cur w = [cur ++ w].
Proof.
  intros H. revert cur. induction H as [|b w Hb H IH]; intros cur; cbn [split_on]; [by rewrite app_nil_r|].
  rewrite bool_decide_false by exact Hb. rewrite IH. by rewrite <- app_assoc.
Qed.
Lemma split_words w cur s : Forall (λ b, ¬ blank b) w → split_on blankb cur (w ++ 32%N :: s) = (cur ++ w) :: split_on blankb [] s.
Proof.
  intros H. revert cur. induction H as [|b w Hb H IH]; intros cur; cbn [split_on app].
  - rewrite bool_decide_true by left. by rewrite app_nil_r.
  - rewrite bool_decide_false by exact Hb. rewrite IH. by rewrite <- app_assoc.
Qed.
Lemma words_unwords ws : Forall word ws → words (unwords ws) = ws.
Proof.
  intros H. unfold words. induction H as [|w ws [Hw Hb] H IH]; [done|]. destruct ws as [|w' ws].
  - cbn [unwords]. rewrite split_word by done. cbn [app]. by rewrite filter_cons_True, filter_nil.
  - change (unwords (w :: w' :: ws)) with (w ++ 32%N :: unwords (w' :: ws)). rewrite split_words by done. cbn [app]. rewrite filter_cons_True by done. f_equal. exact IH.
Qed.
Lemma split_first_part args path rest : args_split args = path :: rest → first_part args path.
Proof.
  unfold args_split, first_part. assert (∀ s cur, split_on (λ b, bool_decide (b = 32%N)) cur s = path :: rest →
    ∃ x, path = cur ++ x ∧ 32%N ∉ x ∧ (s = x ∨ ∃ r, s = x ++ 32%N :: r)) as H.
  { induction s as [|b s IH]; intros cur; cbn [split_on].
    - intros [= <- _]. exists []. rewrite app_nil_r. split_and!; [done|apply not_elem_of_nil|by left].
    - case_bool_decide as Hb.
      + intros [= <- _]. subst b. exists []. rewrite app_nil_r. split_and!; [done|apply not_elem_of_nil|]. right. by exists s.
      + intros (x & -> & Hx & Hs)%IH. exists (b :: x). rewrite <- app_assoc. split_and!; [done|by apply not_elem_of_cons; split; [congruence|done]|].
        destruct Hs as [-> |(r & ->)]; [by left|right; by exists r]. }
  intros (x & -> & Hx & Hs)%H. done.
Qed.

Section Runs.
Context {W Ans : Type} (api : call → W → W * option Ans) (names : Ans → list bytes) (exists_file : W → bytes → bool).
Notation exec := (exec api names exists_file). Notation command := (command api names exists_file).
Notation start_loop := (start_loop api names exists_file).

(** ** Settings after a run *)
Lemma run_setting {A} (P : bytes → A → Prop) (f : runner → A) :
  (∀ r line w r' d, exec r line w = Some (r', d) → P line (f r') ∨ ((∀ a, ¬ P line a) ∧ f r' = f r)) →
  ∀ lines r w r' w' cs out, (∀ l, l ∈ lines → ¬ ends l) → start_loop r lines w = (r', w', cs, out) → setting P lines (f r) (f r').
Proof.
  intros Hstep. induction lines as [|l lines IH]; intros r w r' w' cs out He; cbn [Console.start_loop].
  - intros [= <- _ _ _]. right. split; [intros l a Hl; by apply elem_of_nil in Hl|done].
  - destruct (exec r l w) as [[r1 d]|] eqn:E; [|by apply exec_none in E; destruct (He l); [left|]].
    destruct (start_loop r1 lines (d_world d)) as [[[r2 w2] cs2] out2] eqn:E2. intros [= -> -> _ _].
    apply IH in E2; [|intros x Hx; apply He; by right]. destruct (Hstep _ _ _ _ _ E) as [H|[H1 H2]]; [by eapply setting_found|]. rewrite <- H2. by apply setting_skip.
Qed.
Lemma run_end lines q post : (∀ l, l ∈ lines → ¬ ends l) → ends q → ∀ r w, start_loop r (lines ++ q :: post) w = start_loop r lines w.
Proof.
  intros He Hq. induction lines as [|l lines IH]; intros r w; cbn [app Console.start_loop].
  - by rewrite (proj2 (exec_none api names exists_file r q w) Hq).
  - destruct (exec r l w) as [[r1 d]|]; [|done]. by rewrite IH by (intros x Hx; apply He; by right).
Qed.

(** ** Calls *)
Lemma ask_calls r c w k x : x ∈ d_calls (ask api r c w k) → x = c.
Proof. unfold ask. destruct (ru_open r); [|intros H; inversion H]. destruct (api c w) as [w' [a|]]; cbn; by intros ->%elem_of_list_singleton. Qed.
Lemma ask_each_calls r f k cs : ∀ w x, x ∈ d_calls (ask_each api r f k cs w) → ∃ c, c ∈ cs ∧ x = f c.
Proof.
  induction cs as [|c cs IH]; intros w x; cbn [ask_each]; [intros H; inversion H|]. destruct (d_ok _) eqn:E; cbn [d_calls].
  - intros [H|H]%elem_of_app; [apply ask_calls in H as ->; exists c; split; [left|done]|]. apply IH in H as (c' & H & ->). exists c'. split; [by right|done].
  - intros H%ask_calls. exists c. split; [left|done].
Qed.
Lemma calls_lemma r line w r' d c : exec r line w = Some (r', d) → c ∈ d_calls d → call_allowed r line c.
Proof.
  rewrite exec_command. destruct (parse_line line) as [cmd args] eqn:Ep. cbn [fst snd]. destruct (command r cmd args w) as [[r1 d1]|] eqn:E; [|done].
  intros [= _ <-]. cbn [d_calls]. intros Hin.
  assert (∀ s : string, bool_decide (32%N ∉ str s) = true → cmd = str s → typed s args line) as Ht by (intros s Hs ->; by apply typed_iff).
  revert E. unfold Console.command. cbv zeta.
  case_bool_decide as C1.
  { intros [= _ <-]. unfold do_import in Hin. destruct (args_split args) as [|path rest] eqn:Ea; [by apply elem_of_nil in Hin|]. apply split_first_part in Ea.
    destruct (exists_file w path); [|by apply elem_of_nil in Hin]. case_decide; apply ask_calls in Hin as ->; exists args; split_and!; auto. }
  case_bool_decide as C2.
  { intros [= _ <-]. unfold do_export in Hin. destruct (args_split args) as [|path rest] eqn:Ea; [by apply elem_of_nil in Hin|]. apply split_first_part in Ea.
    destruct (extension path) as [e|]; [|apply ask_calls in Hin as ->; split; [done|]; exists args; auto]. case_decide; [apply ask_calls in Hin as ->; split; [done|]; exists args; auto|].
    case_decide; [by apply elem_of_nil in Hin|]. apply ask_calls in Hin as ->. split; [done|]. exists args; auto. }
  case_bool_decide as C3. { intros [= _ <-]. apply ask_calls in Hin as ->. exists args. auto. }
  case_bool_decide as C4.
  { intros [= _ <-]. unfold do_delete in Hin. case_decide; [by apply elem_of_nil in Hin|]. apply ask_calls in Hin as ->. cbn. auto. }
  case_bool_decide as C5.
  { intros Ex. apply (inj Some) in Ex. unfold do_corpus in Ex. case_decide; [injection Ex as _ <-; by apply elem_of_nil in Hin|]. destruct (ru_open r); [|injection Ex as _ <-; by apply elem_of_nil in Hin].
    destruct (api CList w) as [w1 [a|]]; injection Ex as _ <-; cbn [d_calls] in Hin; apply elem_of_list_singleton in Hin as ->; exists args; auto. }
  case_bool_decide as C6. { intros Ex. apply (inj Some) in Ex. unfold do_offset in Ex. case_match; injection Ex as _ <-; by apply elem_of_nil in Hin. }
  case_bool_decide as C7. { intros Ex. apply (inj Some) in Ex. unfold do_limit in Ex. case_match; injection Ex as _ <-; by apply elem_of_nil in Hin. }
  case_bool_decide as C8. { intros Ex. apply (inj Some) in Ex. unfold do_order in Ex. case_match; injection Ex as _ <-; by apply elem_of_nil in Hin. }
  case_bool_decide as C9. { intros Ex. apply (inj Some) in Ex. unfold do_timeout in Ex. case_match; injection Ex as _ <-; by apply elem_of_nil in Hin. }
  case_bool_decide as C10. { intros [= _ <-]. unfold do_preload in Hin. case_decide; [by apply elem_of_nil in Hin|]. apply ask_each_calls in Hin as (x & Hx & ->). split; [done|]. exists args; auto. }
  case_bool_decide as C11. { intros [= _ <-]. unfold do_plan in Hin. case_decide; [by apply elem_of_nil in Hin|]. apply ask_calls in Hin as ->. cbn. auto. }
  case_bool_decide as C12. { intros [= _ <-]. unfold do_reoptimize in Hin. apply ask_each_calls in Hin as (x & Hx & ->). split; [done|]. split; [done|]. exists args. by apply Ht. }
  case_bool_decide as C13. { intros [= _ <-]. unfold do_count in Hin. case_decide; [by apply elem_of_nil in Hin|]. apply ask_calls in Hin as ->. cbn. auto. }
  case_bool_decide as C14. { intros [= _ <-]. unfold do_find in Hin. case_decide; [by apply elem_of_nil in Hin|]. apply ask_calls in Hin as ->. cbn. split_and!; auto. }
  case_bool_decide as C15.
  { intros [= _ <-]. unfold do_frequency in Hin. case_decide; [by apply elem_of_nil in Hin|]. destruct (split_first 32%N args) as [[defs text]|] eqn:Es; [|by apply elem_of_nil in Hin].
    apply ask_calls in Hin as ->. cbn. split; [done|]. exists defs. apply split_first_spec in Es as [Es _]. rewrite <- Es. by apply Ht. }
  case_bool_decide as C16.
  { intros Ex. apply (inj Some) in Ex. unfold do_parallel in Ex. destruct (switch_of args) as [v|]; [|injection Ex as _ <-; by apply elem_of_nil in Hin]. case_decide; [injection Ex as _ <-; by apply elem_of_nil in Hin|].
    destruct (api (COpen v) w) as [w1 [a|]]; injection Ex as _ <-; cbn [d_calls] in Hin; apply elem_of_list_singleton in Hin as ->; (exists args; by apply Ht). }
  case_bool_decide as C17. { intros Ex. apply (inj Some) in Ex. unfold do_disk in Ex. case_match; injection Ex as _ <-; by apply elem_of_nil in Hin. }
  case_bool_decide as C18. { intros Ex. apply (inj Some) in Ex. unfold do_quirks in Ex. case_match; injection Ex as _ <-; by apply elem_of_nil in Hin. }
  case_bool_decide as C19. { intros [= _ <-]. unfold do_info in Hin. case_decide; [by apply elem_of_nil in Hin|]. apply ask_each_calls in Hin as (x & Hx & ->). split; [done|]. exists args. by apply Ht. }
  destruct (bool_decide _ || bool_decide _); [done|]. intros [= _ <-]. by apply elem_of_nil in Hin.
Qed.

(** ** Errors *)
Lemma failed_lemma r line w r' d : (∀ args, ¬ typed "set-parallel-search" args line) → exec r line w = Some (r', d) → d_ok d = false → r' = r.
Proof.
  intros Hp. rewrite exec_command. setoid_rewrite typed_iff in Hp; [|done]. destruct (parse_line line) as [cmd args]. cbn [fst snd]. destruct (command r cmd args w) as [[r1 d1]|] eqn:E; [|done].
  intros [= <- <-]. cbn [d_ok]. intros Hf. assert (cmd ≠ str "set-parallel-search") as Hn by (intros ->; by apply (Hp args)). clear Hp. revert E. unfold Console.command. cbv zeta.
  repeat match goal with |- (if bool_decide ?P then Some (r, _) else _) = _ → _ => destruct (bool_decide P); [by intros [= <- _]|]
  | |- (if bool_decide ?P then Some _ else _) = _ → _ => let H := fresh "Hc" in destruct (bool_decide P) eqn:H; [apply bool_decide_eq_true in H; intros Ex; apply (inj Some) in Ex; clear - Ex H Hf Hn|clear H] end.
  all: try (destruct (_ || _); [done|by intros [= <- _]]).
  - unfold do_corpus in Ex. case_decide; [by injection Ex as <- <-|]. destruct (ru_open r); [|by injection Ex as <- _].
    destruct (api CList w) as [w1 [a|]]; by injection Ex as <- <-.
  - unfold do_offset in Ex. case_match; by injection Ex as <- <-.
  - unfold do_limit in Ex. case_match; by injection Ex as <- <-.
  - unfold do_order in Ex. case_match; by injection Ex as <- <-.
  - unfold do_timeout in Ex. case_match; by injection Ex as <- <-.
  - by contradict Hn.
  - unfold do_disk in Ex. case_match; by injection Ex as <- <-.
  - unfold do_quirks in Ex. case_match; by injection Ex as <- <-.
Qed.
Lemma selection_kept r line w r' d : (∀ args, ¬ typed "corpus" args line) → exec r line w = Some (r', d) → ru_corpora r' = ru_corpora r.
Proof.
  intros Hp. rewrite exec_command. setoid_rewrite typed_iff in Hp; [|done]. destruct (parse_line line) as [cmd args]. cbn [fst snd]. destruct (command r cmd args w) as [[r1 d1]|] eqn:E; [|done].
  intros [= <- _]. assert (cmd ≠ str "corpus") as Hn by (intros ->; by apply (Hp args)). apply command_cases in E. destruct E as [-> |E]; [done|].
  repeat (destruct E as [[Hc (? & E)]|E]; [first [by contradict Hn|try (destruct E as (? & E)); rewrite E; reflexivity]|]). destruct E as [Hc (? & E)]. by rewrite E.
Qed.

(** ** Queries *)
Lemma typed_exec (cmd : string) args line r w : bool_decide (32%N ∉ str cmd) = true → typed cmd args line → exec r line w = match command r (str cmd) args w with
  | Some (r', d) => Some (r', Done_ (d_world d) (d_calls d) (d_output d ++ if d_ok d then [] else [Problem]) (d_ok d)) | None => None end.
Proof. intros Hc Ht. apply typed_iff in Ht; [|done]. by rewrite exec_command, Ht. Qed.
Lemma ask_answered r c w w' x : ru_open r = true → api c w = (w', x) → let d := ask api r c w (λ _ a, [Answer a]) in
  Done_ (d_world d) (d_calls d) (d_output d ++ if d_ok d then [] else [Problem]) (d_ok d) = answered w' c x.
Proof. intros Ho E. unfold ask. rewrite Ho, E. by destruct x. Qed.
Lemma find_lemma r line w text w' x : typed "find" text line → ru_open r = true → ru_corpora r ≠ [] →
  let c := CFind (SearchQuery (ru_corpora r) text (ru_language r) (ru_timeout r)) (ru_offset r) (ru_limit r) (ru_order r) in api c w = (w', x) → exec r line w = Some (r, answered w' c x).
Proof. intros Ht Ho Hc c E. rewrite (typed_exec "find" text) by done. change (command r (str "find") text w) with (Some (r, do_find api r text w)). unfold do_find. rewrite decide_False by done. cbn beta iota. do 2 f_equal. by apply ask_answered. Qed.
Lemma count_lemma r line w text w' x : typed "count" text line → ru_open r = true → ru_corpora r ≠ [] →
  let c := CCount (SearchQuery (ru_corpora r) text (ru_language r) (ru_timeout r)) in api c w = (w', x) → exec r line w = Some (r, answered w' c x).
Proof. intros Ht Ho Hc c E. rewrite (typed_exec "count" text) by done. change (command r (str "count") text w) with (Some (r, do_count api r text w)). unfold do_count. rewrite decide_False by done. cbn beta iota. do 2 f_equal. by apply ask_answered. Qed.
Lemma plan_lemma r line w text w' x : typed "plan" text line → ru_open r = true → ru_corpora r ≠ [] →
  let c := CPlan (ru_corpora r) text (ru_language r) in api c w = (w', x) → exec r line w = Some (r, answered w' c x).
Proof. intros Ht Ho Hc c E. rewrite (typed_exec "plan" text) by done. change (command r (str "plan") text w) with (Some (r, do_plan api r text w)). unfold do_plan. rewrite decide_False by done. cbn beta iota. do 2 f_equal. by apply ask_answered. Qed.
Lemma unselected_lemma r line w text : typed "find" text line ∨ typed "count" text line ∨ typed "plan" text line ∨ typed "frequency" text line → ru_corpora r = [] →
  exec r line w = Some (r, Done_ w [] [Message] true).
Proof.
  intros Ht Hc. destruct Ht as [Ht|[Ht|[Ht|Ht]]].
  - rewrite (typed_exec "find" text) by done. change (command r (str "find") text w) with (Some (r, do_find api r text w)). unfold do_find. by rewrite decide_True.
  - rewrite (typed_exec "count" text) by done. change (command r (str "count") text w) with (Some (r, do_count api r text w)). unfold do_count. by rewrite decide_True.
  - rewrite (typed_exec "plan" text) by done. change (command r (str "plan") text w) with (Some (r, do_plan api r text w)). unfold do_plan. by rewrite decide_True.
  - rewrite (typed_exec "frequency" text) by done. change (command r (str "frequency") text w) with (Some (r, do_frequency api r text w)). unfold do_frequency. by rewrite decide_True.
Qed.
Lemma corpus_lemma r line w ws w' a : typed "corpus" (unwords ws) line → ws ≠ [] → Forall word ws → ru_open r = true → api CList w = (w', Some a) →
  ∃ d, exec r line w = Some (with_corpora r (filter (λ s, s ∈ names a) ws), d).
Proof.
  intros Ht Hn Hw Ho E. rewrite (typed_exec "corpus" (unwords ws)) by done. change (command r (str "corpus") (unwords ws) w) with (Some (do_corpus api names r (unwords ws) w)).
  unfold do_corpus. rewrite decide_False; [|intros Eu; pose proof (words_unwords ws Hw) as E'; rewrite Eu in E'; by rewrite <- E' in Hn]. rewrite Ho, E, words_unwords by done. eexists. done.
Qed.
Lemma corpus_none r line w : typed "corpus" [] line → exec r line w = Some (with_corpora r [], Done_ w [] [] true).
Proof. intros Ht. by rewrite (typed_exec "corpus" []). Qed.
End Runs.
