(** Proofs about what each command of the console asks for. *)
From Coq Require Import NArith String.
From stdpp Require Import base list gmap.
From Verif Require Import KeySer Types CompPath Service RelAnnis RelAnnisConfig RelAnnisConfigSpec RelAnnisConfigText RelAnnisConfigProofs LinkedFiles Frequency CApi CApiSpec CApiProofs Console ConsoleSpec ConsoleProofs ConsoleRuns ConsoleExactSpec.

Lemma split_dot_none s : split_dot s = None → 46%N ∉ s.
Proof.
  induction s as [|b s IH]; cbn [split_dot]; [intros _; apply not_elem_of_nil|]. destruct (split_dot s) as [[x y]|]; [done|]. case_decide; [done|]. intros _. apply not_elem_of_cons. split; [congruence|by apply IH].
Qed.
Lemma split_dot_rest s x y : split_dot s = Some (x, y) → 46%N ∉ y.
Proof.
  revert x y. induction s as [|b s IH]; intros x y; cbn [split_dot]; [done|]. destruct (split_dot s) as [[x' y']|] eqn:E; [intros [= _ <-]; by eapply IH|]. case_decide; [|done]. intros [= _ <-]. by apply split_dot_none.
Qed.
Lemma extension_no_dot path e : extension path = Some e → 46%N ∉ e.
Proof. unfold extension. destruct (file_name_of path) as [f|]; [|done]. cbn. destruct (split_dot f) as [[[|a x] y]|] eqn:E; [done| |done]. intros [= <-]. by eapply split_dot_rest. Qed.

Lemma lower_zip path : RelAnnisConfig.lower <$> extension path = Some (str "zip") ↔ zip_path path.
Proof.
  unfold zip_path. rewrite fmap_Some. split; intros (e & H1 & H2); exists e; (split; [done|]).
  - apply lower_same; [apply (bool_decide_unpack _); vm_compute; exact I|done].
  - symmetry. apply lower_same; [apply (bool_decide_unpack _); vm_compute; exact I|done].
Qed.
Lemma lower_graphml path : (RelAnnisConfig.lower <$> extension path = Some (str "graphml") ∨ RelAnnisConfig.lower <$> extension path = Some (str "xml")) ↔ graphml_path path.
Proof.
  unfold graphml_path. rewrite !fmap_Some. split.
  - intros [(e & H1 & H2)|(e & H1 & H2)]; exists e; (split; [done|]); [left|right]; (apply lower_same; [apply (bool_decide_unpack _); vm_compute; exact I|done]).
  - intros (e & H1 & [H2|H2]); [left|right]; exists e; (split; [done|]); symmetry; (apply lower_same; [apply (bool_decide_unpack _); vm_compute; exact I|done]).
Qed.

Lemma split_on_join ds : ds ≠ [] → Forall (λ d, 44%N ∉ d) ds → split_on (λ b : N, bool_decide (b = 44%N)) [] (join_comma ds) = ds.
Proof.
  intros Hn H. induction H as [|d ds Hd H IH]; [done|]. destruct ds as [|d' ds]; [by rewrite (split_on_last 44%N)|].
  change (join_comma (d :: d' :: ds)) with (d ++ 44%N :: join_comma (d' :: ds)). rewrite (split_on_app 44%N) by done. cbn [app]. f_equal. by apply IH.
Qed.

Section Exact.
Context {W Ans : Type} (api : call → W → W * option Ans) (names : Ans → list bytes) (exists_file : W → bytes → bool).
Notation exec := (exec api names exists_file). Notation command := (command api names exists_file).
Notation start_loop := (start_loop api names exists_file).
Notation finish d := (Done_ (d_world d) (d_calls d) (d_output d ++ if d_ok d then [] else [Problem]) (d_ok d)).

Lemma ask_performed r c w w' x : ru_open r = true → api c w = (w', x) → finish (ask api r c w (λ _ _, [])) = performed w' c x.
Proof. intros Ho E. unfold ask. rewrite Ho, E. by destruct x. Qed.
Lemma delete_lemma r line w name w' x : typed "delete" name line → name ≠ [] → ru_open r = true → api (CDelete name) w = (w', x) → exec r line w = Some (r, performed w' (CDelete name) x).
Proof. intros Ht Hn Ho E. rewrite (typed_exec _ _ _ "delete" name) by done. change (command r (str "delete") name w) with (Some (r, do_delete api r name w)). unfold do_delete. rewrite decide_False by done. do 2 f_equal. by apply ask_performed. Qed.
Lemma list_lemma r line w args w' x : typed "list" args line → ru_open r = true → api CList w = (w', x) → exec r line w = Some (r, answered w' CList x).
Proof. intros Ht Ho E. rewrite (typed_exec _ _ _ "list" args) by done. change (command r (str "list") args w) with (Some (r, do_list api r w)). unfold do_list. do 2 f_equal. by apply ask_answered. Qed.
Lemma args_split_one args path name : import_args args path name → ∃ rest, args_split args = path :: rest ∧ head rest = name.
Proof.
  intros (Hp & [[-> ->]|(n & -> & Hn & [-> |(rest & ->)])]); unfold args_split.
  - exists []. by rewrite (split_on_last 32%N).
  - exists [n]. by rewrite (split_on_app 32%N), (split_on_last 32%N).
  - eexists. by rewrite (split_on_app 32%N), (split_on_app 32%N).
Qed.
Lemma import_lemma r line w args path name c w' x : typed "import" args line → import_args args path name → exists_file w path = true → ru_open r = true →
  import_call path name (ru_disk r) c → api c w = (w', x) → exec r line w = Some (r, performed w' c x).
Proof.
  intros Ht Ha He Ho Hc E. rewrite (typed_exec _ _ _ "import" args) by done. change (command r (str "import") args w) with (Some (r, do_import api exists_file r args w)). unfold do_import.
  destruct (args_split_one _ _ _ Ha) as (rest & -> & ->). rewrite He. cbv zeta. do 2 f_equal.
  destruct Hc as [[Hz ->]|[(Hz & Hg & ->)|(Hz & Hg & ->)]].
  - rewrite decide_True by by apply lower_zip. by apply ask_performed.
  - rewrite decide_False by (by rewrite lower_zip). rewrite decide_True by by apply lower_graphml. by apply ask_performed.
  - rewrite decide_False by (by rewrite lower_zip). rewrite decide_False by (by rewrite lower_graphml). by apply ask_performed.
Qed.
Lemma import_call_total path name disk : ∃ c, import_call path name disk c.
Proof.
  destruct (decide (RelAnnisConfig.lower <$> extension path = Some (str "zip"))) as [Hz|Hz]; rewrite lower_zip in Hz; [eexists; left; done|].
  destruct (decide (RelAnnisConfig.lower <$> extension path = Some (str "graphml") ∨ RelAnnisConfig.lower <$> extension path = Some (str "xml"))) as [Hg|Hg]; rewrite lower_graphml in Hg; eexists; right; [left|right]; done.
Qed.
Lemma export_lemma r line w args path f w' x : typed "export" args line → first_part args path → ru_open r = true → export_kind path f →
  let c := CExport (ru_corpora r) path f in api c w = (w', x) → exec r line w = Some (r, performed w' c x).
Proof.
  intros Ht [Hp Ha] Ho Hf c E. rewrite (typed_exec _ _ _ "export" args) by done. change (command r (str "export") args w) with (Some (r, do_export api r args w)). unfold do_export.
  assert (∃ rest, args_split args = path :: rest) as (rest & ->).
  { unfold args_split. destruct Ha as [-> |(rest & ->)]; [rewrite (split_on_last 32%N) by done|rewrite (split_on_app 32%N) by done]; by eexists. }
  do 2 f_equal. destruct (extension path) as [e|] eqn:Ee.
  - assert (RelAnnisConfig.lower e = str "zip" ↔ zip_path path) as Hz. { rewrite <- lower_zip, Ee. cbn. split; [by intros ->|by intros [= ->]]. }
    destruct f; cbn in Hf; [|rewrite decide_True by (by apply Hz); by apply ask_performed|by rewrite Ee in Hf].
    rewrite decide_False by (rewrite Hz; tauto). rewrite decide_False; [by apply ask_performed|]. intros [-> _]. apply (extension_no_dot _ _ Ee). left.
  - destruct f; cbn in Hf; [by destruct Hf|destruct Hf as (e & He & _); by rewrite Ee in He|by apply ask_performed].
Qed.
Lemma frequency_lemma r line w ds defs text w' x : typed "frequency" (join_comma ds ++ 32%N :: text) line → ds ≠ [] → Forall (λ d, 44%N ∉ d ∧ 32%N ∉ d) ds → Forall2 (λ d f, freq_def_from_str d = Some f) ds defs →
  ru_open r = true → ru_corpora r ≠ [] → let c := CFrequency (SearchQuery (ru_corpora r) text (ru_language r) (ru_timeout r)) defs in api c w = (w', x) → exec r line w = Some (r, answered w' c x).
Proof.
  intros Ht Hn Hd Hf Ho Hc c E. rewrite (typed_exec _ _ _ "frequency" (join_comma ds ++ 32%N :: text)) by done.
  change (command r (str "frequency") (join_comma ds ++ 32%N :: text) w) with (Some (r, do_frequency api r (join_comma ds ++ 32%N :: text) w)). unfold do_frequency. rewrite decide_False by done.
  assert (32%N ∉ join_comma ds) as Hs.
  { clear - Hd. induction Hd as [|d ds [_ Hd] H IH]; [apply not_elem_of_nil|]. destruct ds as [|d' ds]; [done|]. change (join_comma (d :: d' :: ds)) with (d ++ 44%N :: join_comma (d' :: ds)). 
    rewrite elem_of_app, elem_of_cons. intros [H'|[H'|H']]; [done|done|by apply IH]. }
  rewrite split_first_app by done. do 2 f_equal.
  assert (omap freq_def_from_str (split_on (λ b : N, bool_decide (b = 44%N)) [] (join_comma ds)) = defs) as ->; [|by apply ask_answered].
  rewrite split_on_join; [|done|eapply Forall_impl; [exact Hd|by intros ? []]]. clear - Hf. induction Hf as [|d f ds defs Hd _ IH]; [done|]. cbn. rewrite Hd. by rewrite IH.
Qed.
(** ** All selected corpora *)
Lemma each_all r f k cs : ru_open r = true → ∀ w w' answers, asked api w (f <$> cs) w' answers → ask_each api r f k cs w = Done_ w' (f <$> cs) (mjoin (k <$> answers)) true.
Proof.
  intros Ho. induction cs as [|c cs IH]; intros w w' answers H; cbn in H; inversion H; subst; [done|]. cbn [ask_each]. unfold ask. rewrite Ho. 
  match goal with E : api (f c) w = _ |- _ => rewrite E end. cbn [d_ok d_world d_calls d_output]. match goal with E : asked _ _ (f <$> cs) _ _ |- _ => rewrite (IH _ _ _ E) end. done.
Qed.
Lemma each_fails r f k pre c post : ru_open r = true → ∀ w w1 w2 answers, asked api w (f <$> pre) w1 answers → api (f c) w1 = (w2, None) →
  ask_each api r f k (pre ++ c :: post) w = Done_ w2 (f <$> pre ++ [c]) (mjoin (k <$> answers)) false.
Proof.
  intros Ho. induction pre as [|p pre IH]; intros w w1 w2 answers H Ec; cbn in H; inversion H; subst; cbn [app ask_each]; unfold ask; rewrite Ho.
  - by rewrite Ec.
  - match goal with E : api (f p) w = _ |- _ => rewrite E end. cbn [d_ok d_world d_calls d_output]. match goal with E : asked _ _ (f <$> pre) _ _ |- _ => rewrite (IH _ _ _ _ E Ec) end. done.
Qed.
Lemma shown_answers (l : list Ans) : mjoin ((λ a, [Answer a]) <$> l) = Answer <$> l.
Proof. induction l as [|a l IH]; [done|]. cbn. by f_equal. Qed.
Lemma shown_nothing (l : list Ans) : mjoin ((λ a : Ans, [] : list (shown Ans)) <$> l) = [].
Proof. induction l as [|a l IH]; [done|]. cbn. done. Qed.
Lemma info_lemma r line w args : typed "info" args line → ru_open r = true → ru_corpora r ≠ [] →
  (∀ w' answers, asked api w (CInfo <$> ru_corpora r) w' answers → exec r line w = Some (r, Done_ w' (CInfo <$> ru_corpora r) (Answer <$> answers) true)) ∧
  (∀ pre c post w1 w2 answers, ru_corpora r = pre ++ c :: post → asked api w (CInfo <$> pre) w1 answers → api (CInfo c) w1 = (w2, None) →
    exec r line w = Some (r, Done_ w2 (CInfo <$> pre ++ [c]) ((Answer <$> answers) ++ [Problem]) false)).
Proof.
  intros Ht Ho Hc. rewrite (typed_exec _ _ _ "info" args) by done. change (command r (str "info") args w) with (Some (r, do_info api r w)). unfold do_info. rewrite decide_False by done. split.
  - intros w' answers H. rewrite (each_all r CInfo (λ a, [Answer a]) (ru_corpora r) Ho w w' answers H). cbn [d_world d_calls d_output d_ok]. by rewrite shown_answers, app_nil_r.
  - intros pre c post w1 w2 answers Ec H E. rewrite Ec. rewrite (each_fails r CInfo (λ a, [Answer a]) pre c post Ho w w1 w2 answers H E). cbn [d_world d_calls d_output d_ok]. by rewrite shown_answers.
Qed.
Lemma quiet_lemma r line w args (f : bytes → call) : 
  (typed "preload" args line ∧ ru_corpora r ≠ [] ∧ f = CPreload) ∨ (typed "re-optimize" args line ∧ f = λ c, CReoptimize c (ru_disk r)) → ru_open r = true →
  (∀ w' answers, asked api w (f <$> ru_corpora r) w' answers → exec r line w = Some (r, Done_ w' (f <$> ru_corpora r) [] true)) ∧
  (∀ pre c post w1 w2 answers, ru_corpora r = pre ++ c :: post → asked api w (f <$> pre) w1 answers → api (f c) w1 = (w2, None) →
    exec r line w = Some (r, Done_ w2 (f <$> pre ++ [c]) [Problem] false)).
Proof.
  intros Ht Ho. assert (exec r line w = Some (r, finish (ask_each api r f (λ _, []) (ru_corpora r) w))) as ->.
  { destruct Ht as [(Ht & Hc & ->)|[Ht ->]].
    - rewrite (typed_exec _ _ _ "preload" args) by done. change (command r (str "preload") args w) with (Some (r, do_preload api r w)). unfold do_preload. by rewrite decide_False by done.
    - rewrite (typed_exec _ _ _ "re-optimize" args) by done. by change (command r (str "re-optimize") args w) with (Some (r, do_reoptimize api r w)). }
  split.
  - intros w' answers H. rewrite (each_all r f (λ _, []) (ru_corpora r) Ho w w' answers H). cbn [d_world d_calls d_output d_ok]. by rewrite shown_nothing.
  - intros pre c post w1 w2 answers Ec H E. rewrite Ec. rewrite (each_fails r f (λ _, []) pre c post Ho w w1 w2 answers H E). cbn [d_world d_calls d_output d_ok]. by rewrite shown_nothing.
Qed.
(** ** Parallel search *)
Lemma parallel_lemma r line w v w' a : sets_switch "set-parallel-search" line v → v ≠ ru_parallel r → api (COpen v) w = (w', Some a) →
  exec r line w = Some (Runner true (ru_corpora r) (ru_offset r) (ru_limit r) (ru_order r) v (ru_disk r) (ru_language r) (ru_timeout r), Done_ w' [COpen v] [Message] true).
Proof.
  intros [Hc Hs]%switch_iff Hv E; [|done]. rewrite exec_command. destruct (parse_line line) as [cmd args]. cbn [fst snd] in *. subst cmd.
  change (command r (str "set-parallel-search") args w) with (Some (do_parallel api r args w)). unfold do_parallel. rewrite Hs, decide_False by congruence. by rewrite E.
Qed.
Lemma parallel_same r line w : sets_switch "set-parallel-search" line (ru_parallel r) → exec r line w = Some (r, Done_ w [] [Message] true).
Proof.
  intros [Hc Hs]%switch_iff; [|done]. rewrite exec_command. destruct (parse_line line) as [cmd args]. cbn [fst snd] in *. subst cmd.
  change (command r (str "set-parallel-search") args w) with (Some (do_parallel api r args w)). unfold do_parallel. by rewrite Hs, decide_True.
Qed.
(** ** Other lines *)
Lemma unknown_lemma r line w : (∀ s args, s ∈ command_names → ¬ typed s args line) → exec r line w = Some (r, Done_ w [] [Problem] false).
Proof.
  intros H. rewrite exec_command. destruct (parse_line line) as [cmd args] eqn:E. cbn [fst snd].
  assert (∀ s : string, bool_decide (32%N ∉ str s) = true → s ∈ command_names → bool_decide (cmd = str s) = false) as Hs.
  { intros s Hb Hs. apply bool_decide_eq_false. intros ->. apply (H s args Hs). by apply typed_iff. }
  unfold Console.command. cbv zeta.
  repeat match goal with |- context [bool_decide (cmd = str ?s)] => rewrite (Hs s); [|reflexivity|unfold command_names; repeat (first [apply elem_of_list_here|apply elem_of_list_further])] end. done.
Qed.
Lemma closed_lemma r line w text : ru_open r = false → ru_corpora r ≠ [] → typed "find" text line ∨ typed "count" text line ∨ typed "plan" text line → exec r line w = Some (r, Done_ w [] [Problem] false).
Proof.
  intros Ho Hc [Ht|[Ht|Ht]].
  - rewrite (typed_exec _ _ _ "find" text) by done. change (command r (str "find") text w) with (Some (r, do_find api r text w)). unfold do_find, ask. by rewrite decide_False, Ho.
  - rewrite (typed_exec _ _ _ "count" text) by done. change (command r (str "count") text w) with (Some (r, do_count api r text w)). unfold do_count, ask. by rewrite decide_False, Ho.
  - rewrite (typed_exec _ _ _ "plan" text) by done. change (command r (str "plan") text w) with (Some (r, do_plan api r text w)). unfold do_plan, ask. by rewrite decide_False, Ho.
Qed.
Lemma append_lemma ls1 ls2 : (∀ l, l ∈ ls1 → ¬ ends l) → ∀ r w r1 w1 cs1 out1 r2 w2 cs2 out2,
  start_loop r ls1 w = (r1, w1, cs1, out1) → start_loop r1 ls2 w1 = (r2, w2, cs2, out2) → start_loop r (ls1 ++ ls2) w = (r2, w2, cs1 ++ cs2, out1 ++ out2).
Proof.
  intros He. induction ls1 as [|l ls1 IH]; intros r w r1 w1 cs1 out1 r2 w2 cs2 out2; cbn [app Console.start_loop]; [by intros [= -> -> <- <-] ->|].
  destruct (exec r l w) as [[r' d]|] eqn:E; [|by apply exec_none in E; destruct (He l); [left|]].
  destruct (start_loop r' ls1 (d_world d)) as [[[r3 w3] cs3] out3] eqn:E3. intros [= -> -> <- <-] E2.
  rewrite (IH (λ l Hl, He l (elem_of_list_further _ _ _ Hl)) _ _ _ _ _ _ _ _ _ _ E3 E2). by rewrite <- !app_assoc.
Qed.
Lemma single_lemma r line w r' d : exec r line w = Some (r', d) → start_loop r [line] w = (r', d_world d, d_calls d, d_output d).
Proof. intros E. cbn [Console.start_loop]. rewrite E. by rewrite !app_nil_r. Qed.
End Exact.
