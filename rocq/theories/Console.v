(** Model of the interactive console (/repo/cli/src/bin/annis.rs).
    Simplifications: the corpus storage is any program that answers calls ([api]); [str::trim] and [split_ascii_whitespace] know ASCII white
    space, [to_lowercase] changes ASCII letters only (no other letter becomes one of the words that are compared); the texts of messages,
    the layout of tables, measured times, the history of the editor and the completion of words are left out; a printed answer is one item
    of the output. *)
From Coq Require Import NArith String.
From stdpp Require Import base list gmap.
From Verif Require Import KeySer Types CompPath Service RelAnnis RelAnnisConfig LinkedFiles Frequency.

Inductive result_order := Normal | Inverted | Randomized | NotSorted.
Inductive language := PlainAql | QuirksAql.
Inductive import_format := FromRelAnnis | FromGraphML.
Inductive export_format := ToGraphML | ToZip | ToDirectory.
(** corpusstorage.rs: SearchQuery *)
Record search_query := SearchQuery { sq_corpora : list bytes; sq_text : bytes; sq_language : language; sq_timeout : option N }.
(** The functions of the corpus storage which the console calls *)
Inductive call :=
| CList
| CImportZip (path : bytes) (disk overwrite : bool)
| CImport (path : bytes) (format : import_format) (name : option bytes) (disk overwrite : bool)
| CExport (corpora : list bytes) (path : bytes) (format : export_format)
| CReoptimize (name : bytes) (disk : bool)
| CDelete (name : bytes)
| CInfo (name : bytes)
| CPreload (name : bytes)
| CPlan (corpora : list bytes) (text : bytes) (lang : language)
| CCount (q : search_query)
| CFind (q : search_query) (offset : N) (limit : option N) (order : result_order)
| CFrequency (q : search_query) (defs : list freq_def)
| COpen (parallel : bool).
(** l.124-135; [ru_open]: there is a storage *)
Record runner := Runner {
  ru_open : bool;
  ru_corpora : list bytes;
  ru_offset : N;
  ru_limit : option N;
  ru_order : result_order;
  ru_parallel : bool;
  ru_disk : bool;
  ru_language : language;
  ru_timeout : option N }.
(** l.138-152 *)
Definition runner_new : runner := Runner true [] 0 None Normal true false PlainAql None.
(** str::split_ascii_whitespace *)
Definition words (s : bytes) : list bytes := filter (λ w, w ≠ []) (split_on (λ b, bool_decide (b ∈ [32; 9; 10; 12; 13]%N)) [] s).

Section Console.
(** The world outside of the console, the answers of the storage, whether a file exists *)
Context {W Ans : Type} (api : call → W → W * option Ans) (names : Ans → list bytes) (exists_file : W → bytes → bool).
Inductive shown := Answer (a : Ans) | Message | Problem.
(** What a command did: the new world, the calls, the output, and if it ended without error *)
Record done_ := Done_ { d_world : W; d_calls : list call; d_output : list shown; d_ok : bool }.
Definition says (w : W) (out : list shown) : done_ := Done_ w [] out true.
Definition fails (w : W) : done_ := Done_ w [] [] false.
(** self.storage.as_ref().ok_or_else(..)?.function(..)? *)
Definition ask (r : runner) (c : call) (w : W) (k : W → Ans → list shown) : done_ :=
  if ru_open r then let '(w', a) := api c w in
    match a with Some a => Done_ w' [c] (k w' a) true | None => Done_ w' [c] [] false end
  else fails w.
(** a loop over the selected corpora *)
Fixpoint ask_each (r : runner) (f : bytes → call) (k : Ans → list shown) (cs : list bytes) (w : W) : done_ :=
  match cs with
  | [] => says w []
  | c :: cs => let d := ask r (f c) w (λ _ a, k a) in
               if d_ok d then let d' := ask_each r f k cs (d_world d) in
                 Done_ (d_world d') (d_calls d ++ d_calls d') (d_output d ++ d_output d') (d_ok d')
               else d
  end.
Definition args_split (args : bytes) : list bytes := split_on (λ b, bool_decide (b = 32%N)) [] args.
(** l.230-299 *)
Definition do_import (r : runner) (args : bytes) (w : W) : done_ :=
  match args_split args with
  | [] => fails w
  | path :: rest =>
      if exists_file w path then
        let ext := RelAnnisConfig.lower <$> extension path in
        if decide (ext = Some (str "zip")) then ask r (CImportZip path (ru_disk r) true) w (λ _ _, [])
        else ask r (CImport path (if decide (ext = Some (str "graphml") ∨ ext = Some (str "xml")) then FromGraphML else FromRelAnnis)
                      (head rest) (ru_disk r) true) w (λ _ _, [])
      else says w []
  end.
(** l.301-337; the extension never starts with a dot, so that the error is not reached *)
Definition do_export (r : runner) (args : bytes) (w : W) : done_ :=
  match args_split args with
  | [] => fails w
  | path :: _ =>
      match extension path with
      | Some e => if decide (RelAnnisConfig.lower e = str "zip") then ask r (CExport (ru_corpora r) path ToZip) w (λ _ _, [])
                  else if decide (e = str ".graphml" ∧ length (ru_corpora r) ≠ 1) then fails w
                  else ask r (CExport (ru_corpora r) path ToGraphML) w (λ _ _, [])
      | None => ask r (CExport (ru_corpora r) path ToDirectory) w (λ _ _, [])
      end
  end.
(** l.339-348 *)
Definition do_reoptimize (r : runner) (w : W) : done_ := ask_each r (λ c, CReoptimize c (ru_disk r)) (λ _, []) (ru_corpora r) w.
(** l.350-366 *)
Definition do_list (r : runner) (w : W) : done_ := ask r CList w (λ _ a, [Answer a]).
(** l.368-381 *)
Definition do_delete (r : runner) (args : bytes) (w : W) : done_ :=
  if decide (args = []) then fails w else ask r (CDelete args) w (λ _ _, []).
(** l.383-408 *)
Definition with_corpora (r : runner) (cs : list bytes) : runner :=
  Runner (ru_open r) cs (ru_offset r) (ru_limit r) (ru_order r) (ru_parallel r) (ru_disk r) (ru_language r) (ru_timeout r).
Definition do_corpus (r : runner) (args : bytes) (w : W) : runner * done_ :=
  if decide (args = []) then (with_corpora r [], says w [])
  else if ru_open r then let '(w', a) := api CList w in
    match a with
    | Some a => (with_corpora r (filter (λ s, s ∈ names a) (words args)),
                 Done_ w' [CList] ((λ _, Message) <$> filter (λ s, s ∉ names a) (words args)) true)
    | None => (r, Done_ w' [CList] [] false)
    end
  else (r, fails w).
(** l.410-417 *)
Definition do_offset (r : runner) (args : bytes) (w : W) : runner * done_ :=
  match (if decide (args = []) then Some 0%N else parse_num usize_limit (trim args)) with
  | Some n => (Runner (ru_open r) (ru_corpora r) n (ru_limit r) (ru_order r) (ru_parallel r) (ru_disk r) (ru_language r) (ru_timeout r), says w [])
  | None => (r, fails w)
  end.
(** l.419-426 *)
Definition do_limit (r : runner) (args : bytes) (w : W) : runner * done_ :=
  match (if decide (args = []) then Some None else Some <$> parse_num usize_limit (trim args)) with
  | Some n => (Runner (ru_open r) (ru_corpora r) (ru_offset r) n (ru_order r) (ru_parallel r) (ru_disk r) (ru_language r) (ru_timeout r), says w [])
  | None => (r, fails w)
  end.
(** l.428-449: the argument is not trimmed *)
Definition order_of (s : bytes) : option result_order :=
  let s := RelAnnisConfig.lower s in
  if decide (s = str "normal") then Some Normal else if decide (s = str "inverted") then Some Inverted
  else if decide (s = str "random") then Some Randomized else if decide (s = str "unsorted") then Some NotSorted else None.
Definition do_order (r : runner) (args : bytes) (w : W) : runner * done_ :=
  match (if decide (args = []) then Some Normal else order_of args) with
  | Some o => (Runner (ru_open r) (ru_corpora r) (ru_offset r) (ru_limit r) o (ru_parallel r) (ru_disk r) (ru_language r) (ru_timeout r),
               says w (if decide (args = []) then [] else [Message]))
  | None => (r, fails w)
  end.
(** l.451-461 *)
Definition do_timeout (r : runner) (args : bytes) (w : W) : runner * done_ :=
  match (if decide (args = []) then Some None else Some <$> parse_num usize_limit (trim args)) with
  | Some n => (Runner (ru_open r) (ru_corpora r) (ru_offset r) (ru_limit r) (ru_order r) (ru_parallel r) (ru_disk r) (ru_language r) n, says w [Message])
  | None => (r, fails w)
  end.
(** l.467-482, 485-502 *)
Definition do_info (r : runner) (w : W) : done_ :=
  if decide (ru_corpora r = []) then says w [Message] else ask_each r CInfo (λ a, [Answer a]) (ru_corpora r) w.
Definition do_preload (r : runner) (w : W) : done_ :=
  if decide (ru_corpora r = []) then says w [Message] else ask_each r CPreload (λ _, []) (ru_corpora r) w.
(** l.530-537 *)
Definition query_from (r : runner) (text : bytes) : search_query := SearchQuery (ru_corpora r) text (ru_language r) (ru_timeout r).
(** l.505-528, 539-561, 563-590 *)
Definition do_plan (r : runner) (args : bytes) (w : W) : done_ :=
  if decide (ru_corpora r = []) then says w [Message] else ask r (CPlan (ru_corpora r) args (ru_language r)) w (λ _ a, [Answer a]).
Definition do_count (r : runner) (args : bytes) (w : W) : done_ :=
  if decide (ru_corpora r = []) then says w [Message] else ask r (CCount (query_from r args)) w (λ _ a, [Answer a]).
Definition do_find (r : runner) (args : bytes) (w : W) : done_ :=
  if decide (ru_corpora r = []) then says w [Message] else ask r (CFind (query_from r args) (ru_offset r) (ru_limit r) (ru_order r)) w (λ _ a, [Answer a]).
(** l.592-655: definitions which can not be parsed are left out *)
Definition do_frequency (r : runner) (args : bytes) (w : W) : done_ :=
  if decide (ru_corpora r = []) then says w [Message]
  else match split_first 32%N args with
       | Some (defs, text) => ask r (CFrequency (query_from r text) (omap freq_def_from_str (split_on (λ b, bool_decide (b = 44%N)) [] defs))) w (λ _ a, [Answer a])
       | None => says w [Message]
       end.
(** l.657-662, 687-692, 699-704 *)
Definition switch_of (args : bytes) : option bool :=
  let s := RelAnnisConfig.lower (trim args) in
  if decide (s = str "on" ∨ s = str "true") then Some true else if decide (s = str "off" ∨ s = str "false") then Some false else None.
(** l.657-685: the old storage is released before the new one is opened *)
Definition do_parallel (r : runner) (args : bytes) (w : W) : runner * done_ :=
  match switch_of args with
  | None => (r, fails w)
  | Some v =>
      if decide (ru_parallel r = v) then (r, says w [Message])
      else let '(w', a) := api (COpen v) w in
        match a with
        | Some _ => (Runner true (ru_corpora r) (ru_offset r) (ru_limit r) (ru_order r) v (ru_disk r) (ru_language r) (ru_timeout r), Done_ w' [COpen v] [Message] true)
        | None => (Runner false (ru_corpora r) (ru_offset r) (ru_limit r) (ru_order r) (ru_parallel r) (ru_disk r) (ru_language r) (ru_timeout r), Done_ w' [COpen v] [] false)
        end
  end.
(** l.687-697 *)
Definition do_disk (r : runner) (args : bytes) (w : W) : runner * done_ :=
  match switch_of args with
  | Some v => (Runner (ru_open r) (ru_corpora r) (ru_offset r) (ru_limit r) (ru_order r) (ru_parallel r) v (ru_language r) (ru_timeout r), says w [])
  | None => (r, fails w)
  end.
(** l.699-724 *)
Definition do_quirks (r : runner) (args : bytes) (w : W) : runner * done_ :=
  match switch_of args with
  | Some v => (Runner (ru_open r) (ru_corpora r) (ru_offset r) (ru_limit r) (ru_order r) (ru_parallel r) (ru_disk r) (if v then QuirksAql else PlainAql) (ru_timeout r), says w [Message])
  | None => (r, fails w)
  end.
(** l.191-228; None for the end of the console *)
Definition command (r : runner) (cmd args : bytes) (w : W) : option (runner * done_) :=
  let is (s : string) := bool_decide (cmd = str s) in
  if is "import"%string then Some (r, do_import r args w)
  else if is "export"%string then Some (r, do_export r args w)
  else if is "list"%string then Some (r, do_list r w)
  else if is "delete"%string then Some (r, do_delete r args w)
  else if is "corpus"%string then Some (do_corpus r args w)
  else if is "set-offset"%string then Some (do_offset r args w)
  else if is "set-limit"%string then Some (do_limit r args w)
  else if is "set-order"%string then Some (do_order r args w)
  else if is "set-timeout"%string then Some (do_timeout r args w)
  else if is "preload"%string then Some (r, do_preload r w)
  else if is "plan"%string then Some (r, do_plan r args w)
  else if is "re-optimize"%string then Some (r, do_reoptimize r w)
  else if is "count"%string then Some (r, do_count r args w)
  else if is "find"%string then Some (r, do_find r args w)
  else if is "frequency"%string then Some (r, do_frequency r args w)
  else if is "set-parallel-search"%string then Some (do_parallel r args w)
  else if is "set-disk-based"%string then Some (do_disk r args w)
  else if is "set-quirks-mode"%string then Some (do_quirks r args w)
  else if is "info"%string then Some (r, do_info r w)
  else if is "quit"%string || is "exit"%string then None
  else Some (r, fails w).
Definition exec (r : runner) (line : bytes) (w : W) : option (runner * done_) :=
  let '(cmd, args) := match split_first 32%N line with Some p => p | None => (line, []) end in
  match command r cmd args w with
  | Some (r', d) => Some (r', Done_ (d_world d) (d_calls d) (d_output d ++ if d_ok d then [] else [Problem]) (d_ok d))
  | None => None
  end.
(** l.154-189: the console reads lines until its end; the lines that were executed are counted *)
Fixpoint start_loop (r : runner) (lines : list bytes) (w : W) : runner * W * list call * list shown :=
  match lines with
  | [] => (r, w, [], [])
  | l :: lines => match exec r l w with
                  | Some (r', d) => let '(r'', w'', cs, out) := start_loop r' lines (d_world d) in (r'', w'', d_calls d ++ cs, d_output d ++ out)
                  | None => (r, w, [], [])
                  end
  end.
(** l.776-781: the commands of the option --cmd; the answer of exec is ignored *)
Fixpoint run_commands (r : runner) (lines : list bytes) (w : W) : runner * W * list call * list shown :=
  match lines with
  | [] => (r, w, [], [])
  | l :: lines => match exec r l w with
                  | Some (r', d) => let '(r'', w'', cs, out) := run_commands r' lines (d_world d) in (r'', w'', d_calls d ++ cs, d_output d ++ out)
                  | None => run_commands r lines w
                  end
  end.
End Console.
Arguments shown : clear implicits. Arguments done_ : clear implicits.
