(** What the lines of the console mean. *)
From Coq Require Import NArith String.
From stdpp Require Import base list gmap.
From Verif Require Import KeySer Types CompPath RelAnnisConfigSpec Frequency Console.

(** The line is a command, and after a space its argument; without an argument, the space can be left out *)
Definition typed (cmd : string) (args line : bytes) : Prop := line = str cmd ++ 32%N :: args ∨ (line = str cmd ∧ args = []).
(** The lines which end the console *)
Definition ends (line : bytes) : Prop := ∃ args, typed "quit" args line ∨ typed "exit" args line.
(** The argument is a decimal number, with white space around it *)
Definition sets_number (cmd : string) (line : bytes) (n : N) : Prop := ∃ args t, typed cmd args line ∧ args ≠ [] ∧ trim_of args t ∧ is_number t n.
(** The argument is one of the words, with white space around it *)
Definition sets_switch (cmd : string) (line : bytes) (v : bool) : Prop :=
  ∃ args t, typed cmd args line ∧ trim_of args t ∧ if v then same_letters t (str "on") ∨ same_letters t (str "true") else same_letters t (str "off") ∨ same_letters t (str "false").
(** The lines which change settings *)
Definition offset_line (line : bytes) (n : N) : Prop := (typed "set-offset" [] line ∧ n = 0%N) ∨ sets_number "set-offset" line n.
Definition limit_line (line : bytes) (v : option N) : Prop := (typed "set-limit" [] line ∧ v = None) ∨ ∃ n, v = Some n ∧ sets_number "set-limit" line n.
Definition timeout_line (line : bytes) (v : option N) : Prop := (typed "set-timeout" [] line ∧ v = None) ∨ ∃ n, v = Some n ∧ sets_number "set-timeout" line n.
Definition order_name (o : result_order) : bytes :=
  match o with Normal => str "normal" | Inverted => str "inverted" | Randomized => str "random" | NotSorted => str "unsorted" end.
Definition order_line (line : bytes) (o : result_order) : Prop :=
  (typed "set-order" [] line ∧ o = Normal) ∨ ∃ args, typed "set-order" args line ∧ same_letters args (order_name o).
Definition disk_line (line : bytes) (v : bool) : Prop := sets_switch "set-disk-based" line v.
Definition language_line (line : bytes) (l : language) : Prop := sets_switch "set-quirks-mode" line (match l with QuirksAql => true | PlainAql => false end).
(** The first part of the argument *)
Definition first_part (args path : bytes) : Prop := 32%N ∉ path ∧ (args = path ∨ ∃ rest, args = path ++ 32%N :: rest).
(** The calls which a line may lead to *)
Definition call_allowed (r : runner) (line : bytes) (c : call) : Prop :=
  match c with
  | CList => ∃ args, typed "list" args line ∨ typed "corpus" args line
  | CImportZip path disk _ | CImport path _ _ disk _ => ∃ args, typed "import" args line ∧ first_part args path ∧ disk = ru_disk r
  | CExport corpora path _ => corpora = ru_corpora r ∧ ∃ args, typed "export" args line ∧ first_part args path
  | CReoptimize name disk => name ∈ ru_corpora r ∧ disk = ru_disk r ∧ ∃ args, typed "re-optimize" args line
  | CDelete name => typed "delete" name line ∧ name ≠ []
  | CInfo name => name ∈ ru_corpora r ∧ ∃ args, typed "info" args line
  | CPreload name => name ∈ ru_corpora r ∧ ∃ args, typed "preload" args line
  | CPlan corpora text lang => corpora = ru_corpora r ∧ lang = ru_language r ∧ typed "plan" text line
  | CCount q => q = SearchQuery (ru_corpora r) (sq_text q) (ru_language r) (ru_timeout r) ∧ typed "count" (sq_text q) line
  | CFind q offset limit order =>
      q = SearchQuery (ru_corpora r) (sq_text q) (ru_language r) (ru_timeout r) ∧ offset = ru_offset r ∧ limit = ru_limit r ∧ order = ru_order r ∧ typed "find" (sq_text q) line
  | CFrequency q _ => q = SearchQuery (ru_corpora r) (sq_text q) (ru_language r) (ru_timeout r) ∧ ∃ defs, typed "frequency" (defs ++ 32%N :: sq_text q) line
  | COpen _ => ∃ args, typed "set-parallel-search" args line
  end.
(** Words with a space between them *)
Definition blank (b : N) : Prop := b ∈ [32; 9; 10; 12; 13]%N.
Definition word (w : bytes) : Prop := w ≠ [] ∧ Forall (λ b, ¬ blank b) w.
Fixpoint unwords (ws : list bytes) : bytes := match ws with [] => [] | [w] => w | w :: ws => w ++ 32%N :: unwords ws end.
(** One call was made; its answer or an error is shown *)
Definition answered {W Ans} (w' : W) (c : call) (x : option Ans) : done_ W Ans := Done_ w' [c] [match x with Some a => Answer a | None => Problem end] (match x with Some _ => true | None => false end).
