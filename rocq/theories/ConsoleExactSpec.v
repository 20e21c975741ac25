(** What each command of the console asks for. *)
From Coq Require Import NArith String.
From stdpp Require Import base list gmap.
From Verif Require Import KeySer Types CompPath RelAnnisConfigSpec LinkedFiles Frequency Console ConsoleSpec.

(** The calls are made one after the other, and all are answered *)
Inductive asked {W Ans} (api : call → W → W * option Ans) : W → list call → W → list Ans → Prop :=
| asked_nil w : asked api w [] w []
| asked_cons w c w1 a cs w' answers : api c w = (w1, Some a) → asked api w1 cs w' answers → asked api w (c :: cs) w' (a :: answers).
(** One call was made; nothing or an error is shown *)
Definition performed {W Ans} (w' : W) (c : call) (x : option Ans) : done_ W Ans := Done_ w' [c] (match x with Some _ => [] | None => [Problem] end) (match x with Some _ => true | None => false end).
(** Kinds of files, by the extension of the path *)
Definition zip_path (path : bytes) : Prop := ∃ e, extension path = Some e ∧ same_letters e (str "zip").
Definition graphml_path (path : bytes) : Prop := ∃ e, extension path = Some e ∧ (same_letters e (str "graphml") ∨ same_letters e (str "xml")).
(** The path, and a name for the corpus *)
Definition import_args (args path : bytes) (name : option bytes) : Prop :=
  32%N ∉ path ∧ ((args = path ∧ name = None) ∨ ∃ n, name = Some n ∧ 32%N ∉ n ∧ (args = path ++ 32%N :: n ∨ ∃ rest, args = path ++ 32%N :: n ++ 32%N :: rest)).
Definition import_call (path : bytes) (name : option bytes) (disk : bool) (c : call) : Prop :=
  (zip_path path ∧ c = CImportZip path disk true) ∨
  (¬ zip_path path ∧ graphml_path path ∧ c = CImport path FromGraphML name disk true) ∨
  (¬ zip_path path ∧ ¬ graphml_path path ∧ c = CImport path FromRelAnnis name disk true).
Definition export_kind (path : bytes) (f : export_format) : Prop :=
  match f with ToZip => zip_path path | ToDirectory => extension path = None | ToGraphML => ¬ zip_path path ∧ extension path ≠ None end.
(** The words of the commands *)
Definition command_names : list string :=
  ["import"; "export"; "list"; "delete"; "corpus"; "set-offset"; "set-limit"; "set-order"; "set-timeout"; "preload"; "plan"; "re-optimize"; "count"; "find"; "frequency";
   "set-parallel-search"; "set-disk-based"; "set-quirks-mode"; "info"; "quit"; "exit"]%string.
