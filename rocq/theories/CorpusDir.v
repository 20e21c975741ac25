(** Model of the directories of corpora (/repo/graphannis/src/annis/db/corpusstorage.rs l.298-320, 358, 483-515, 2543-2551).
    Simplifications: paths of a Unix system without symbolic links (see CompPath.v); names and paths are UTF-8 strings, given
    by their bytes, so that the lossy conversions are the identity. *)
From Coq Require Import NArith String.
From stdpp Require Import base list.
From Verif Require Import KeySer Percent CompPath.

(** l.302-319 *)
Definition path_encode_set (b : N) : bool :=
  is_control b || bool_decide (b ∈ str " ""#<>`?{}%/:|*\").
(** l.2543-2551 *)
Definition escaped_corpus_name (name : bytes) : bytes := pct_encode path_encode_set name.
Definition corpus_directory_on_disk (db_dir name : bytes) : bytes := push (push [] db_dir) (escaped_corpus_name name).
(** l.483-515: [dirs] are the names of the directories in the data directory *)
Definition list_from_disk (dirs : list bytes) : list bytes := pct_decode <$> dirs.
(** l.358 *)
Definition db_lock_file_name : bytes := str "db.lock".
