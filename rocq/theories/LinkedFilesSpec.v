(** What "linked files" means: places in the file system, names that only go down, and what a copy of the linked files is. *)
From Coq Require Import NArith String.
From stdpp Require Import base list gmap.
From Verif Require Import KeySer Types PercentProofs CompPath CorpusDir Service LinkedFiles.

(** The place a path leads to if all directories on it exist *)
Definition place (s : bytes) : path := (absolute s, reverse (fold_left (step (absolute s)) (parts s []) [])).
(** [dir] itself or anything below *)
Definition inside (dir p : path) : Prop := ∃ rel, p = (dir.1, dir.2 ++ rel).
(** None of the places a path goes through is inside [dir] *)
Definition never_enters (dir : path) (s : bytes) : Prop :=
  ∀ k, ¬ inside dir (absolute s, reverse (fold_left (step (absolute s)) (take k (parts s [])) [])).
(** A relative path that only goes down: no empty component, "." or "..", and not absolute *)
Definition plain_part (p : bytes) : Prop := p ≠ [] ∧ p ≠ str "." ∧ p ≠ str "..".
Definition plain (s : bytes) : Prop := Forall plain_part (parts s []).
(** The file with a plain name in a directory *)
Definition file_in (dir : path) (s : bytes) : path := (dir.1, dir.2 ++ parts s []).

(** A node that links to a file: its name and the link *)
Definition links (n : node_annos) (name v : bytes) : Prop :=
  n !! annis_key "node_type" = Some (str "file") ∧ n !! annis_key "node_name" = Some name ∧ n !! annis_key "file" = Some v.
(** The names of the nodes of the type file *)
Definition file_names (g : graph) : list bytes :=
  omap (λ n : node_annos, if decide (n !! annis_key "node_type" = Some (str "file")) then n !! annis_key "node_name" else None) g.
(** Names of files are plain and different *)
Definition named_well (g : graph) : Prop := Forall plain (file_names g) ∧ NoDup (file_names g).

(** The node [n] was imported as [n'], from the files [fs] with links relative to [old] to the directory [dir] in [fs']: a file that
    was there is now in the directory under the name of the node, and the node links to it; other nodes are unchanged *)
Definition imported (fs fs' : files) (old : bytes) (dir : path) (n n' : node_annos) : Prop :=
  (∀ name v t, links n name v → read_file fs (push old v) = Some t →
     n' = <[annis_key "file" := name]> n ∧ fs' !! file_in dir name = Some (File t)) ∧
  ((∀ name v t, links n name v → read_file fs (push old v) ≠ Some t) → n' = n).

(** The graph that is read from a path *)
Definition source_graph (dec : bytes → option graph) (rel : files → bytes → option (bytes * graph)) (fs : files) (path : bytes)
    (format : import_format) (g : graph) : Prop :=
  match format with
  | GraphML => read_file fs path ≫= dec = Some g
  | RelANNIS => ∃ orig, rel fs path = Some (orig, g)
  end.
(** The directory links are relative to *)
Definition base_of (path : bytes) : bytes := match parent path with [] => str "." | p => p end.
(** The data directory exists and is not reached through parent directories; a name of a corpus that is a file name *)
Definition storage_ok (db : bytes) (fs : files) : Prop := db ≠ [] ∧ str ".." ∉ parts db [] ∧ dir_exists fs db = true.
Definition name_ok (name : bytes) : Prop := Forall is_byte name ∧ name ≠ [] ∧ name ≠ str "." ∧ name ≠ str "..".
(** No name is a directory of another *)
Definition prefix_free (names : list bytes) : Prop := ∀ s s', s ∈ names → s' ∈ names → s ≠ s' → ¬ parts s [] `prefix_of` parts s' [].
(** The directory of a corpus, and the directory with its files *)
Definition corpus_place (db name : bytes) : path := place (corpus_path db name).
Definition files_place (db name : bytes) : path := place (corpus_files db name).
(** There is nothing at a place and below *)
Definition vacant (fs : files) (dir : path) : Prop := ∀ p, inside dir p → fs !! p = None.
(** An import may write the corpus: there is none and nothing in its place, or an existing one is replaced *)
Definition may_import (db : bytes) (st : storage) (c : bytes) (overwrite : bool) : Prop :=
  (overwrite = true ∧ dir_exists (st_files st) (corpus_path db c) = true) ∨
  ((overwrite = true ∨ st_corpora st !! c = None) ∧ vacant (st_files st) (corpus_place db c)).
(** Neither of two directories is inside the other *)
Definition unrelated (p q : path) : Prop := ¬ inside p q ∧ ¬ inside q p.
(** A corpus whose files can be exported: plain, different names, none a directory of another, also not the GraphML file *)
Definition portable (c : bytes) (g : graph) : Prop :=
  named_well g ∧ prefix_free (graphml_name c :: file_names g) ∧ graphml_name c ∉ file_names g.
(** The links are those an import sets: the name of the node is the path in the directory of files *)
Definition tidy (g : graph) : Prop := ∀ n name v, n ∈ g → links n name v → v = name.
(** A corpus name without slash *)
Definition simple_name (c : bytes) : Prop := name_ok c ∧ slash ∉ c.
(** What an export followed by an import has to preserve: the graph [g] of the corpus [c] in the storage [db] with the files [fs] is
    the one in the storage [db2] of [st2], and so are its files *)
Definition preserved (db : bytes) (fs : files) (c : bytes) (g : graph) (db2 : bytes) (st2 : storage) : Prop :=
  (∃ g2, st_corpora st2 !! c = Some g2 ∧ g2 ≡ₚ g) ∧
  ∀ n name v t, n ∈ g → links n name v → read_file fs (push (corpus_files db c) v) = Some t →
    st_files st2 !! file_in (files_place db2 c) name = Some (File t).
(** An entry of an archive that is not taken for a corpus *)
Definition ordinary (name : bytes) : Prop :=
  ∀ q, last (parts name []) = Some q → q ≠ str "corpus.annis" ∧ q ≠ str "corpus.tab" ∧ ∀ x e, q = x ++ str "." ++ e → lower <$> e ≠ str "graphml".
