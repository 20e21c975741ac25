(** Model of the linked files of corpora: import and export of the files named by nodes of the type "file"
    (/repo/graphannis/src/annis/db/corpusstorage.rs l.768-865 import_all_from_zip, l.928-1064 import_from_fs, l.1066-1117
    copy_linked_files_and_update_references, l.1119-1164 get_linked_files, l.1166-1188 copy_linked_files_to_disk, l.1190-1227
    export_corpus_graphml, l.1238-1300 export_to_zip, l.1308-1357 export_to_fs).
    Simplifications. The file system is that of a Unix system without symbolic links, access rights and full disks; paths are byte
    strings. A graph is the list of its nodes, each with its annotations, in the order in which the node annotation storage finds
    them; edges and the configuration have no part in this. Saved corpora are kept in a map from names to graphs (their files are the
    subject of Persist.v and CorpusDir.v), the files of a corpus directory outside "files" are not modelled. The formats (GraphML,
    relANNIS) are functions. The cache is not modelled, a corpus exists if it is in the map or its directory is there. The kinds of
    errors are not distinguished. *)
From Coq Require Import NArith String.
From stdpp Require Import base list gmap.
From Verif Require Import KeySer Types CompPath CorpusDir Service.

(** * The file system *)
Notation files := (gmap path fnode).
Definition absolute (s : bytes) : bool := match s with b :: _ => bool_decide (b = slash) | [] => false end.
(** One component of a path: the parent of the root is the root *)
Definition step (a : bool) (acc : list bytes) (p : bytes) : list bytes :=
  if decide (a = true ∧ acc = [] ∧ p = str "..") then [] else walk_part acc p.
(** The root and the working directory always exist *)
Definition is_dir (fs : files) (p : path) : bool := bool_decide (p.2 = [] ∨ fs !! p = Some Dir).
(** path_resolution(7): each component is looked up in a directory *)
Fixpoint walk (fs : files) (a : bool) (acc : list bytes) (ps : list bytes) : option (list bytes) :=
  match ps with
  | [] => Some acc
  | p :: ps => if is_dir fs (a, reverse acc) then walk fs a (step a acc p) ps else None
  end.
Definition locate (fs : files) (s : bytes) : option path :=
  acc ← walk fs (absolute s) [] (parts s []); Some (absolute s, reverse acc).
(** File::open, Path::is_file *)
Definition read_file (fs : files) (s : bytes) : option bytes :=
  match locate fs s with
  | Some p => match fs !! p with Some (File t) => Some t | _ => None end
  | None => None
  end.
(** Path::is_dir, Path::canonicalize: the canonical path leads to the same place *)
Definition dir_exists (fs : files) (s : bytes) : bool := match locate fs s with Some p => is_dir fs p | None => false end.
Definition exists_path (fs : files) (s : bytes) : bool :=
  match locate fs s with Some p => is_dir fs p || bool_decide (is_Some (fs !! p)) | None => false end.
(** File::create and writing the content *)
Definition write_file (fs : files) (s t : bytes) : option files :=
  match locate fs s with
  | Some p => if is_dir fs p then None else Some (<[p := File t]> fs)
  | None => None
  end.
(** std::fs::copy: a file copied to itself is truncated before it is read *)
Definition copy_file (fs : files) (src dst : bytes) : option files :=
  match read_file fs src with
  | Some t => write_file fs dst (if decide (locate fs src = locate fs dst) then [] else t)
  | None => None
  end.
Definition real (p : bytes) : Prop := p ≠ [] ∧ p ≠ str ".".
Global Instance real_dec p : Decision (real p).
Proof. unfold real. apply _. Defined.
(** Path::components without the root *)
Definition components_of (s : bytes) : list bytes := filter real (parts s []).
(** std::fs::create_dir_all: the missing directories are created from the top *)
Fixpoint mkdirs (fs : files) (a : bool) (acc : list bytes) (ps : list bytes) : files * bool :=
  match ps with
  | [] => (fs, true)
  | p :: ps =>
      let acc := step a acc p in
      if is_dir fs (a, reverse acc) then mkdirs fs a acc ps
      else match fs !! (a, reverse acc) with
           | Some _ => (fs, false)
           | None => mkdirs (<[(a, reverse acc) := Dir]> fs) a acc ps
           end
  end.
Definition create_dir_all (fs : files) (s : bytes) : files * bool := mkdirs fs (absolute s) [] (components_of s).
(** std::fs::create_dir_all(path.parent()) *)
Definition create_parent (fs : files) (s : bytes) : files * bool :=
  mkdirs fs (absolute s) [] (removelast (components_of s)).
(** std::fs::remove_dir_all *)
Definition remove_dir_all (fs : files) (s : bytes) : files :=
  match locate fs s with Some p => filter (λ e : path * fnode, below p e.1 = false) fs | None => fs end.

Fixpoint join_parts (ps : list bytes) : bytes :=
  match ps with [] => [] | [p] => p | p :: ps => p ++ slash :: join_parts ps end.
(** Path::strip_prefix as string: the components of the prefix are dropped, and "." at the start of the rest *)
Fixpoint strip_parts (base ps : list bytes) : option (list bytes) :=
  match ps with
  | [] => match base with [] => Some [] | _ => None end
  | p :: r => if decide (real p) then match base with
                                      | [] => Some ps
                                      | b :: base => if decide (p = b) then strip_parts base r else None
                                      end
              else strip_parts base r
  end.
Definition strip_path (base s : bytes) : option bytes :=
  if decide (absolute base = absolute s) then join_parts <$> strip_parts (components_of base) (parts s []) else None.
(** Path::parent of a path that ends with a file name *)
Definition parent (s : bytes) : bytes :=
  match removelast (parts s []) with [[]] => [slash] | ps => join_parts ps end.
(** Path::file_name: also of paths with a slash at the end *)
Definition file_name_of (s : bytes) : option bytes :=
  match last (components_of s) with Some p => if decide (p = str "..") then None else Some p | None => None end.
(** The last dot that is not the first character splits a file name *)
Fixpoint split_dot (s : bytes) : option (bytes * bytes) :=
  match s with
  | [] => None
  | b :: r => match split_dot r with
              | Some (x, y) => Some (b :: x, y)
              | None => if decide (b = 46%N) then Some ([], r) else None
              end
  end.
Definition file_stem (s : bytes) : option bytes :=
  f ← file_name_of s; Some (match split_dot f with Some ((_ :: _) as x, _) => x | _ => f end).
Definition extension (s : bytes) : option bytes :=
  f ← file_name_of s; match split_dot f with Some (_ :: _, y) => Some y | _ => None end.
Definition lower (b : N) : N := if decide (65 ≤ b ∧ b ≤ 90)%N then (b + 32)%N else b.

(** * Graphs *)
Notation node_annos := (gmap anno_key bytes).
Notation graph := (list node_annos).
Definition annis_key (n : string) : anno_key := AnnoKey (str n) (str "annis").
(** l.1078 and l.1135: exact_anno_search(annis, node_type, "file") *)
Definition is_file_node (n : node_annos) : bool := bool_decide (n !! annis_key "node_type" = Some (str "file")).

(** l.1084-1114: the body of the loop; the files are changed also if there is an error *)
Definition copy_link (fs : files) (old new : bytes) (n : node_annos) : files * option node_annos :=
  if is_file_node n then
    match n !! annis_key "file" with
    | Some v =>
        match read_file fs (push old v), n !! annis_key "node_name" with
        | Some _, Some name =>
            let new_path := push new name in
            let '(fs, ok) := create_parent fs new_path in
            if ok then
              match copy_file fs (push old v) new_path with
              | Some fs => match strip_path new new_path with
                           | Some rel => (fs, Some (<[annis_key "file" := rel]> n))
                           | None => (fs, None)
                           end
              | None => (fs, None)
              end
            else (fs, None)
        | _, _ => (fs, Some n)
        end
    | None => (fs, Some n)
    end
  else (fs, Some n).
Fixpoint copy_links (fs : files) (old new : bytes) (g : graph) : files * option graph :=
  match g with
  | [] => (fs, Some [])
  | n :: g => let '(fs, r) := copy_link fs old new n in
              match r with
              | Some n => let '(fs, r) := copy_links fs old new g in (fs, (n ::.) <$> r)
              | None => (fs, None)
              end
  end.
(** l.1066-1117 *)
Definition copy_linked_files_and_update_references (fs : files) (old new : bytes) (g : graph) : files * option graph :=
  if exists_path fs old then copy_links fs old new g else (fs, None).

(** l.1119-1164: the names of the nodes and the paths of the files *)
Definition linked_file (base : bytes) (n : node_annos) : option (bytes * bytes) :=
  if is_file_node n then
    name ← n !! annis_key "node_name"; v ← n !! annis_key "file"; Some (name, push base v)
  else None.
Definition get_linked_files (fs : files) (base : bytes) (g : graph) : option (list (bytes * bytes)) :=
  if dir_exists fs base then Some (omap (linked_file base) g) else None.
(** l.1166-1188 *)
Fixpoint copy_out (fs : files) (new : bytes) (l : list (bytes * bytes)) : files * bool :=
  match l with
  | [] => (fs, true)
  | (name, src) :: l =>
      match read_file fs src with
      | Some _ =>
          let '(fs, ok) := create_parent fs (push new name) in
          if ok then match copy_file fs src (push new name) with
                     | Some fs => copy_out fs new l
                     | None => (fs, false)
                     end
          else (fs, false)
      | None => copy_out fs new l
      end
  end.
Definition copy_linked_files_to_disk (fs : files) (base new : bytes) (g : graph) : files * bool :=
  match get_linked_files fs base g with Some l => copy_out fs new l | None => (fs, true) end.

(** * The corpus storage: its directory, the formats, the files and the saved corpora *)
Record storage := Storage { st_files : files; st_corpora : gmap bytes graph }.
Section Storage.
Context (db : bytes) (enc : graph → bytes) (dec : bytes → option graph) (rel : files → bytes → option (bytes * graph)).

Definition corpus_path (name : bytes) : bytes := corpus_directory_on_disk db name.
Definition corpus_files (name : bytes) : bytes := push (corpus_path name) (str "files").

(** l.988-1064: after the format has been read *)
Definition import_graph (st : storage) (path : bytes) (name : bytes) (overwrite : bool) (g : graph) : storage * option bytes :=
  let exists_already := bool_decide (is_Some (st_corpora st !! name)) || dir_exists (st_files st) (corpus_path name) in
  if negb overwrite && exists_already then (st, None)
  else
    let fs := if overwrite && dir_exists (st_files st) (corpus_path name) then remove_dir_all (st_files st) (corpus_path name)
              else st_files st in
    let corpora := if overwrite then delete name (st_corpora st) else st_corpora st in
    let fs := (create_dir_all fs (corpus_path name)).1 in
    let '(fs, ok) := create_dir_all fs (corpus_files name) in
    if ok then
      let old := match parent path with [] => str "." | p => p end in
      let '(fs, r) := copy_linked_files_and_update_references fs old (corpus_files name) g in
      match r with
      | Some g => (Storage fs (<[name := g]> corpora), Some name)
      | None => (Storage fs corpora, None)
      end
    else (Storage fs corpora, None).
(** l.928-986 *)
Inductive import_format := RelANNIS | GraphML.
Definition import_from_fs (st : storage) (path : bytes) (format : import_format) (name : option bytes) (overwrite : bool) :
    storage * option bytes :=
  match format with
  | RelANNIS => match rel (st_files st) path with
                | Some (orig, g) => import_graph st path (default orig name) overwrite g
                | None => (st, None)
                end
  | GraphML => match read_file (st_files st) path ≫= dec with
               | Some g => import_graph st path (default (default (str "UnknownCorpus") (file_stem path)) name) overwrite g
               | None => (st, None)
               end
  end.

(** l.1190-1227: the graph of a corpus that does not exist is an error after the file has been created *)
Definition export_corpus_graphml (st : storage) (name path : bytes) : storage * bool :=
  match write_file (st_files st) path [] with
  | None => (st, false)
  | Some fs =>
      match st_corpora st !! name with
      | None => (Storage fs (st_corpora st), false)
      | Some g =>
          match write_file fs path (enc g) with
          | None => (Storage fs (st_corpora st), false)
          | Some fs => let '(fs, ok) := copy_linked_files_to_disk fs (corpus_files name) (parent path) g in
                       (Storage fs (st_corpora st), ok)
          end
      end
  end.

(** A ZIP file: the names and contents of its entries; start_file refuses a name that is already there *)
Notation archive := (list (bytes * bytes)).
Definition zip_add (z : archive) (name t : bytes) : option archive :=
  if decide (name ∈ z.*1) then None else Some (z ++ [(name, t)]).
(** l.1238-1300 *)
Fixpoint zip_files (fs : files) (base : bytes) (z : archive) (l : list (bytes * bytes)) : option archive :=
  match l with
  | [] => Some z
  | (name, src) :: l => t ← read_file fs src; z ← zip_add z (push base name) t; zip_files fs base z l
  end.
Definition graphml_name (name : bytes) : bytes := name ++ str ".graphml".
Definition export_to_zip (st : storage) (name : bytes) (subdir : bool) (z : archive) : option archive :=
  let base := if subdir then push [] name else [] in
  g ← st_corpora st !! name;
  z ← zip_add z (push base (graphml_name name)) (enc g);
  match get_linked_files (st_files st) (corpus_files name) g with
  | Some l => zip_files (st_files st) base z l
  | None => Some z
  end.

(** l.1308-1357 *)
Fixpoint export_directories (st : storage) (subdir : bool) (path : bytes) (names : list bytes) : storage * bool :=
  match names with
  | [] => (st, true)
  | name :: names =>
      let dir := if subdir then push path name else path in
      let '(fs, ok) := create_dir_all (st_files st) dir in
      if ok then
        let '(st, ok) := export_corpus_graphml (Storage fs (st_corpora st)) name (push dir (graphml_name name)) in
        if ok then export_directories st subdir path names else (st, false)
      else (Storage fs (st_corpora st), false)
  end.
Definition export_directory (st : storage) (names : list bytes) (path : bytes) : storage * bool :=
  export_directories st (bool_decide (1 < length names)) path names.
Fixpoint export_zips (st : storage) (subdir : bool) (z : archive) (names : list bytes) : option archive :=
  match names with
  | [] => Some z
  | name :: names => z ← export_to_zip st name subdir z; export_zips st subdir z names
  end.
Definition export_zip (st : storage) (names : list bytes) : option archive :=
  export_zips st (bool_decide (1 < length names)) [] names.

(** zip::read::ZipFile::enclosed_name: no NUL, not absolute, never above the start *)
Fixpoint depth_ok (depth : nat) (ps : list bytes) : bool :=
  match ps with
  | [] => true
  | p :: ps => if decide (p = str "..") then match depth with 0 => false | S d => depth_ok d ps end else depth_ok (S depth) ps
  end.
Definition enclosed_name (s : bytes) : option bytes :=
  if decide (0%N ∈ s) then None else if absolute s then None else if depth_ok 0 (components_of s) then Some s else None.
(** l.794-829: the entries are unpacked below the temporary directory [tmp]; the directories of relANNIS corpora and the GraphML
    files found *)
Fixpoint unpack (fs : files) (tmp : bytes) (z : archive) (rels graphs : list bytes) : files * option (list bytes * list bytes) :=
  match z with
  | [] => (fs, Some (rels, graphs))
  | (name, t) :: z =>
      match enclosed_name name with
      | None => unpack fs tmp z rels graphs
      | Some name =>
          let out := push tmp name in
          let '(rels, graphs) :=
            match file_name_of out with
            | Some f => if decide (f = str "corpus.annis" ∨ f = str "corpus.tab") then (rels ++ [parent out], graphs)
                        else match extension out with
                             | Some e => if decide (lower <$> e = str "graphml") then (rels, graphs ++ [out]) else (rels, graphs)
                             | None => (rels, graphs)
                             end
            | None => (rels, graphs)
            end in
          if decide (last name = Some slash) then
            let '(fs, ok) := create_dir_all fs out in
            if ok then unpack fs tmp z rels graphs else (fs, None)
          else
            let '(fs, ok) := create_parent fs out in
            if ok then match write_file fs out t with
                       | Some fs => unpack fs tmp z rels graphs
                       | None => (fs, None)
                       end
            else (fs, None)
      end
  end.
(** l.833-857 *)
Fixpoint import_each (st : storage) (l : list (bytes * import_format)) (overwrite : bool) (acc : list bytes) :
    storage * option (list bytes) :=
  match l with
  | [] => (st, Some acc)
  | (p, f) :: l => let '(st, r) := import_from_fs st p f None overwrite in
                   match r with Some n => import_each st l overwrite (acc ++ [n]) | None => (st, None) end
  end.
(** l.778-865: the temporary directory is removed in any case *)
Definition import_all_from_zip (st : storage) (tmp : bytes) (z : archive) (overwrite : bool) : storage * option (list bytes) :=
  let '(fs, ok) := create_dir_all (st_files st) tmp in
  if ok then
    let '(fs, r) := unpack fs tmp z [] [] in
    match r with
    | Some (rels, graphs) =>
        let '(st, r) := import_each (Storage fs (st_corpora st)) (((., RelANNIS) <$> rels) ++ ((., GraphML) <$> graphs)) overwrite [] in
        (Storage (remove_dir_all (st_files st) tmp) (st_corpora st), r)
    | None => (Storage (remove_dir_all fs tmp) (st_corpora st), None)
    end
  else (Storage fs (st_corpora st), None).
End Storage.
