(** Property C68 (linked files): importing a corpus brings its linked files into the directory of the corpus and nowhere else, and
    exporting and importing again preserves them. *)
From Coq Require Import NArith String.
From stdpp Require Import base list gmap.
From Verif Require Import KeySer Types PercentProofs CompPath CompPathSpec CorpusDir Service LinkedFiles LinkedFilesSpec LinkedFilesImport LinkedFilesRoundTrip LinkedFilesFinal LinkedFilesCheck.

(** A successful import: each file that was there is now in the directory of the corpus, under the name of its node, which links to
    it; other nodes and all other annotations are unchanged. Not for names with "..", absolute names and equal names. *)
Theorem C68_import_copies_partial db dec rel st path fmt c ow g st' r : storage_ok db (st_files st) → name_ok c →
  source_graph dec rel (st_files st) path fmt g → named_well g →
  (∀ n name v, n ∈ g → links n name v → never_enters (corpus_place db c) (push (base_of path) v)) →
  import_from_fs db dec rel st path fmt (Some c) ow = (st', Some r) →
  r = c ∧ ∃ g', st_corpora st' !! c = Some g' ∧
    Forall2 (imported (st_files st) (st_files st') (base_of path) (files_place db c)) g g'.
Proof. exact (import_copies db dec rel st path fmt c ow g st' r). Qed.

(** An import, successful or not, changes nothing outside of the directory of the corpus. *)
Theorem C68_import_contained_partial db dec rel st path fmt c ow st' r : storage_ok db (st_files st) → name_ok c →
  (∀ g, source_graph dec rel (st_files st) path fmt g → Forall plain (file_names g)) →
  import_from_fs db dec rel st path fmt (Some c) ow = (st', r) →
  (∀ p, ¬ inside (corpus_place db c) p → st_files st' !! p = st_files st !! p) ∧ ∀ m, m ≠ c → st_corpora st' !! m = st_corpora st !! m.
Proof. exact (import_contained db dec rel st path fmt c ow st' r). Qed.

(** An import succeeds if the corpus can be read, may be written, and no file name is a directory of another. *)
Theorem C68_import_succeeds_partial db dec rel st path fmt c ow g : storage_ok db (st_files st) → name_ok c →
  source_graph dec rel (st_files st) path fmt g → named_well g → prefix_free (file_names g) →
  (∀ n name v, n ∈ g → links n name v → never_enters (corpus_place db c) (push (base_of path) v)) →
  never_enters (corpus_place db c) (base_of path) → dir_exists (st_files st) (base_of path) = true → may_import db st c ow →
  ∃ st', import_from_fs db dec rel st path fmt (Some c) ow = (st', Some c).
Proof. exact (import_succeeds db dec rel st path fmt c ow g). Qed.

(** A failed import that must not replace a corpus changes no corpus. *)
Theorem C68_failed_import_partial db dec rel st path fmt name st' :
  import_from_fs db dec rel st path fmt name false = (st', None) → st_corpora st' = st_corpora st.
Proof. exact (failed_import db dec rel st path fmt name st'). Qed.

(** An export to a file changes nothing outside of the directory of this file. *)
Theorem C68_export_contained_partial db enc st c dir f st' ok : dir ≠ [] → f ≠ [] → file_name f → dir_exists (st_files st) dir = true →
  (∀ g, st_corpora st !! c = Some g → Forall plain (file_names g)) →
  export_corpus_graphml db enc st c (push dir f) = (st', ok) →
  st_corpora st' = st_corpora st ∧ ∀ p, ¬ inside (place dir) p → st_files st' !! p = st_files st !! p.
Proof. exact (export_contained db enc st c dir f st' ok). Qed.

(** Exporting to a new directory and importing to a corpus storage, this one or another, succeeds and preserves the corpus and its
    files, if the format preserves the graph and the links are as an import sets them. *)
Theorem C68_directory_round_trip_partial enc dec rel db c g st dir db2 corpora2 ow g' :
  storage_ok db (st_files st) → simple_name c → st_corpora st !! c = Some g → portable c g → tidy g →
  dec (enc g) = Some g' → g' ≡ₚ g →
  dir ≠ [] → str ".." ∉ parts dir [] → vacant (st_files st) (place dir) → (create_dir_all (st_files st) dir).2 = true →
  unrelated (place dir) (corpus_place db c) → unrelated (place dir) (corpus_place db2 c) →
  storage_ok db2 (st_files st) → may_import db2 (Storage (st_files st) corpora2) c ow →
  ∃ st1 st2, export_directory db enc st [c] dir = (st1, true) ∧
    import_from_fs db2 dec rel (Storage (st_files st1) corpora2) (push dir (graphml_name c)) GraphML None ow = (st2, Some c) ∧
    preserved db (st_files st) c g db2 st2.
Proof. exact (directory_round_trip enc dec rel db c g st dir db2 corpora2 ow g'). Qed.

(** The same with a ZIP file, which can be imported on another system: exactly this corpus is imported, other corpora are unchanged
    and the temporary directory is removed. *)
Theorem C68_zip_round_trip_partial enc dec rel db c g st tmp db2 st0 ow g' :
  storage_ok db (st_files st) → simple_name c → st_corpora st !! c = Some g → portable c g → tidy g →
  Forall (λ s, 0%N ∉ s ∧ ordinary s) (file_names g) → 0%N ∉ c →
  (∀ n name v, n ∈ g → links n name v → is_Some (read_file (st_files st) (push (corpus_files db c) v))) →
  dec (enc g) = Some g' → g' ≡ₚ g →
  tmp ≠ [] → str ".." ∉ parts tmp [] → vacant (st_files st0) (place tmp) → (create_dir_all (st_files st0) tmp).2 = true →
  unrelated (place tmp) (corpus_place db2 c) →
  storage_ok db2 (st_files st0) → may_import db2 st0 c ow →
  ∃ z st2, export_zip db enc st [c] = Some z ∧
    import_all_from_zip db2 dec rel st0 tmp z ow = (st2, Some [c]) ∧
    preserved db (st_files st) c g db2 st2 ∧ vacant (st_files st2) (place tmp) ∧
    (∀ m, m ≠ c → st_corpora st2 !! m = st_corpora st0 !! m).
Proof. exact (zip_round_trip enc dec rel db c g st tmp db2 st0 ow g'). Qed.

(** * Examples and counterexamples *)
Definition ex_node (name file : string) : node_annos :=
  list_to_map [(annis_key "node_type", str "file"); (annis_key "node_name", str name); (annis_key "file", str file)].
Definition ex_corpus : node_annos := list_to_map [(annis_key "node_type", str "corpus"); (annis_key "node_name", str "c")].
Definition ex_file (s t : string) : path * fnode := (place (str s), File (str t)).
Definition ex_dir (s : string) : path * fnode := (place (str s), Dir).
Definition ex_db : bytes := str "/data".
Definition ex_rel (fs : files) (p : bytes) : option (bytes * graph) := None.
(** The format: every graph is written as "graph" and read as [g] *)
Definition ex_enc (g : graph) : bytes := str "graph".
Definition ex_dec (g : graph) (t : bytes) : option graph := if decide (t = str "graph") then Some g else None.
Definition ex_c : bytes := str "c".

(** A corpus to import: the link of the first node is found, that of the second is not *)
Definition ex_source : graph := [ex_corpus; ex_node "c/d/a.wav" "media/a.wav"; ex_node "c/d/b.wav" "media/b.wav"].
Definition ex_fs : files :=
  list_to_map [ex_dir "/data"; ex_dir "/in"; ex_dir "/in/media"; ex_file "/in/c.graphml" "graph"; ex_file "/in/media/a.wav" "sound";
               ex_dir "/etc"; ex_file "/etc/secret" "password"].
Definition ex_st : storage := Storage ex_fs ∅.
Definition ex_imported : storage := (import_from_fs ex_db (ex_dec ex_source) ex_rel ex_st (str "/in/c.graphml") GraphML (Some ex_c) false).1.
Ltac by_computation := apply (bool_decide_unpack _); vm_compute; exact I.
Lemma pair_snd {A B} (x : A * B) b : x.2 = b → x = (x.1, b).
Proof. intros <-. apply surjective_pairing. Qed.
Notation import_ex g st path ow := (import_from_fs ex_db (ex_dec g) ex_rel st path GraphML (Some ex_c) ow).
Example import_case : storage_ok ex_db (st_files ex_st) ∧ name_ok ex_c ∧
  source_graph (ex_dec ex_source) ex_rel (st_files ex_st) (str "/in/c.graphml") GraphML ex_source ∧
  named_well ex_source ∧ prefix_free (file_names ex_source) ∧
  (∀ n name v, n ∈ ex_source → links n name v → never_enters (corpus_place ex_db ex_c) (push (base_of (str "/in/c.graphml")) v)) ∧
  never_enters (corpus_place ex_db ex_c) (base_of (str "/in/c.graphml")) ∧ dir_exists ex_fs (base_of (str "/in/c.graphml")) = true ∧
  may_import ex_db ex_st ex_c false ∧
  import_ex ex_source ex_st (str "/in/c.graphml") false = (ex_imported, Some ex_c) ∧
  st_files ex_imported !! place (str "/data/c/files/c/d/a.wav") = Some (File (str "sound")) ∧
  st_corpora ex_imported !! ex_c = Some [ex_corpus; ex_node "c/d/a.wav" "c/d/a.wav"; ex_node "c/d/b.wav" "media/b.wav"].
Proof.
  split; [by_computation|]. split; [by_computation|]. split; [unfold source_graph; by_computation|]. split; [by_computation|].
  split; [by_computation|]. split; [apply (all_links_spec (λ name v, never_enters _ (push _ v))); by_computation|].
  split; [by_computation|]. split; [by_computation|]. split; [by_computation|].
  split; [apply pair_snd; by_computation|]. split; by_computation.
Qed.

(** A failed import that must not replace a corpus: it is already there *)
Example failed_case : (import_ex ex_source ex_imported (str "/in/c.graphml") false).2 = None ∧ is_Some (st_corpora ex_imported !! ex_c).
Proof. split; by_computation. Qed.

(** Not contained: a file node with parent directories in its name overwrites a file of the system. *)
Definition ex_up : graph := [ex_corpus; ex_node "../../../etc/secret" "media/a.wav"].
Theorem C68_import_contained_refuted : ∃ db dec rel st path c st' p, storage_ok db (st_files st) ∧ name_ok c ∧
  import_from_fs db dec rel st path GraphML (Some c) false = (st', Some c) ∧
  ¬ inside (corpus_place db c) p ∧ st_files st !! p = Some (File (str "password")) ∧ st_files st' !! p = Some (File (str "sound")).
Proof.
  exists ex_db, (ex_dec ex_up), ex_rel, ex_st, (str "/in/c.graphml"), ex_c, (import_ex ex_up ex_st (str "/in/c.graphml") false).1, (place (str "/etc/secret")).
  split; [by_computation|]. split; [by_computation|]. split; [apply pair_snd; by_computation|].
  split; [by_computation|]. split; by_computation.
Qed.
(** Also if the import fails: the name is an absolute path. *)
Definition ex_root : graph := [ex_corpus; ex_node "/etc/secret" "media/a.wav"].
Theorem C68_failed_import_contained_refuted : ∃ db dec rel st path c st' p, storage_ok db (st_files st) ∧ name_ok c ∧
  import_from_fs db dec rel st path GraphML (Some c) false = (st', None) ∧
  ¬ inside (corpus_place db c) p ∧ st_files st !! p = Some (File (str "password")) ∧ st_files st' !! p = Some (File (str "sound")).
Proof.
  exists ex_db, (ex_dec ex_root), ex_rel, ex_st, (str "/in/c.graphml"), ex_c, (import_ex ex_root ex_st (str "/in/c.graphml") false).1, (place (str "/etc/secret")).
  split; [by_computation|]. split; [by_computation|]. split; [apply pair_snd; by_computation|].
  split; [by_computation|]. split; by_computation.
Qed.
(** Not only the files delivered with a corpus: a link to a file elsewhere on the system puts its content into the corpus. *)
Definition ex_leak : graph := [ex_corpus; ex_node "c/a.txt" "../etc/secret"].
Theorem C68_source_refuted : ∃ db dec rel st path c st' p name t, storage_ok db (st_files st) ∧ name_ok c ∧
  import_from_fs db dec rel st path GraphML (Some c) false = (st', Some c) ∧
  ¬ inside (place (base_of path)) p ∧ st_files st !! p = Some (File t) ∧ st_files st' !! file_in (files_place db c) name = Some (File t) ∧
  ∀ q u, inside (place (base_of path)) q → st_files st !! q = Some (File u) → u ≠ t.
Proof.
  exists ex_db, (ex_dec ex_leak), ex_rel, ex_st, (str "/in/c.graphml"), ex_c, (import_ex ex_leak ex_st (str "/in/c.graphml") false).1,
    (place (str "/etc/secret")), (str "c/a.txt"), (str "password").
  split; [by_computation|]. split; [by_computation|]. split; [apply pair_snd; by_computation|].
  split; [by_computation|]. split; [by_computation|]. split; [by_computation|].
  intros q u Hq Hu. assert (H : map_Forall (λ q x, inside (place (base_of (str "/in/c.graphml"))) q → x ≠ File (str "password")) ex_fs) by by_computation.
  intros ->. exact (H q _ Hu Hq eq_refl).
Qed.
(** Replacing a corpus by one that cannot be imported (here a file of it is in the place of a directory) loses the corpus. *)
Definition ex_clash : graph := [ex_corpus; ex_node "c/a" "media/a.wav"; ex_node "c/a/b" "media/a.wav"].
Theorem C68_failed_import_refuted : ∃ db dec rel st path c st' g, storage_ok db (st_files st) ∧ name_ok c ∧ st_corpora st !! c = Some g ∧
  import_from_fs db dec rel st path GraphML (Some c) true = (st', None) ∧ st_corpora st' !! c = None.
Proof.
  exists ex_db, (ex_dec ex_clash), ex_rel, ex_imported, (str "/in/c.graphml"), ex_c, (import_ex ex_clash ex_imported (str "/in/c.graphml") true).1,
    [ex_corpus; ex_node "c/d/a.wav" "c/d/a.wav"; ex_node "c/d/b.wav" "media/b.wav"].
  split; [by_computation|]. split; [by_computation|]. split; [by_computation|].
  split; [apply pair_snd; by_computation|]. by_computation.
Qed.
(** Two file nodes, one with the name of a directory of the other, cannot be imported, whatever their links. *)
Theorem C68_collision_refuted : ∃ db dec rel st path c st' g, storage_ok db (st_files st) ∧ name_ok c ∧
  source_graph dec rel (st_files st) path GraphML g ∧ named_well g ∧ may_import db st c false ∧
  import_from_fs db dec rel st path GraphML (Some c) false = (st', None).
Proof.
  exists ex_db, (ex_dec ex_clash), ex_rel, ex_st, (str "/in/c.graphml"), ex_c, (import_ex ex_clash ex_st (str "/in/c.graphml") false).1, ex_clash.
  split; [by_computation|]. split; [by_computation|]. split; [unfold source_graph; by_computation|]. split; [by_computation|].
  split; [by_computation|]. apply pair_snd; by_computation.
Qed.

(** Export: the corpus imported above without the node whose file is missing *)
Definition ex_g : graph := [ex_corpus; ex_node "c/d/a.wav" "c/d/a.wav"].
Definition ex_full : storage := Storage (st_files ex_imported) {[ex_c := ex_g]}.
Definition ex_other : bytes := str "/other".
Definition ex_fs2 : files := <[place ex_other := Dir]> (st_files ex_imported).
Definition ex_two : storage := Storage ex_fs2 {[ex_c := ex_g]}.
Example export_case : dir_exists (st_files ex_full) (str "/in") = true ∧ Forall plain (file_names ex_g) ∧
  let r := export_corpus_graphml ex_db ex_enc ex_full ex_c (str "/in/x.graphml") in
  r.2 = true ∧ st_files r.1 !! place (str "/in/x.graphml") = Some (File (str "graph")) ∧
  st_files r.1 !! place (str "/in/c/d/a.wav") = Some (File (str "sound")).
Proof. cbv zeta. split; [by_computation|]. split; [by_computation|]. split; [by_computation|]. split; by_computation. Qed.
Example directory_case : storage_ok ex_db ex_fs2 ∧ simple_name ex_c ∧ portable ex_c ex_g ∧ tidy ex_g ∧ ex_dec ex_g (ex_enc ex_g) = Some ex_g ∧
  vacant ex_fs2 (place (str "/out")) ∧ (create_dir_all ex_fs2 (str "/out")).2 = true ∧
  unrelated (place (str "/out")) (corpus_place ex_db ex_c) ∧ unrelated (place (str "/out")) (corpus_place ex_other ex_c) ∧
  storage_ok ex_other ex_fs2 ∧ may_import ex_other (Storage ex_fs2 ∅) ex_c false ∧
  let r := export_directory ex_db ex_enc ex_two [ex_c] (str "/out") in
  st_files r.1 !! place (str "/out/c/d/a.wav") = Some (File (str "sound")) ∧
  let r := import_from_fs ex_other (ex_dec ex_g) ex_rel (Storage (st_files r.1) ∅) (push (str "/out") (graphml_name ex_c)) GraphML None false in
  st_files r.1 !! place (str "/other/c/files/c/d/a.wav") = Some (File (str "sound")).
Proof.
  cbv zeta. split; [by_computation|]. split; [by_computation|]. split; [by_computation|].
  split; [unfold tidy; apply (all_links_spec (λ name v, v = name)); by_computation|]. split; [by_computation|]. split; [by_computation|].
  split; [by_computation|]. split; [by_computation|]. split; [by_computation|]. split; [by_computation|]. split; [by_computation|].
  split; by_computation.
Qed.
Definition ex_empty : storage := Storage {[place ex_other := Dir]} {[str "mine" := [ex_corpus]]}.
Example zip_case : Forall (λ s, 0%N ∉ s ∧ ordinary s) (file_names ex_g) ∧ 0%N ∉ ex_c ∧
  (∀ n name v, n ∈ ex_g → links n name v → is_Some (read_file ex_fs2 (push (corpus_files ex_db ex_c) v))) ∧
  vacant (st_files ex_empty) (place (str "/tmp/x")) ∧ (create_dir_all (st_files ex_empty) (str "/tmp/x")).2 = true ∧
  unrelated (place (str "/tmp/x")) (corpus_place ex_other ex_c) ∧ storage_ok ex_other (st_files ex_empty) ∧ may_import ex_other ex_empty ex_c false ∧
  export_zip ex_db ex_enc ex_two [ex_c] = Some [(str "c.graphml", str "graph"); (str "c/d/a.wav", str "sound")] ∧
  let r := import_all_from_zip ex_other (ex_dec ex_g) ex_rel ex_empty (str "/tmp/x") [(str "c.graphml", str "graph"); (str "c/d/a.wav", str "sound")] false in
  r.2 = Some [ex_c] ∧ st_files r.1 !! place (str "/other/c/files/c/d/a.wav") = Some (File (str "sound")).
Proof.
  cbv zeta. split.
  { apply Forall_forall. intros s Hs. assert (H : Forall (λ s, s = str "c/d/a.wav") (file_names ex_g)) by by_computation.
    rewrite Forall_forall in H. specialize (H s Hs). clear Hs. subst s. split; [by_computation|]. apply ordinary_check. vm_compute.
    split; [discriminate|]. split; [discriminate|]. repeat constructor; discriminate. }
  split; [by_computation|].
  split; [apply (all_links_spec (λ name v, is_Some (read_file ex_fs2 (push (corpus_files ex_db ex_c) v)))); by_computation|].
  split; [by_computation|]. split; [by_computation|]. split; [by_computation|]. split; [by_computation|]. split; [by_computation|].
  split; [by_computation|]. split; by_computation.
Qed.

(** A linked file that is missing: the corpus can be exported to a directory, but not to a ZIP file. *)
Theorem C68_zip_missing_refuted : ∃ db enc st c g dir, storage_ok db (st_files st) ∧ simple_name c ∧ st_corpora st !! c = Some g ∧ portable c g ∧
  (export_directory db enc st [c] dir).2 = true ∧ export_zip db enc st [c] = None.
Proof.
  exists ex_db, ex_enc, ex_imported, ex_c, [ex_corpus; ex_node "c/d/a.wav" "c/d/a.wav"; ex_node "c/d/b.wav" "media/b.wav"], (str "/out").
  split; [by_computation|]. split; [by_computation|]. split; [by_computation|]. split; [by_computation|]. split; by_computation.
Qed.
(** A linked file that is a GraphML document: the ZIP file of the corpus is imported as two corpora. *)
Definition ex_doc : graph := [ex_corpus; ex_node "c/doc.graphml" "c/doc.graphml"].
Definition ex_doc_st : storage :=
  Storage (list_to_map [ex_dir "/data"; ex_dir "/data/c"; ex_dir "/data/c/files"; ex_dir "/data/c/files/c"; ex_file "/data/c/files/c/doc.graphml" "graph"])
          {[ex_c := ex_doc]}.
Theorem C68_zip_corpus_file_refuted : ∃ db enc dec rel st c g z st0 db2 tmp, storage_ok db (st_files st) ∧ simple_name c ∧
  st_corpora st !! c = Some g ∧ portable c g ∧ tidy g ∧ dec (enc g) = Some g ∧ export_zip db enc st [c] = Some z ∧
  storage_ok db2 (st_files st0) ∧ (import_all_from_zip db2 dec rel st0 tmp z false).2 = Some [c; str "doc"].
Proof.
  exists ex_db, ex_enc, (ex_dec ex_doc), ex_rel, ex_doc_st, ex_c, ex_doc, [(str "c.graphml", str "graph"); (str "c/doc.graphml", str "graph")],
    ex_empty, ex_other, (str "/tmp/x").
  split; [by_computation|]. split; [by_computation|]. split; [by_computation|]. split; [by_computation|].
  split; [unfold tidy; apply (all_links_spec (λ name v, v = name)); by_computation|]. split; [by_computation|]. split; [by_computation|].
  split; by_computation.
Qed.
(** A file node with the name of the GraphML file: the exported file has the content of the linked file. *)
Definition ex_same : graph := [ex_corpus; ex_node "c.graphml" "c.graphml"].
Definition ex_same_st : storage :=
  Storage (list_to_map [ex_dir "/data"; ex_dir "/data/c"; ex_dir "/data/c/files"; ex_file "/data/c/files/c.graphml" "sound"]) {[ex_c := ex_same]}.
Theorem C68_export_overwrites_refuted : ∃ db enc st c g dir, storage_ok db (st_files st) ∧ simple_name c ∧ st_corpora st !! c = Some g ∧
  named_well g ∧ tidy g ∧ (export_directory db enc st [c] dir).2 = true ∧
  st_files (export_directory db enc st [c] dir).1 !! place (push dir (graphml_name c)) ≠ Some (File (enc g)).
Proof.
  exists ex_db, ex_enc, ex_same_st, ex_c, ex_same, (str "/out").
  split; [by_computation|]. split; [by_computation|]. split; [by_computation|]. split; [by_computation|].
  split; [unfold tidy; apply (all_links_spec (λ name v, v = name)); by_computation|]. split; by_computation.
Qed.
(** A corpus name with a slash: the corpus has another name after the round trip. *)
Definition ex_slash : bytes := str "a/c".
Theorem C68_name_refuted : ∃ db enc dec rel st c g z st0 db2 tmp, storage_ok db (st_files st) ∧ name_ok c ∧
  st_corpora st !! c = Some g ∧ portable c g ∧ tidy g ∧ dec (enc g) = Some g ∧ export_zip db enc st [c] = Some z ∧
  storage_ok db2 (st_files st0) ∧ ∃ c', c' ≠ c ∧ (import_all_from_zip db2 dec rel st0 tmp z false).2 = Some [c'].
Proof.
  exists ex_db, ex_enc, (ex_dec [ex_corpus]), ex_rel, (Storage ex_fs {[ex_slash := [ex_corpus]]}), ex_slash, [ex_corpus], [(str "a/c.graphml", str "graph")],
    ex_empty, ex_other, (str "/tmp/x").
  split; [by_computation|]. split; [by_computation|]. split; [by_computation|]. split; [by_computation|].
  split; [unfold tidy; apply (all_links_spec (λ name v, v = name)); by_computation|]. split; [by_computation|]. split; [by_computation|].
  split; [by_computation|]. exists ex_c. split; by_computation.
Qed.
(** An export writes outside of its directory if a name has parent directories. *)
Definition ex_out : graph := [ex_corpus; ex_node "../etc/secret" "c/d/a.wav"].
Theorem C68_export_contained_refuted : ∃ db enc st c dir f p, storage_ok db (st_files st) ∧ simple_name c ∧ file_name f ∧ dir_exists (st_files st) dir = true ∧
  (export_corpus_graphml db enc st c (push dir f)).2 = true ∧ ¬ inside (place dir) p ∧
  st_files st !! p = Some (File (str "password")) ∧ st_files (export_corpus_graphml db enc st c (push dir f)).1 !! p = Some (File (str "sound")).
Proof.
  exists ex_db, ex_enc, (Storage (st_files ex_imported) {[ex_c := ex_out]}), ex_c, (str "/in"), (str "x.graphml"), (place (str "/etc/secret")).
  split; [by_computation|]. split; [by_computation|]. split; [unfold file_name; by_computation|]. split; [by_computation|]. split; [by_computation|].
  split; [by_computation|]. split; by_computation.
Qed.

Print Assumptions C68_import_copies_partial.
Print Assumptions C68_import_contained_partial.
Print Assumptions C68_import_succeeds_partial.
Print Assumptions C68_failed_import_partial.
Print Assumptions C68_export_contained_partial.
Print Assumptions C68_directory_round_trip_partial.
Print Assumptions C68_zip_round_trip_partial.
Print Assumptions C68_import_contained_refuted.
Print Assumptions C68_failed_import_contained_refuted.
Print Assumptions C68_source_refuted.
Print Assumptions C68_failed_import_refuted.
Print Assumptions C68_collision_refuted.
Print Assumptions C68_zip_missing_refuted.
Print Assumptions C68_zip_corpus_file_refuted.
Print Assumptions C68_export_overwrites_refuted.
Print Assumptions C68_name_refuted.
Print Assumptions C68_export_contained_refuted.
