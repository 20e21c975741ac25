(** Property C43: directories of corpora. *)
From Coq Require Import NArith String Lia.
From stdpp Require Import base list.
From Verif Require Import KeySer Percent PercentProofs CompPath CompPathSpec CorpusDir CorpusDirProofs.
Local Open Scope string_scope.

(** A corpus directory is a direct child of the data directory, with a name that has no slash.
    Missing: the names "", "." and "..", see below *)
Theorem C43_below_data_directory_partial db_dir name :
  db_dir ≠ [] → Forall is_byte name → name ≠ [] → name ≠ str "." → name ≠ str ".." →
  ∃ child, slash ∉ child ∧ child ≠ [] ∧ child ≠ str "." ∧ child ≠ str ".." ∧
    resolve (corpus_directory_on_disk db_dir name) = ((resolve db_dir).1, ((resolve db_dir).2 ++ [child])%list).
Proof.
  intros Hd Hb H0 H1 H2. exists (escaped_corpus_name name). destruct (escaped_file_name name Hb H0 H1 H2) as [(A & B & C) D].
  split; [exact A|]. split; [exact D|]. split; [exact B|]. split; [exact C|]. by apply directory_spec.
Qed.
(** Different corpora have different directories *)
Theorem C43_distinct_partial db_dir name name' : db_dir ≠ [] → Forall is_byte name → Forall is_byte name' →
  name ≠ [] → name ≠ str "." → name ≠ str ".." → name' ≠ [] → name' ≠ str "." → name' ≠ str ".." →
  resolve (corpus_directory_on_disk db_dir name) = resolve (corpus_directory_on_disk db_dir name') → name = name'.
Proof.
  intros Hd Hb Hb' H1 H2 H3 H4 H5 H6. rewrite !directory_spec by done. intros [= E]. apply app_inj_2 in E as [_ E]; [|done]. injection E as E. by apply escaped_inj.
Qed.
(** Listing the data directory gives the names *)
Theorem C43_listing names : Forall (Forall is_byte) names → list_from_disk (escaped_corpus_name <$> names) = names.
Proof.
  intros H. unfold list_from_disk. rewrite <- list_fmap_compose. rewrite <- (list_fmap_id names) at 2. apply Forall_fmap_ext_1.
  eapply Forall_impl; [exact H|]. intros name Hn. cbn. by apply escaped_decode.
Qed.
(** The empty name and "." are the data directory itself, ".." is its parent: deleting such a corpus (l.1361-1389) would
    delete this directory *)
Theorem C43_below_data_directory_refuted :
  let db_dir := str "/var/annis/data" in
  resolve (corpus_directory_on_disk db_dir (str "")) = resolve db_dir ∧
  resolve (corpus_directory_on_disk db_dir (str ".")) = resolve db_dir ∧
  resolve (corpus_directory_on_disk db_dir (str "..")) = resolve (str "/var/annis").
Proof. split; [vm_compute; reflexivity|]. split; vm_compute; reflexivity. Qed.
(** A corpus can have the same path as the lock file of the data directory *)
Theorem C43_lock_file_refuted : escaped_corpus_name (str "db.lock") = db_lock_file_name.
Proof. vm_compute. reflexivity. Qed.
Example ex_directory : corpus_directory_on_disk (str "data/") (str "a/../b: 100%") = str "data/a%2F..%2Fb%3A%20100%25" ∧
  list_from_disk [str "a%2F..%2Fb%3A%20100%25"] = [str "a/../b: 100%"].
Proof. split; vm_compute; reflexivity. Qed.
Print Assumptions C43_below_data_directory_partial.
Print Assumptions C43_distinct_partial.
Print Assumptions C43_listing.
Print Assumptions C43_below_data_directory_refuted.
Print Assumptions C43_lock_file_refuted.
