(** Proofs: the statements about imports and exports with linked files in terms of the functions of the corpus storage. *)
From Coq Require Import NArith String.
From stdpp Require Import base list gmap.
From Verif Require Import KeySer Types CompPath CompPathSpec CorpusDir Service LinkedFiles LinkedFilesSpec LinkedFilesProofs LinkedFilesCopy
  LinkedFilesImport LinkedFilesExport LinkedFilesRoundTrip.

Section Import.
Context (db : bytes) (dec : bytes → option graph) (rel : files → bytes → option (bytes * graph)).
Lemma import_inv st path fmt c ow st' r : import_from_fs db dec rel st path fmt (Some c) ow = (st', r) →
  (st' = st ∧ r = None) ∨ ∃ g, source_graph dec rel (st_files st) path fmt g ∧ import_graph db st path c ow g = (st', r).
Proof.
  unfold import_from_fs. destruct fmt; cbn [source_graph].
  - destruct (rel (st_files st) path) as [[o g]|]; [|intros [= <- <-]; by left]. intros H. right. exists g. split; [by exists o|done].
  - destruct (read_file (st_files st) path ≫= dec) as [g|]; [|intros [= <- <-]; by left]. intros H. right. by exists g.
Qed.
Lemma source_fun fs path fmt g g' : source_graph dec rel fs path fmt g → source_graph dec rel fs path fmt g' → g = g'.
Proof. destruct fmt; cbn; [intros [o H] [o' H']|intros H H']; congruence. Qed.
Lemma import_copies st path fmt c ow g st' r : storage_ok db (st_files st) → name_ok c →
  source_graph dec rel (st_files st) path fmt g → named_well g →
  (∀ n name v, n ∈ g → links n name v → never_enters (corpus_place db c) (push (base_of path) v)) →
  import_from_fs db dec rel st path fmt (Some c) ow = (st', Some r) →
  r = c ∧ ∃ g', st_corpora st' !! c = Some g' ∧
    Forall2 (imported (st_files st) (st_files st') (base_of path) (files_place db c)) g g'.
Proof.
  intros Hst Hc Hg Hw Hn H. apply import_inv in H as [[_ ?]|(g2 & Hg2 & H)]; [done|]. rewrite <- (source_fun _ _ _ _ _ Hg Hg2) in H.
  by apply (import_graph_spec db c st Hst Hc path ow g).
Qed.
Lemma import_contained st path fmt c ow st' r : storage_ok db (st_files st) → name_ok c →
  (∀ g, source_graph dec rel (st_files st) path fmt g → Forall plain (file_names g)) →
  import_from_fs db dec rel st path fmt (Some c) ow = (st', r) →
  (∀ p, ¬ inside (corpus_place db c) p → st_files st' !! p = st_files st !! p) ∧ ∀ m, m ≠ c → st_corpora st' !! m = st_corpora st !! m.
Proof.
  intros Hst Hc Hp H. apply import_inv in H as [[-> _]|(g & Hg & H)]; [done|]. by apply (import_graph_contained db c st Hst Hc path ow g st' r); [apply Hp|].
Qed.
Lemma import_succeeds st path fmt c ow g : storage_ok db (st_files st) → name_ok c →
  source_graph dec rel (st_files st) path fmt g → named_well g → prefix_free (file_names g) →
  (∀ n name v, n ∈ g → links n name v → never_enters (corpus_place db c) (push (base_of path) v)) →
  never_enters (corpus_place db c) (base_of path) → dir_exists (st_files st) (base_of path) = true → may_import db st c ow →
  ∃ st', import_from_fs db dec rel st path fmt (Some c) ow = (st', Some c).
Proof.
  intros Hst Hc Hg Hw Hpf Hn Hnb Hb Hm. destruct (import_graph_ok db c st Hst Hc path ow g Hw Hpf Hn Hnb Hb Hm) as [st' E]. exists st'.
  unfold import_from_fs. destruct fmt; cbn in Hg.
  - destruct Hg as [o Hg]. by rewrite Hg.
  - by rewrite Hg.
Qed.
Lemma failed_import st path fmt name st' : import_from_fs db dec rel st path fmt name false = (st', None) → st_corpora st' = st_corpora st.
Proof.
  assert (∀ c g, import_graph db st path c false g = (st', None) → st_corpora st' = st_corpora st) as H.
  { intros c g. unfold import_graph. cbv zeta. destruct (negb false && _); [by intros [= <-]|]. destruct (create_dir_all _ (corpus_files db c)) as [fs ok].
    destruct ok; [|by intros [= <-]]. destruct (copy_linked_files_and_update_references _ _ _ _) as [fs' [g'|]]; [done|]. by intros [= <-]. }
  unfold import_from_fs. destruct fmt.
  - destruct (rel _ _) as [[o g]|]; [apply H|by intros [= <-]].
  - destruct (read_file (st_files st) path ≫= dec) as [g|]; [apply H|by intros [= <-]].
Qed.
End Import.

Lemma copy_out_grown base l fs fs' ok : base ≠ [] → dir_exists fs base = true → Forall plain l.*1 → copy_out fs base l = (fs', ok) → grown (place base) l.*1 fs fs'.
Proof.
  intros Hb. revert fs. induction l as [|[name src] l IH]; intros fs Hd Hp; cbn [copy_out]; [intros [= <- _]; apply grown_refl|].
  rewrite fmap_cons in *. cbn [fst] in *. apply List.Forall_cons_iff in Hp as [Hp1 Hp2].
  destruct (read_file fs src) as [t|].
  - destruct (create_parent fs (push base name)) as [fs1 ok1] eqn:E1. destruct (create_parent_grown _ _ _ _ _ Hb Hp1 Hd E1) as [G1 _].
    assert (grown (place base) (name :: l.*1) fs fs1) as G1'. { eapply grown_weaken; [|exact G1]. apply list_subseteq_nil. }
    destruct ok1; [|by intros [= <- _]]. destruct (copy_file fs1 src (push base name)) as [fs2|] eqn:E2; [|by intros [= <- _]].
    assert (grown (place base) [name] fs1 fs2) as G2.
    { unfold copy_file in E2. destruct (read_file fs1 src); [|done]. by destruct (write_grown _ _ _ _ _ Hb Hp1 E2). }
    pose proof (grown_trans _ _ _ _ _ _ G1 G2) as G12. intros E. apply (grown_trans _ [name] l.*1 fs fs2 fs'); [done|]. apply IH; [|done|done].
    by apply (grown_dir_exists _ _ _ _ _ G12).
  - intros E. eapply grown_weaken; [|by apply (IH fs)]. intros x Hx. by right.
Qed.
Lemma export_contained db enc st c dir f st' ok : dir ≠ [] → f ≠ [] → file_name f → dir_exists (st_files st) dir = true →
  (∀ g, st_corpora st !! c = Some g → Forall plain (file_names g)) →
  export_corpus_graphml db enc st c (push dir f) = (st', ok) →
  st_corpora st' = st_corpora st ∧ ∀ p, ¬ inside (place dir) p → st_files st' !! p = st_files st !! p.
Proof.
  intros Hd Hf Hfn Hde Hp. destruct (plain_single f Hf Hfn) as [Hfp _]. unfold export_corpus_graphml.
  destruct (write_file (st_files st) _ []) as [fs1|] eqn:E1; [|by intros [= <- _]]. destruct (write_grown _ _ _ _ _ Hd Hfp E1) as [G1 _].
  destruct (st_corpora st !! c) as [g|] eqn:Eg.
  2:{ intros [= <- _]. split; [done|]. intros p. by apply (grown_outside _ [f]). }
  destruct (write_file fs1 _ (enc g)) as [fs2|] eqn:E2.
  2:{ intros [= <- _]. split; [done|]. intros p. by apply (grown_outside _ [f]). }
  destruct (write_grown _ _ _ _ _ Hd Hfp E2) as [G2 _]. pose proof (grown_trans _ _ _ _ _ _ G1 G2) as G12.
  unfold copy_linked_files_to_disk. destruct (get_linked_files fs2 _ g) as [l|] eqn:El.
  2:{ intros [= <- _]. split; [done|]. intros p. by apply (grown_outside _ ([f] ++ [f])). }
  unfold get_linked_files in El. destruct (dir_exists fs2 (corpus_files db c)); [|done]. injection El as <-.
  destruct (parent_push dir f Hd Hf Hfn) as [Hq Hqs]. destruct (slash_end _ _ Hq Hqs) as (Hqp & Hqd & _).
  destruct (copy_out fs2 (parent (push dir f)) _) as [fs3 ok3] eqn:E3. intros [= <- _]. split; [done|]. intros p Hpi. cbn [st_files].
  rewrite (grown_outside (place dir) (omap (linked_file (corpus_files db c)) g).*1 fs2 fs3 p); [by apply (grown_outside (place dir) ([f] ++ [f]))| |done].
  rewrite <- Hqp. apply (copy_out_grown _ _ fs2 fs3 ok3); [done| | |done].
  - rewrite Hqd. by apply (grown_dir_exists _ _ _ _ _ G12).
  - specialize (Hp g eq_refl). rewrite Forall_forall in *. intros s Hs. apply Hp. eapply elem_of_submseteq; [exact Hs|]. apply sublist_submseteq, linked_names.
Qed.
