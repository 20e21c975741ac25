(** Proofs about exporting corpora with linked files and importing them again. *)
From Coq Require Import NArith String.
From stdpp Require Import base list gmap.
From Verif Require Import KeySer Types Percent PercentProofs CompPath CompPathSpec CompPathProofs CorpusDir CorpusDirProofs Service LinkedFiles LinkedFilesSpec
  LinkedFilesProofs LinkedFilesCopy LinkedFilesImport.

Lemma sublist_NoDup {A} (l k : list A) : l `sublist_of` k → NoDup k → NoDup l.
Proof.
  induction 1 as [|x l k Hs IH|x l k Hs IH]; [done|..]; intros [Hx Hk]%NoDup_cons; [|by apply IH].
  constructor; [|by apply IH]. intros Hin. apply Hx. eapply elem_of_submseteq; [done|]. by apply sublist_submseteq.
Qed.
Lemma fold_nodots a qs acc : str ".." ∉ qs → fold_left (step a) qs acc = reverse (filter real qs) ++ acc.
Proof.
  intros H. rewrite <- fold_real. apply fold_plain. apply Forall_forall. intros x Hx. apply elem_of_list_filter in Hx as [[H1 H2] Hx].
  split_and!; [done|done|]. by intros ->.
Qed.
Lemma never_intro D s : str ".." ∉ parts s [] → ¬ inside D (place s) → never_enters D s.
Proof.
  intros Hd Hp k [r E]. apply Hp. unfold place. rewrite <- (take_drop k (parts s [])), fold_left_app. rewrite fold_nodots.
  2:{ intros H. apply Hd. rewrite <- (take_drop k (parts s [])). apply elem_of_app. by right. }
  rewrite reverse_app, reverse_involutive. injection E as E1 E2. rewrite E2, E1. eexists. by rewrite <- app_assoc.
Qed.
Lemma plain_dots s : plain s → str ".." ∉ parts s [].
Proof. intros H Hi. unfold plain in H. rewrite Forall_forall in H. by destruct (H _ Hi) as (_ & _ & ?). Qed.
Lemma push_dots base s : base ≠ [] → plain s → str ".." ∉ parts base [] → str ".." ∉ parts (push base s) [].
Proof.
  intros Hb Hs Hd. destruct (push_parts base s Hb (plain_relative _ Hs)) as (ps & E1 & E2 & _). rewrite E1. intros Hi. apply elem_of_app in Hi as [Hi|Hi].
  - apply Hd. destruct E2 as [-> | ->]; [done|]. apply elem_of_app. by left.
  - by apply plain_dots in Hi.
Qed.
Lemma parts_noslash s cur : slash ∉ cur → Forall (λ p, slash ∉ p) (parts s cur).
Proof.
  revert cur. induction s as [|b s IH]; intros cur H; cbn [parts].
  - constructor; [|constructor]. by rewrite elem_of_reverse.
  - destruct (decide (b = slash)).
    + constructor; [by rewrite elem_of_reverse|]. apply IH, not_elem_of_nil.
    + apply IH. apply not_elem_of_cons. by split.
Qed.
Lemma parts_join_parts ps : ps ≠ [] → Forall (λ p, slash ∉ p) ps → parts (join_parts ps) [] = ps.
Proof.
  induction ps as [|p ps IH]; [done|]. intros _ H. apply List.Forall_cons_iff in H as [Hp H]. destruct ps as [|q ps].
  - cbn [join_parts]. by rewrite CompPathProofs.parts_plain.
  - rewrite join_parts_cons by done. rewrite CompPathProofs.parts_app by done. by rewrite IH.
Qed.
Lemma join_parts_snoc ps : ps ≠ [] → join_parts (ps ++ [[]]) = join_parts ps ++ [slash].
Proof.
  induction ps as [|p ps IH]; [done|]. intros _. destruct ps as [|q ps]; [done|].
  transitivity (p ++ slash :: join_parts ((q :: ps) ++ [[]])); [done|]. rewrite IH by done.
  transitivity ((p ++ slash :: join_parts (q :: ps)) ++ [slash]); [by rewrite <- app_assoc|done].
Qed.
(** The directory of a file *)
Lemma parent_push dir f : dir ≠ [] → f ≠ [] → file_name f → parent (push dir f) ≠ [] ∧
  (parent (push dir f) = dir ∨ parent (push dir f) ++ [slash] = dir).
Proof.
  intros Hd Hf Hn. destruct (plain_single f Hf Hn) as [Hp Ef]. destruct (push_parts dir f Hd (plain_relative _ Hp)) as (ps & E1 & E2 & E3).
  unfold parent. rewrite E1, Ef, removelast_last. pose proof (join_parts_parts dir []) as J. cbn in J.
  assert (ps ≠ []) as Hps. { intros ->. destruct E2 as [E2|E2]; [by apply parts_ne in E2|]. rewrite E2 in J. by cbn in J. }
  assert (ps = [[]] → dir = [slash]) as Hroot.
  { intros ->. destruct E2 as [E2|E2]; rewrite E2 in J; [by cbn in J|]. by cbn in J. }
  assert (ps ≠ [[]] → join_parts ps ≠ [] ∧ (join_parts ps = dir ∨ join_parts ps ++ [slash] = dir)) as Hother.
  { intros Hps1. split.
    - destruct ps as [|p [|q ps]]; [done|by cbn; intros -> |]. rewrite join_parts_cons by done. by destruct p.
    - destruct E2 as [E2|E2]; rewrite E2 in J; [by left|right]. by rewrite join_parts_snoc in J by done. }
  destruct ps as [|[|b p] [|q ps]]; [done| |apply Hother; done..]. rewrite Hroot by done. split; [done|by left].
Qed.
Lemma slash_end q dir : q ≠ [] → (q = dir ∨ q ++ [slash] = dir) → place q = place dir ∧ (∀ fs, dir_exists fs q = dir_exists fs dir) ∧
  (str ".." ∉ parts dir [] → str ".." ∉ parts q []).
Proof.
  intros Hq [<-|<-]; [done|]. assert (absolute (q ++ [slash]) = absolute q) as Ha by (by destruct q).
  assert (parts (q ++ [slash]) [] = parts q [] ++ [[]]) as Hp by (by rewrite ServiceProofs.parts_app). split_and!.
  - unfold place. rewrite Ha, Hp, fold_left_app. cbn [fold_left]. by rewrite step_skip by (by intros []).
  - intros fs. unfold dir_exists, locate. rewrite Ha, Hp, walk_app. destruct (walk fs (absolute q) [] (parts q [])) as [acc|]; [|done].
    cbn [mbind option_bind walk]. destruct (is_dir fs (absolute q, reverse acc)) eqn:E; [|done].
    rewrite step_skip by (by intros []). cbn. by rewrite E.
  - rewrite Hp. intros H Hi. apply H. apply elem_of_app. by left.
Qed.

(** * Writing and reading *)
Lemma write_locate fs s t fs' : write_file fs s t = Some fs' → locate fs' s = Some (place s) ∧ fs' = <[place s := File t]> fs ∧ is_dir fs (place s) = false ∧ locate fs s = Some (place s).
Proof.
  unfold write_file. destruct (locate fs s) as [p|] eqn:E; [|done]. destruct (is_dir fs p) eqn:Ed; [done|]. intros [= <-].
  pose proof (locate_place _ _ _ E) as ->. split_and!; [|done|done|done]. unfold locate in *. destruct (walk fs _ _ _) as [acc|] eqn:Ew; [|done]. cbn in E.
  rewrite (walk_mono fs _ _ _ _ acc); [done| |done]. intros q Hq. unfold is_dir in *. rewrite bool_decide_eq_true in *. destruct Hq as [Hq|Hq]; [by left|]. right.
  rewrite lookup_insert_ne; [done|]. intros <-. rewrite bool_decide_eq_false in Ed. tauto.
Qed.
Lemma write_read fs s t fs' : write_file fs s t = Some fs' → read_file fs' s = Some t.
Proof. intros H. destruct (write_locate _ _ _ _ H) as (E & -> & _). unfold read_file. rewrite E. by rewrite lookup_insert. Qed.
Lemma write_again fs s t fs' t' : write_file fs s t = Some fs' → write_file fs' s t' = Some (<[place s := File t']> fs').
Proof.
  intros H. destruct (write_locate _ _ _ _ H) as (E & -> & Hd & _). unfold write_file. rewrite E. unfold is_dir in *. rewrite lookup_insert.
  rewrite bool_decide_false; [done|]. rewrite bool_decide_eq_false in Hd. intros [|]; [tauto|done].
Qed.
Lemma grown_read D W fs fs' base s t : base ≠ [] → plain s → place base = D → grown D W fs fs' → s ∉ W → read_file fs (push base s) = Some t →
  read_file fs' (push base s) = Some t.
Proof.
  intros Hb Hs HD G Hn. unfold read_file. destruct (locate fs (push base s)) as [p|] eqn:E; [|done].
  pose proof (locate_file_in _ _ _ _ Hb Hs E) as Ep. rewrite HD in Ep. subst p.
  assert (locate fs' (push base s) = Some (file_in D s)) as ->.
  { unfold locate in *. destruct (walk fs _ _ _) as [acc|] eqn:Ew; [|done]. rewrite (walk_mono fs fs' _ _ _ acc); [done| |done]. intros q. by apply (grown_dir D W). }
  destruct (fs !! file_in D s) as [[|t']|] eqn:Ef; [done| |done]. intros [= ->]. by rewrite (grown_file D W fs fs' s t).
Qed.
Lemma read_dir fs base s : base ≠ [] → plain s → dir_exists fs base = true → (∃ t, read_file fs (push base s) = Some t) → is_Some (fs !! file_in (place base) s).
Proof.
  intros Hb Hs Hd [t H]. unfold read_file in H. destruct (locate fs _) as [p|] eqn:E; [|done]. apply locate_file_in in E as ->; [|done|done].
  by destruct (fs !! _).
Qed.

(** * Copying the files out *)
Lemma copy_out_ok base l W fs : base ≠ [] → dir_exists fs base = true → only (place base) W fs → Forall plain l.*1 → NoDup l.*1 → prefix_free (l.*1 ++ W) →
  (∀ s, s ∈ l.*1 → s ∉ W) → (∀ e, e ∈ l → never_enters (place base) e.2) →
  ∃ fs', copy_out fs base l = (fs', true) ∧ grown (place base) l.*1 fs fs' ∧
    ∀ name src t, (name, src) ∈ l → read_file fs src = Some t → read_file fs' (push base name) = Some t.
Proof.
  intros Hb. revert fs W. induction l as [|[name src] l IH]; intros fs W Hd Ho Hp Hnd Hpf Hin Hout; cbn [copy_out].
  { exists fs. split_and!; [done|apply grown_refl|]. intros ? ? ? H. by apply elem_of_nil in H. }
  rewrite fmap_cons in *. cbn [fst] in *. apply List.Forall_cons_iff in Hp as [Hp1 Hp2]. apply NoDup_cons in Hnd as [Hn1 Hn2].
  assert (never_enters (place base) src) as Hsrc. { apply (Hout (name, src)). by left. }
  assert (∀ e, e ∈ l → never_enters (place base) e.2) as Hout2. { intros e He. apply Hout. by right. }
  destruct (read_file fs src) as [t|] eqn:Et.
  - destruct (copy_put_ok base (place base) W name fs src t) as (fs1 & fs2 & E1 & E2 & G & Hf & Ho2); [done..| | |done|done|].
    { eapply prefix_free_sub; [|exact Hpf]. intros x Hx. apply elem_of_cons in Hx as [->|Hx]; [by left|]. right. apply elem_of_app. by right. }
    { apply Hin. by left. }
    rewrite E1, E2. destruct (IH fs2 (name :: W)) as (fs3 & E3 & G3 & Hr); [|done|done|done| | |done|].
    { by apply (grown_dir_exists _ _ _ _ _ G). }
    { eapply prefix_free_sub; [|exact Hpf]. intros x Hx. apply elem_of_app in Hx as [Hx|Hx]; [right; apply elem_of_app; by left|].
      apply elem_of_cons in Hx as [->|Hx]; [by left|]. right. apply elem_of_app. by right. }
    { intros s Hs. apply not_elem_of_cons. split; [by intros ->|]. apply Hin. by right. }
    exists fs3. split_and!; [done|by apply (grown_trans _ [name] l.*1 fs fs2 fs3)|]. intros name' src' t' H Ht'.
    assert (∀ src, never_enters (place base) src → read_file fs2 src = read_file fs src) as Hsame.
    { intros s Hs. apply (read_outside _ _ (place base)); [|done]. intros p. by apply (grown_outside _ [name]). }
    apply elem_of_cons in H as [[= -> ->]|H].
    + rewrite Et in Ht'. injection Ht' as <-. apply (grown_read (place base) l.*1 fs2); [done|done|done|done|done|].
      unfold copy_file in E2. destruct (read_file fs1 src) as [t1|] eqn:Et1; [|done].
      assert (read_file fs2 (push base name) = Some (if decide (locate fs1 src = locate fs1 (push base name)) then [] else t1)) as Hr2 by (by apply write_read in E2).
      rewrite Hr2. unfold read_file in Hr2. destruct (locate fs2 (push base name)) as [p|] eqn:Ep; [|done]. apply locate_file_in in Ep as ->; [|done|done].
      rewrite Hf in Hr2. congruence.
    + apply (Hr name' src'); [done|]. rewrite Hsame; [done|]. by apply (Hout2 (name', src')).
  - destruct (IH fs W) as (fs3 & E3 & G3 & Hr); [done|done|done|done| | |done|].
    { eapply prefix_free_sub; [|exact Hpf]. intros x Hx. by right. }
    { intros s Hs. apply Hin. by right. }
    exists fs3. split_and!; [done|eapply grown_weaken; [|exact G3]; intros x Hx; by right|]. intros name' src' t' H Ht'.
    apply elem_of_cons in H as [[= -> ->]|H]; [congruence|]. by apply (Hr name' src').
Qed.

(** * Export *)
Lemma graphml_plain c : simple_name c → graphml_name c ≠ [] ∧ file_name (graphml_name c) ∧ plain (graphml_name c) ∧ parts (graphml_name c) [] = [graphml_name c].
Proof.
  intros [(H1 & H2 & H3 & H4) H5]. assert (graphml_name c ≠ []) as Hne by (unfold graphml_name; by destruct c).
  assert (file_name (graphml_name c)) as Hf.
  { split_and!.
    - unfold graphml_name. intros H. apply elem_of_app in H as [H|H]; [done|]. revert H. apply (bool_decide_unpack _). vm_compute. exact I.
    - intros E. apply (f_equal length) in E. unfold graphml_name in E. rewrite app_length in E. cbn in E. lia.
    - intros E. apply (f_equal length) in E. unfold graphml_name in E. rewrite app_length in E. cbn in E. lia. }
  split_and!; [done|by apply Hf..| |]; by apply plain_single.
Qed.
Lemma unrelated_inside D P p : unrelated D P → inside P p → ¬ inside D p.
Proof.
  intros [H1 H2] [r ->] [r' E]. destruct D as [a d], P as [b e]. cbn [fst snd] in *. injection E as <- E.
  destruct (prefix_weak_total d e (e ++ r)) as [[x ->]|[x ->]].
  - rewrite E. by exists r'.
  - by exists r.
  - apply H1. by exists x.
  - apply H2. by exists x.
Qed.
Lemma read_base fs base s t : base ≠ [] → plain s → read_file fs (push base s) = Some t → dir_exists fs base = true.
Proof.
  intros Hb Hs. destruct (push_parts base s Hb (plain_relative _ Hs)) as (ps & E1 & E2 & E3). unfold read_file, locate. rewrite E1, E3, walk_app.
  destruct (walk fs (absolute base) [] ps) as [acc|] eqn:Ew; [|done]. cbn [mbind option_bind].
  destruct (parts s []) as [|q qs] eqn:Es; [by apply parts_ne in Es|]. cbn [walk]. destruct (is_dir fs (absolute base, reverse acc)) eqn:Ed; [|done]. intros _.
  apply dir_exists_walk. exists acc. assert (walk fs (absolute base) [] (parts base []) = Some acc) as Hw.
  { destruct E2 as [-> | ->]; [done|]. rewrite walk_app, Ew. cbn. rewrite Ed. by rewrite step_skip by (by intros []). }
  split_and!; [done|done|]. unfold place. by rewrite (walk_fold _ _ _ _ _ Hw).
Qed.
Lemma linked_names base (g : graph) : (omap (linked_file base) g).*1 `sublist_of` file_names g.
Proof.
  induction g as [|n g IH]; [done|]. rewrite file_names_cons. change (n :: g) with ([n] ++ g). rewrite omap_app, fmap_app. apply sublist_app; [|done].
  cbn [omap list_omap]. unfold linked_file, name_list, file_names, is_file_node. cbn [omap list_omap].
  destruct (decide (n !! annis_key "node_type" = Some (str "file"))) as [E|E].
  - rewrite bool_decide_true by done. destruct (n !! annis_key "node_name") as [name|]; [|done]. cbn [mbind option_bind].
    destruct (n !! annis_key "file"); cbn; [done|]. apply sublist_nil_l.
  - rewrite bool_decide_false by done. done.
Qed.
Lemma linked_elem base n (g : graph) name v : n ∈ g → links n name v → (name, push base v) ∈ omap (linked_file base) g.
Proof.
  intros Hn (A & B & C). apply elem_of_list_omap. exists n. split; [done|]. unfold linked_file, is_file_node. rewrite bool_decide_true by done. by rewrite B, C.
Qed.
Lemma linked_elem_inv base (g : graph) name src : (name, src) ∈ omap (linked_file base) g → ∃ n v, n ∈ g ∧ links n name v ∧ src = push base v.
Proof.
  intros H. apply elem_of_list_omap in H as (n & Hn & H). unfold linked_file in H. destruct (is_file_node n) eqn:Ef; [|done].
  destruct (n !! annis_key "node_name") as [nm|] eqn:En; [|done]. cbn in H. destruct (n !! annis_key "file") as [v|] eqn:Ev; [|done]. cbn in H.
  injection H as -> <-. exists n, v. split_and!; [done|by apply is_file_node_links|done].
Qed.
Lemma links_name n (g : graph) name v : n ∈ g → links n name v → name ∈ file_names g.
Proof. intros Hn (A & B & _). apply elem_of_list_omap. exists n. split; [done|]. by rewrite decide_True. Qed.

Section Export.
Context (db c dir : bytes) (enc : graph → bytes) (st : storage) (g : graph).
Context (Hst : storage_ok db (st_files st)) (Hc : simple_name c) (Hg : st_corpora st !! c = Some g).
Context (Hport : portable c g) (Htidy : tidy g).
Context (Hdir : dir ≠ []) (Hdots : str ".." ∉ parts dir []) (Hun : unrelated (place dir) (corpus_place db c)).
Let f := graphml_name c.
Let q := parent (push dir f).
Lemma source_never n name v : n ∈ g → links n name v → never_enters (place dir) (push (corpus_files db c) v).
Proof using Hst Hc Hport Htidy Hun.
  intros Hn Hl. pose proof (Htidy _ _ _ Hn Hl) as ->. destruct Hst as (H1 & H2 & _). destruct Hc as [Hc' _]. destruct Hport as ([Hp _] & _ & _).
  rewrite Forall_forall in Hp. specialize (Hp _ (links_name _ _ _ _ Hn Hl)). destruct (escaped_plain c Hc') as [E1 E2]. destruct files_plain as [F1 F2].
  assert (corpus_path db c ≠ []) as Hcp by (rewrite corpus_path_push; by apply push_ne).
  apply never_intro.
  - unfold corpus_files. apply push_dots; [by apply push_ne|done|]. apply push_dots; [done|done|]. rewrite corpus_path_push. by apply push_dots.
  - rewrite place_push; [|by apply push_ne|done]. apply (unrelated_inside _ (corpus_place db c)); [done|]. apply files_inside; [done|]. apply inside_file.
Qed.
Lemma export_ok : dir_exists (st_files st) dir = true → only (place dir) [] (st_files st) →
  ∃ st1, export_corpus_graphml db enc st c (push dir f) = (st1, true) ∧ st_corpora st1 = st_corpora st ∧
    grown (place dir) (f :: file_names g) (st_files st) (st_files st1) ∧ read_file (st_files st1) (push dir f) = Some (enc g) ∧
    ∀ n name v t, n ∈ g → links n name v → read_file (st_files st) (push (corpus_files db c) name) = Some t →
      read_file (st_files st1) (push q name) = Some t.
Proof using Hst Hc Hg Hport Htidy Hdir Hun.
  intros Hd Ho. destruct (graphml_plain c Hc) as (Hf0 & Hf1 & Hf2 & Hf3). fold f in Hf0, Hf1, Hf2, Hf3.
  destruct (parent_push dir f Hdir Hf0 Hf1) as [Hq Hqs]. fold q in Hq, Hqs. destruct (slash_end _ _ Hq Hqs) as (Hqp & Hqd & _).
  pose proof Hport as ([Hp Hnd] & Hpf & Hfn). fold f in Hpf, Hfn.
  destruct (put_ok dir (place dir) [] f (st_files st)) as (fs1 & E1 & G1 & Hw); [done..| |apply not_elem_of_nil|].
  { eapply prefix_free_sub; [|exact Hpf]. intros x Hx. apply elem_of_list_singleton in Hx as ->. by left. }
  assert (fs1 = st_files st) as ->.
  { destruct (place dir) as [a d] eqn:Ep. rewrite (create_parent_push _ dir a d) in E1 by done. rewrite Hf3 in E1. cbn in E1. by injection E1 as <-. }
  destruct (Hw []) as (fs2 & E2 & G2 & Hff & Ho2). unfold export_corpus_graphml. rewrite E2, Hg. rewrite (write_again _ _ _ _ (enc g) E2).
  set (fs3 := <[place (push dir f) := File (enc g)]> fs2).
  assert (write_file fs2 (push dir f) (enc g) = Some fs3) as E3 by (by apply (write_again _ _ _ _ (enc g) E2)).
  destruct (write_grown _ _ _ _ _ Hdir Hf2 E3) as [G3 E3'].
  assert (only (place dir) [f] fs3) as Ho3.
  { intros r Hr. destruct (decide (r = parts f [])) as [->|Hne].
    - right. left. exists f, (enc g). split_and!; [by left|done|]. rewrite E3'. apply lookup_insert.
    - rewrite E3', lookup_insert_ne by (intros [= E]; by apply app_inv_head in E). by apply Ho2. }
  assert (grown (place dir) [f] (st_files st) fs3) as G13.
  { eapply grown_weaken; [|exact (grown_trans _ _ _ _ _ _ G2 G3)]. intros x Hx. apply elem_of_app in Hx as [Hx|Hx]; done. }
  assert (dir_exists fs3 q = true) as Hd3. { rewrite Hqd. by apply (grown_dir_exists _ _ _ _ _ G13). }
  assert (read_file fs3 (push dir f) = Some (enc g)) as Hr3 by (by apply write_read in E3).
  fold q. unfold copy_linked_files_to_disk, get_linked_files.
  assert (∀ n name v t, n ∈ g → links n name v → read_file (st_files st) (push (corpus_files db c) name) = Some t →
    read_file fs3 (push (corpus_files db c) name) = Some t ∧ dir_exists fs3 (corpus_files db c) = true) as Hsrc.
  { intros n name v t Hn Hl Ht. pose proof (Htidy _ _ _ Hn Hl) as ->. assert (read_file fs3 (push (corpus_files db c) name) = Some t) as Ht3.
    { rewrite <- Ht. apply (read_outside _ _ (place dir)); [intros p; by apply (grown_outside _ [f])|]. by apply (source_never n name). }
    split; [done|]. rewrite Forall_forall in Hp. apply (read_base _ _ name t); [|by apply Hp, (links_name n _ name name)|done].
    unfold corpus_files. apply push_ne. rewrite corpus_path_push. destruct Hst. by apply push_ne. }
  destruct (dir_exists fs3 (corpus_files db c)) eqn:Ecf.
  2:{ exists (Storage fs3 (st_corpora st)). split_and!; [done|done| |done|].
      - eapply grown_weaken; [|exact G13]. intros x Hx. apply elem_of_list_singleton in Hx as ->. by left.
      - intros n name v t Hn Hl Ht. by destruct (Hsrc n name v t Hn Hl Ht). }
  set (l := omap (linked_file (corpus_files db c)) g). pose proof (linked_names (corpus_files db c) g) as Hsub. fold l in Hsub.
  assert (∀ s, s ∈ l.*1 → s ∈ file_names g) as Hin. { intros s Hs. eapply elem_of_submseteq; [exact Hs|]. by apply sublist_submseteq. }
  destruct (copy_out_ok q l [f] fs3) as (fs4 & E4 & G4 & Hr4).
  - done.
  - done.
  - by rewrite Hqp.
  - rewrite Forall_forall in *. intros s Hs. by apply Hp, Hin.
  - by eapply sublist_NoDup.
  - eapply prefix_free_sub; [|exact Hpf]. intros x Hx. apply elem_of_app in Hx as [Hx|Hx]; [right; by apply Hin|]. apply elem_of_list_singleton in Hx as ->. by left.
  - intros s Hs. rewrite elem_of_list_singleton. intros ->. by apply Hfn, Hin.
  - intros [name src] He. cbn [snd]. rewrite Hqp. apply linked_elem_inv in He as (n & v & Hn & Hl & ->). by apply (source_never n name).
  - rewrite E4. exists (Storage fs4 (st_corpora st)). rewrite Hqp in G4. split_and!; [done|done| | |].
    + eapply grown_weaken; [|exact (grown_trans _ _ _ _ _ _ G13 G4)]. intros x Hx. apply elem_of_app in Hx as [Hx|Hx].
      * apply elem_of_list_singleton in Hx as ->. by left.
      * right. by apply Hin.
    + cbn [st_files]. apply (grown_read (place dir) l.*1 fs3); [done|done|done|done| |done]. intros H. by apply Hfn, Hin.
    + intros n name v t Hn Hl Ht. destruct (Hsrc n name v t Hn Hl Ht) as [Ht3 _]. cbn [st_files]. apply (Hr4 name (push (corpus_files db c) name)); [|done].
      pose proof (Htidy _ _ _ Hn Hl) as ->. by apply (linked_elem _ n).
Qed.
End Export.
