(** Proofs: exporting and importing again preserves the corpus with its linked files. *)
From Coq Require Import NArith String.
From stdpp Require Import base list gmap.
From Verif Require Import KeySer Types Percent PercentProofs CompPath CompPathSpec CompPathProofs CorpusDir CorpusDirProofs Service LinkedFiles LinkedFilesSpec
  LinkedFilesProofs LinkedFilesCopy LinkedFilesImport LinkedFilesExport.

Lemma Forall2_same {A} (l k : list A) : Forall2 eq l k → l = k.
Proof. by induction 1 as [|x y l k -> _ ->]. Qed.
Lemma split_dot_app c e : split_dot e = None → split_dot (c ++ 46%N :: e) = Some (c, e).
Proof. intros He. induction c as [|b c IH]; cbn [app split_dot]; [rewrite He; by rewrite decide_True|]. by rewrite IH. Qed.
Lemma file_name_push dir f : dir ≠ [] → f ≠ [] → file_name f → file_name_of (push dir f) = Some f.
Proof.
  intros Hd Hf Hn. destruct (plain_single f Hf Hn) as [Hp Ef]. unfold file_name_of. rewrite components_push by (done || by apply plain_relative).
  unfold components_of at 2. rewrite Ef, filter_plain by (by rewrite <- Ef). rewrite last_snoc. destruct Hn as (_ & _ & Hn). by rewrite decide_False.
Qed.
Lemma graphml_split c : split_dot (graphml_name c) = Some (c, str "graphml").
Proof. unfold graphml_name. change (str ".graphml") with (46%N :: str "graphml"). by apply split_dot_app. Qed.
Lemma stem_graphml dir c : dir ≠ [] → simple_name c → file_stem (push dir (graphml_name c)) = Some c ∧ extension (push dir (graphml_name c)) = Some (str "graphml").
Proof.
  intros Hd Hc. destruct (graphml_plain c Hc) as (H1 & H2 & _ & _). unfold file_stem, extension. rewrite file_name_push by done. cbn [mbind option_bind].
  rewrite graphml_split. destruct Hc as [(_ & Hne & _) _]. by destruct c.
Qed.
Lemma file_names_perm (g g' : graph) : g' ≡ₚ g → file_names g' ≡ₚ file_names g.
Proof. intros H. unfold file_names. by rewrite H. Qed.

Section Back.
Context (dec : bytes → option graph) (rel : files → bytes → option (bytes * graph)).
Context (db2 c dir : bytes) (fsx : files) (corpora2 : gmap bytes graph) (ow : bool) (g g' : graph) (t0 : bytes).
Context (Hst : storage_ok db2 fsx) (Hc : simple_name c) (Hport : portable c g) (Htidy : tidy g).
Context (Hdec : dec t0 = Some g') (Hperm : g' ≡ₚ g).
Context (Hdir : dir ≠ []) (Hdots : str ".." ∉ parts dir []) (Hun : unrelated (place dir) (corpus_place db2 c)).
Context (Hmay : may_import db2 (Storage fsx corpora2) c ow) (Hde : dir_exists fsx dir = true).
Let f := graphml_name c.
Let q := parent (push dir f).
Lemma import_back : read_file fsx (push dir f) = Some t0 →
  ∃ st2, import_from_fs db2 dec rel (Storage fsx corpora2) (push dir f) GraphML None ow = (st2, Some c) ∧
    st_corpora st2 !! c = Some g' ∧ (∀ m, m ≠ c → st_corpora st2 !! m = corpora2 !! m) ∧ same_outside (corpus_place db2 c) fsx (st_files st2) ∧
    ∀ n name v t, n ∈ g → links n name v → read_file fsx (push q name) = Some t →
      st_files st2 !! file_in (files_place db2 c) name = Some (File t).
Proof using Hst Hc Hport Htidy Hdec Hperm Hdir Hdots Hun Hmay Hde.
  intros Hr. destruct (graphml_plain c Hc) as (Hf0 & Hf1 & Hf2 & Hf3). fold f in Hf0, Hf1, Hf2, Hf3.
  destruct (parent_push dir f Hdir Hf0 Hf1) as [Hq Hqs]. fold q in Hq, Hqs. destruct (slash_end _ _ Hq Hqs) as (Hqp & Hqd & Hqdots). specialize (Hqdots Hdots).
  assert (base_of (push dir f) = q) as Hb. { unfold base_of. fold q. by destruct q. }
  pose proof Hport as ([Hp Hnd] & Hpf & Hfn). fold f in Hpf, Hfn. pose proof (file_names_perm _ _ Hperm) as Hfp.
  assert (named_well g') as Hw'. { split; [by rewrite Hfp|]. by rewrite Hfp. }
  assert (prefix_free (file_names g')) as Hpf'. { eapply prefix_free_sub; [|exact Hpf]. intros x Hx. right. by rewrite <- Hfp. }
  assert (∀ n name v, n ∈ g' → links n name v → never_enters (corpus_place db2 c) (push (base_of (push dir f)) v)) as Hnev.
  { intros n name v Hn Hl. rewrite Hperm in Hn. pose proof (Htidy _ _ _ Hn Hl) as ->. rewrite Hb.
    assert (plain name) as Hpn. { rewrite Forall_forall in Hp. by apply Hp, (links_name n _ name name). }
    apply never_intro; [by apply push_dots|]. rewrite place_push by done. rewrite Hqp. apply (unrelated_inside _ (place dir)); [by destruct Hun|apply inside_file]. }
  pose proof (proj1 Hc) as Hc'.
  destruct (import_graph_ok db2 c (Storage fsx corpora2) Hst Hc' (push dir f) ow g') as [st2 E]; [done|done|done| | |done|].
  { rewrite Hb. apply never_intro; [done|]. rewrite Hqp. apply (unrelated_inside _ (place dir)); [by destruct Hun|]. exists []. rewrite app_nil_r. by destruct (place dir). }
  { rewrite Hb, Hqd. done. }
  exists st2. split.
  { unfold import_from_fs. cbn [st_files]. rewrite Hr. cbn [mbind option_bind]. rewrite Hdec. destruct (stem_graphml dir c Hdir Hc) as [Es _]. fold f in Es. rewrite Es. cbn [default]. exact E. }
  destruct (import_graph_contained db2 c (Storage fsx corpora2) Hst Hc' _ _ _ _ _ (proj1 Hw') E) as [Hs Hm].
  destruct (import_graph_spec db2 c (Storage fsx corpora2) Hst Hc' _ _ _ _ _ Hw' Hnev E) as (_ & g2 & Hg2 & HF). cbn [st_files st_corpora] in *.
  assert (g2 = g') as ->.
  { symmetry. apply Forall2_same. eapply Forall2_impl_in; [exact HF|]. intros n n' Hn [A B]. rewrite Hb in *.
    destruct (decide (n !! annis_key "node_type" = Some (str "file") ∧ is_Some (n !! annis_key "node_name") ∧ is_Some (n !! annis_key "file"))) as [(X & [name Y] & [v Z])|Hno].
    - assert (links n name v) as Hl by done. rewrite Hperm in Hn. pose proof (Htidy _ _ _ Hn Hl) as ->.
      destruct (read_file fsx (push q name)) as [t|] eqn:Et.
      + destruct (A _ _ _ Hl Et) as [-> _]. symmetry. by apply insert_id.
      + symmetry. apply B. intros name' v' t' Hl'. destruct (links_fun _ _ _ _ _ Hl Hl') as [<- <-]. congruence.
    - symmetry. apply B. intros name v t (X & Y & Z). exfalso. apply Hno. split_and!; [done|by eexists|by eexists]. }
  split_and!; [done|done|done|]. intros n name v t Hn Hl Ht. pose proof (Htidy _ _ _ Hn Hl) as ->.
  assert (n ∈ g') as Hn' by (by rewrite Hperm). apply elem_of_list_lookup in Hn' as [i Hi].
  destruct (Forall2_lookup_l _ _ _ _ _ HF Hi) as (n' & _ & [A _]). rewrite Hb in A. by destruct (A _ _ _ Hl Ht).
Qed.
End Back.

(** * A new directory *)
Lemma extends_read fs fs' s t : (∀ p x, fs !! p = Some x → fs' !! p = Some x) → read_file fs s = Some t → read_file fs' s = Some t.
Proof.
  intros H. unfold read_file, locate. destruct (walk fs (absolute s) [] (parts s [])) as [acc|] eqn:E; [|done]. cbn [mbind option_bind].
  rewrite (walk_mono fs fs' _ _ _ acc); [|intros p; unfold is_dir; rewrite !bool_decide_eq_true; intros [|]; [by left|right; by apply H]|done].
  cbn [mbind option_bind]. destruct (fs !! (absolute s, reverse acc)) as [x|] eqn:Ex; [|done]. by rewrite (H _ _ Ex).
Qed.
Lemma new_directory fs dir fs' : str ".." ∉ parts dir [] → vacant fs (place dir) → create_dir_all fs dir = (fs', true) →
  dir_exists fs' dir = true ∧ only (place dir) [] fs' ∧ (∀ p x, fs !! p = Some x → fs' !! p = Some x) ∧
  (∀ P, ¬ inside P (place dir) → ∀ p, inside P p → fs' !! p = fs !! p).
Proof.
  intros Hd Hv E. split; [by apply create_dir_all_ok in E|]. unfold create_dir_all in E. pose proof (mkdirs_effect _ _ _ _ _ _ E) as He.
  assert (str ".." ∉ components_of dir) as Hd'. { intros H. apply Hd. by apply elem_of_list_filter in H as [_ H]. }
  assert (place dir = (absolute dir, components_of dir)) as Hp.
  { unfold place. rewrite fold_nodots by done. rewrite app_nil_r, reverse_involutive. done. }
  assert (filter real (components_of dir) = components_of dir) as Hff.
  { unfold components_of. apply filter_plain. apply Forall_forall. intros x Hx. apply elem_of_list_filter in Hx as [[H1 H2] Hx]. split_and!; [done|done|by intros ->]. }
  assert (∀ k, reverse (fold_left (step (absolute dir)) (take k (components_of dir)) []) = take k (components_of dir)) as Hk.
  { intros k. rewrite fold_plain; [by rewrite app_nil_r, reverse_involutive|]. apply Forall_take. apply Forall_forall. intros x Hx. pose proof Hx as Hx'.
    apply elem_of_list_filter in Hx as [[H1 H2] Hx]. split_and!; [done|done|by intros ->]. }
  split_and!.
  - intros r Hr. left. rewrite Hp. cbn [fst snd]. destruct (He (absolute dir, components_of dir ++ r)) as [->|(_ & _ & k & Hkk & E3)].
    + apply Hv. rewrite Hp. by exists r.
    + rewrite Hk in E3. injection E3 as E3. apply (f_equal length) in E3. rewrite app_length, take_length in E3. destruct r; [done|]. cbn in E3. lia.
  - intros p x Hx. destruct (He p) as [->|(E1 & _)]; [done|congruence].
  - intros P Hi p Hpi. destruct (He p) as [|(_ & _ & k & _ & E3)]; [done|]. exfalso. apply Hi. rewrite Hk in E3. subst p. destruct Hpi as [r Hpi].
    rewrite Hp. injection Hpi as E1 E2. exists (r ++ drop k (components_of dir)). rewrite app_assoc, <- E2, take_drop. by rewrite E1.
Qed.
Lemma storage_ok_mono db fs fs' : (∀ p x, fs !! p = Some x → fs' !! p = Some x) → storage_ok db fs → storage_ok db fs'.
Proof.
  intros H (A & B & C). split_and!; [done|done|]. apply (dir_mono fs); [|done]. intros p. unfold is_dir. rewrite !bool_decide_eq_true.
  intros [|]; [by left|right; by apply H].
Qed.
Lemma dir_exists_mono fs fs' s : (∀ p, fs !! p = Some Dir → fs' !! p = Some Dir) → dir_exists fs s = true → dir_exists fs' s = true.
Proof.
  intros H. apply dir_mono. intros p. unfold is_dir. rewrite !bool_decide_eq_true. intros [|]; [by left|right; by apply H].
Qed.
Lemma may_import_mono db st c ow fs' : (∀ p, st_files st !! p = Some Dir → fs' !! p = Some Dir) → (∀ p, inside (corpus_place db c) p → fs' !! p = st_files st !! p) →
  may_import db st c ow → may_import db (Storage fs' (st_corpora st)) c ow.
Proof.
  intros H1 H2 [[A B]|[A B]]; [left|right].
  - split; [done|]. by apply (dir_exists_mono (st_files st)).
  - split; [done|]. intros p Hp. cbn [st_files]. rewrite H2 by done. by apply B.
Qed.

Lemma directory_round_trip enc dec rel db c g st dir db2 corpora2 ow g' :
  storage_ok db (st_files st) → simple_name c → st_corpora st !! c = Some g → portable c g → tidy g →
  dec (enc g) = Some g' → g' ≡ₚ g →
  dir ≠ [] → str ".." ∉ parts dir [] → vacant (st_files st) (place dir) → (create_dir_all (st_files st) dir).2 = true →
  unrelated (place dir) (corpus_place db c) → unrelated (place dir) (corpus_place db2 c) →
  storage_ok db2 (st_files st) → may_import db2 (Storage (st_files st) corpora2) c ow →
  ∃ st1 st2, export_directory db enc st [c] dir = (st1, true) ∧
    import_from_fs db2 dec rel (Storage (st_files st1) corpora2) (push dir (graphml_name c)) GraphML None ow = (st2, Some c) ∧
    preserved db (st_files st) c g db2 st2.
Proof.
  intros Hst Hc Hg Hport Htidy Hdec Hperm Hdir Hdots Hvac Hmk Hun Hun2 Hst2 Hmay.
  unfold export_directory. cbn [length]. rewrite bool_decide_false by lia. cbn [export_directories].
  destruct (create_dir_all (st_files st) dir) as [fs0 ok] eqn:E0. cbn in Hmk. subst ok.
  destruct (new_directory _ _ _ Hdots Hvac E0) as (Hde & Ho & Hext & Hins).
  destruct (export_ok db c dir enc (Storage fs0 (st_corpora st)) g) as (st1 & E1 & Hcs & G & Hr & Hfiles); [by apply (storage_ok_mono _ (st_files st))|done..|].
  rewrite E1. cbn [st_files] in *.
  assert (∀ p, fs0 !! p = Some Dir → st_files st1 !! p = Some Dir) as Hdirs by apply G.
  assert (∀ p, inside (corpus_place db2 c) p → st_files st1 !! p = st_files st !! p) as Hin2.
  { intros p Hp. rewrite (grown_outside _ _ _ _ p G); [|by apply (unrelated_inside _ (corpus_place db2 c))]. apply (Hins (corpus_place db2 c)); [by destruct Hun2|done]. }
  destruct (import_back dec rel db2 c dir (st_files st1) corpora2 ow g g' (enc g)) as (st2 & E2 & Hg2 & _ & _ & Hf2); [|done..| | |done|].
  { destruct Hst2 as (A & B & C). split_and!; [done|done|]. apply (dir_exists_mono (st_files st)); [|done]. intros p Hp. by apply Hdirs, Hext. }
  { apply (may_import_mono db2 (Storage (st_files st) corpora2) c ow (st_files st1)); [intros p Hp; by apply Hdirs, Hext|done|done]. }
  { apply (dir_exists_mono fs0); done. }
  exists st1, st2. split_and!; [done|done|]. split; [by exists g'|]. intros n name v t Hn Hl Ht. pose proof (Htidy _ _ _ Hn Hl) as ->.
  apply (Hf2 n name name t); [done|done|]. apply (Hfiles n name name t); [done|done|]. by apply (extends_read (st_files st)).
Qed.

(** * ZIP files *)
Lemma zip_files_spec fs z l ts : Forall2 (λ e t, read_file fs e.2 = Some t) l ts → NoDup (z.*1 ++ l.*1) →
  zip_files fs [] z l = Some (z ++ zip l.*1 ts).
Proof.
  intros H. revert z. induction H as [|[name src] t l ts Ht H IH]; intros z Hnd; cbn [zip_files].
  - cbn. by rewrite app_nil_r.
  - cbn [snd] in Ht. rewrite Ht. cbn [mbind option_bind]. unfold zip_add. rewrite push_nil. rewrite fmap_cons in *. cbn [fst] in *.
    pose proof Hnd as Hnd'. apply NoDup_app in Hnd' as (_ & Hd & _).
    rewrite decide_False by (intros Hi; apply (Hd _ Hi); by left). cbn [mbind option_bind]. rewrite IH.
    + rewrite <- app_assoc. done.
    + rewrite fmap_app. cbn. rewrite <- app_assoc. done.
Qed.
Lemma plain_last_char s : plain s → last s ≠ Some slash.
Proof.
  intros Hs E. apply last_Some in E as [q ->]. unfold plain in Hs. rewrite ServiceProofs.parts_app in Hs. apply Forall_app in Hs as [_ Hs]. cbn in Hs.
  apply List.Forall_cons_iff in Hs as [(Hs & _) _]. done.
Qed.
Lemma depth_plain ps d : Forall plain_part ps → depth_ok d ps = true.
Proof.
  intros H. revert d. induction H as [|p ps (H1 & H2 & H3) H IH]; intros d; cbn [depth_ok]; [done|]. by rewrite decide_False.
Qed.
Lemma enclosed_plain s : plain s → 0%N ∉ s → enclosed_name s = Some s.
Proof.
  intros Hs H0. unfold enclosed_name. rewrite decide_False by done. rewrite plain_relative by done. unfold components_of. rewrite filter_plain by done.
  by rewrite depth_plain.
Qed.
Lemma file_name_push_plain dir s q : dir ≠ [] → plain s → last (parts s []) = Some q → file_name_of (push dir s) = Some q.
Proof.
  intros Hd Hs Hq. unfold file_name_of. rewrite components_push by (done || by apply plain_relative). unfold components_of at 2. rewrite filter_plain by done.
  rewrite last_app, Hq. rewrite decide_False; [done|]. intros ->. unfold plain in Hs. rewrite Forall_forall in Hs. apply last_Some_elem_of in Hq. by destruct (Hs _ Hq) as (_ & _ & ?).
Qed.
Lemma split_dot_eq s x e : split_dot s = Some (x, e) → s = x ++ str "." ++ e.
Proof.
  revert x. induction s as [|b s IH]; intros x; cbn [split_dot]; [done|]. destruct (split_dot s) as [[y e']|].
  - intros [= <- ->]. by rewrite (IH y).
  - destruct (decide (b = 46%N)) as [->|]; [|done]. by intros [= <- <-].
Qed.

Section Zip.
Context (tmp : bytes) (Htmp : tmp ≠ []).
(** Ordinary entries are only unpacked *)
Lemma unpack_ordinary z W fs rels graphs : dir_exists fs tmp = true → only (place tmp) W fs → Forall plain z.*1 → Forall (λ s, 0%N ∉ s) z.*1 → Forall ordinary z.*1 →
  NoDup z.*1 → prefix_free (z.*1 ++ W) → (∀ s, s ∈ z.*1 → s ∉ W) →
  ∃ fs', unpack fs tmp z rels graphs = (fs', Some (rels, graphs)) ∧ grown (place tmp) z.*1 fs fs' ∧
    ∀ name t, (name, t) ∈ z → read_file fs' (push tmp name) = Some t.
Proof using Htmp.
  revert fs W. induction z as [|[name t] z IH]; intros fs W Hd Ho Hp H0 Hor Hnd Hpf Hin; cbn [unpack].
  { exists fs. split_and!; [done|apply grown_refl|]. intros ? ? H. by apply elem_of_nil in H. }
  rewrite fmap_cons in *. cbn [fst] in *. apply List.Forall_cons_iff in Hp as [Hp1 Hp2], H0 as [H01 H02], Hor as [Ho1 Ho2]. apply NoDup_cons in Hnd as [Hn1 Hn2].
  rewrite enclosed_plain by done. cbv zeta. destruct (last (parts name [])) as [q|] eqn:Eq; [|apply last_None in Eq; by apply parts_ne in Eq].
  destruct (Ho1 q Eq) as (Hq1 & Hq2 & Hq3). unfold extension. rewrite (file_name_push_plain tmp name q) by done. rewrite decide_False by tauto. cbn [mbind option_bind].
  assert (match (match split_dot q with Some (_ :: _, y) => Some y | _ => None end) with
          | Some e => if decide (lower <$> e = str "graphml") then (rels, graphs ++ [push tmp name]) else (rels, graphs)
          | None => (rels, graphs) end = (rels, graphs)) as ->.
  { destruct (split_dot q) as [[[|x0 x] e]|] eqn:Es; [done| |done]. apply split_dot_eq in Es. rewrite decide_False; [done|]. by apply (Hq3 (x0 :: x)). }
  rewrite decide_False by (by apply plain_last_char).
  destruct (put_ok tmp (place tmp) W name fs) as (fs1 & E1 & G1 & Hw); [done..| |apply Hin; by left|].
  { eapply prefix_free_sub; [|exact Hpf]. intros x Hx. apply elem_of_cons in Hx as [->|Hx]; [by left|]. right. apply elem_of_app. by right. }
  destruct (Hw t) as (fs2 & E2 & G2 & Hf & Ho3). rewrite E1, E2. pose proof (grown_trans _ _ _ _ _ _ G1 G2) as G12. cbn [app] in G12.
  destruct (IH fs2 (name :: W)) as (fs3 & E3 & G3 & Hr); [by apply (grown_dir_exists _ _ _ _ _ G12)|done|done|done|done|done| | |].
  { eapply prefix_free_sub; [|exact Hpf]. intros x Hx. apply elem_of_app in Hx as [Hx|Hx]; [right; apply elem_of_app; by left|].
    apply elem_of_cons in Hx as [->|Hx]; [by left|]. right. apply elem_of_app. by right. }
  { intros s Hs. apply not_elem_of_cons. split; [by intros ->|]. apply Hin. by right. }
  exists fs3. split_and!; [done|by apply (grown_trans _ [name] z.*1 fs fs2 fs3)|]. intros name' t' H. apply elem_of_cons in H as [[= -> ->]|H]; [|by apply Hr].
  apply (grown_read (place tmp) z.*1 fs2); [done|done|done|done|done|]. by apply write_read in E2.
Qed.
Lemma unpack_graphml c t z fs : simple_name c → 0%N ∉ c → dir_exists fs tmp = true → only (place tmp) [] fs → Forall plain z.*1 → Forall (λ s, 0%N ∉ s) z.*1 →
  Forall ordinary z.*1 → NoDup z.*1 → prefix_free (graphml_name c :: z.*1) → graphml_name c ∉ z.*1 →
  ∃ fs', unpack fs tmp ((graphml_name c, t) :: z) [] [] = (fs', Some ([], [push tmp (graphml_name c)])) ∧ grown (place tmp) (graphml_name c :: z.*1) fs fs' ∧
    read_file fs' (push tmp (graphml_name c)) = Some t ∧ ∀ name t, (name, t) ∈ z → read_file fs' (push tmp name) = Some t.
Proof using Htmp.
  intros Hc Hc0 Hd Ho Hp H0 Hor Hnd Hpf Hin. cbn [unpack]. destruct (graphml_plain c Hc) as (Hf0 & Hf1 & Hf2 & Hf3). set (f := graphml_name c) in *.
  assert (0%N ∉ f) as Hz. { intros H. unfold f, graphml_name in H. apply elem_of_app in H as [H|H]; [done|]. revert H. apply (bool_decide_unpack _). vm_compute. exact I. }
  rewrite enclosed_plain by done. cbv zeta. rewrite (file_name_push_plain tmp f f) by (done || by rewrite Hf3).
  destruct (stem_graphml tmp c Htmp Hc) as [_ Ext]. fold f in Ext.
  rewrite decide_False.
  2:{ pose proof (graphml_split c) as Hsp. fold f in Hsp. intros [E|E]; rewrite E in Hsp; vm_compute in Hsp; injection Hsp as Hx Hy; done. }
  rewrite Ext. rewrite decide_True by (vm_compute; reflexivity). cbn [app]. rewrite decide_False by (by apply plain_last_char).
  destruct (put_ok tmp (place tmp) [] f fs) as (fs1 & E1 & G1 & Hw); [done..| |apply not_elem_of_nil|].
  { eapply prefix_free_sub; [|exact Hpf]. intros x Hx. apply elem_of_list_singleton in Hx as ->. by left. }
  destruct (Hw t) as (fs2 & E2 & G2 & Hf & Ho3). rewrite E1, E2. pose proof (grown_trans _ _ _ _ _ _ G1 G2) as G12. cbn [app] in G12.
  destruct (unpack_ordinary z [f] fs2 [] [push tmp f]) as (fs3 & E3 & G3 & Hr); [by apply (grown_dir_exists _ _ _ _ _ G12)|done|done|done|done|done| | |].
  { eapply prefix_free_sub; [|exact Hpf]. intros x Hx. apply elem_of_app in Hx as [Hx|Hx]; [by right|]. apply elem_of_list_singleton in Hx as ->. by left. }
  { intros s Hs. rewrite elem_of_list_singleton. by intros ->. }
  exists fs3. split_and!; [done|by apply (grown_trans _ [f] z.*1 fs fs2 fs3)| |done].
  apply (grown_read (place tmp) z.*1 fs2); [done|done|done|done|done|]. by apply write_read in E2.
Qed.
End Zip.
Lemma read_push_same fs b1 b2 s : b1 ≠ [] → b2 ≠ [] → plain s → place b1 = place b2 → dir_exists fs b1 = true → dir_exists fs b2 = true →
  read_file fs (push b1 s) = read_file fs (push b2 s).
Proof.
  intros H1 H2 Hs Hp D1 D2. unfold read_file. destruct (place b2) as [a d] eqn:E.
  rewrite (locate_push fs b1 a d), (locate_push fs b2 a d) by (done || by apply plain_relative). done.
Qed.
Lemma fmap_fst_zip {A B} (l : list A) (k : list B) : length l = length k → (zip l k).*1 = l.
Proof. intros H. apply fst_zip. lia. Qed.

Lemma zip_round_trip enc dec rel db c g st tmp db2 st0 ow g' :
  storage_ok db (st_files st) → simple_name c → st_corpora st !! c = Some g → portable c g → tidy g →
  Forall (λ s, 0%N ∉ s ∧ ordinary s) (file_names g) → 0%N ∉ c →
  (∀ n name v, n ∈ g → links n name v → is_Some (read_file (st_files st) (push (corpus_files db c) v))) →
  dec (enc g) = Some g' → g' ≡ₚ g →
  tmp ≠ [] → str ".." ∉ parts tmp [] → vacant (st_files st0) (place tmp) → (create_dir_all (st_files st0) tmp).2 = true →
  unrelated (place tmp) (corpus_place db2 c) →
  storage_ok db2 (st_files st0) → may_import db2 st0 c ow →
  ∃ z st2, export_zip db enc st [c] = Some z ∧
    import_all_from_zip db2 dec rel st0 tmp z ow = (st2, Some [c]) ∧
    preserved db (st_files st) c g db2 st2 ∧ vacant (st_files st2) (place tmp) ∧
    (∀ m, m ≠ c → st_corpora st2 !! m = st_corpora st0 !! m).
Proof.
  intros Hst Hc Hg Hport Htidy Hnames Hc0 Hex Hdec Hperm Htmp Hdots Hvac Hmk Hun Hst2 Hmay.
  pose proof Hport as ([Hp Hnd] & Hpf & Hfn). set (f := graphml_name c) in *. set (cf := corpus_files db c) in *.
  set (l := omap (linked_file cf) g). pose proof (linked_names cf g) as Hsub. fold l in Hsub.
  assert (∀ s, s ∈ l.*1 → s ∈ file_names g) as Hin. { intros s Hs. eapply elem_of_submseteq; [exact Hs|]. by apply sublist_submseteq. }
  assert (∃ ts, Forall2 (λ e t, read_file (st_files st) e.2 = Some t) l ts) as [ts Hts].
  { assert (Forall (λ e, is_Some (read_file (st_files st) e.2)) l) as HF.
    { apply Forall_forall. intros [name src] He. apply linked_elem_inv in He as (n & v & Hn & Hl & ->). by apply (Hex n name). }
    clear -HF. induction HF as [|e l [t Ht] _ [ts IH]]; [by exists []|]. exists (t :: ts). by constructor. }
  assert (NoDup l.*1) as Hndl by (by eapply sublist_NoDup).
  assert (f ∉ l.*1) as Hfl. { intros H. by apply Hfn, Hin. }
  assert (export_zip db enc st [c] = Some ((f, enc g) :: zip l.*1 ts)) as Ez.
  { unfold export_zip. cbn [length]. rewrite bool_decide_false by lia. cbn [export_zips]. unfold export_to_zip. rewrite Hg. cbn [mbind option_bind].
    unfold zip_add at 1. rewrite push_nil. rewrite decide_False by apply not_elem_of_nil. cbn [mbind option_bind app]. fold f cf.
    unfold get_linked_files. fold l. destruct (dir_exists (st_files st) cf) eqn:Ed.
    - rewrite (zip_files_spec _ _ _ ts); [done|done|]. cbn. apply NoDup_cons. done.
    - destruct l as [|[name src] l'] eqn:El; [cbn; done|]. exfalso. assert ((name, src) ∈ omap (linked_file cf) g) as He by (fold l; rewrite El; by left).
      apply linked_elem_inv in He as (n & v & Hn & Hl & ->). destruct (Hex n name v Hn Hl) as [t Ht]. pose proof (Htidy _ _ _ Hn Hl) as ->.
      rewrite (read_base _ _ name t) in Ed; [done| | |done].
      + unfold cf, corpus_files. apply push_ne. rewrite corpus_path_push. destruct Hst. by apply push_ne.
      + rewrite Forall_forall in Hp. by apply Hp, (links_name n _ name name). }
  assert ((zip l.*1 ts).*1 = l.*1) as Ezn. { apply fmap_fst_zip. rewrite fmap_length. by apply Forall2_length in Hts. }
  unfold import_all_from_zip. destruct (create_dir_all (st_files st0) tmp) as [fs0 ok] eqn:E0. cbn in Hmk. subst ok.
  destruct (new_directory _ _ _ Hdots Hvac E0) as (Hde & Ho & Hext & Hins).
  destruct (unpack_graphml tmp Htmp c (enc g) (zip l.*1 ts) fs0) as (fs1 & E1 & G & Hr & Hfiles).
  { done. } { done. } { done. } { done. }
  { rewrite Ezn. rewrite Forall_forall in *. intros s Hs. by apply Hp, Hin. }
  { rewrite Ezn. rewrite Forall_forall in *. intros s Hs. by apply Hnames, Hin. }
  { rewrite Ezn. rewrite Forall_forall in *. intros s Hs. by apply Hnames, Hin. }
  { by rewrite Ezn. }
  { rewrite Ezn. eapply prefix_free_sub; [|exact Hpf]. intros x Hx. apply elem_of_cons in Hx as [->|Hx]; [by left|]. right. by apply Hin. }
  { by rewrite Ezn. }
  exists ((f, enc g) :: zip l.*1 ts). fold f in E1, Hr, G. rewrite E1. cbn [fmap list_fmap app].
  assert (∀ p, fs0 !! p = Some Dir → fs1 !! p = Some Dir) as Hdirs by apply G.
  assert (∀ p, inside (corpus_place db2 c) p → fs1 !! p = st_files st0 !! p) as Hin2.
  { intros p Hpi. rewrite (grown_outside _ _ _ _ p G); [|by apply (unrelated_inside _ (corpus_place db2 c))]. apply (Hins (corpus_place db2 c)); [by destruct Hun|done]. }
  assert (dir_exists fs1 tmp = true) as Hde1 by (by apply (dir_exists_mono fs0)).
  destruct (import_back dec rel db2 c tmp fs1 (st_corpora st0) ow g g' (enc g)) as (st2 & E2 & Hg2 & Hm & Hs2 & Hf2); [|done..| |done|done|].
  { destruct Hst2 as (A & B & C). split_and!; [done|done|]. apply (dir_exists_mono (st_files st0)); [|done]. intros p Hpp. by apply Hdirs, Hext. }
  { apply (may_import_mono db2 st0 c ow fs1); [intros p Hpp; by apply Hdirs, Hext|done|done]. }
  cbn [import_each]. fold f in E2, Hf2. rewrite E2. cbn [app].
  assert (unrelated (corpus_place db2 c) (place tmp)) as Hun' by (by destruct Hun).
  exists (Storage (remove_dir_all (st_files st2) tmp) (st_corpora st2)).
  split_and!; [done|done| | |done].
  - split; [by exists g'|]. intros n name v t Hn Hl Ht. cbn [st_files].
    rewrite (remove_outside (st_files st2) tmp).
    2:{ apply (unrelated_inside _ (corpus_place db2 c)); [done|]. destruct Hst2. apply files_inside; [done|]. apply inside_file. }
    apply (Hf2 n name v t); [done|done|]. pose proof (Htidy _ _ _ Hn Hl) as ->.
    destruct (graphml_plain c Hc) as (Hf0 & Hf1 & Hfp & Hf3). destruct (parent_push tmp f Htmp Hf0 Hf1) as [Hq Hqs]. destruct (slash_end _ _ Hq Hqs) as (Hqp & Hqd & _).
    assert (plain name) as Hpn. { rewrite Forall_forall in Hp. by apply Hp, (links_name n _ name name). }
    rewrite (read_push_same fs1 _ tmp); [|done|done|done|done|by rewrite Hqd|done]. apply Hfiles.
    pose proof (linked_elem cf n g name name Hn Hl) as He. fold l in He. apply elem_of_list_lookup in He as [i Hi].
    destruct (Forall2_lookup_l _ _ _ _ _ Hts Hi) as (t' & Ht' & Et). cbn [snd] in Et. change (read_file (st_files st) (push (corpus_files db c) name) = Some t') in Et. rewrite Ht in Et. injection Et as <-.
    apply elem_of_list_lookup. exists i. apply lookup_zip_with_Some. exists name, t. split_and!; [done| |done]. rewrite list_lookup_fmap, Hi. done.
  - intros p Hpi. cbn [st_files]. apply remove_inside; [|done]. rewrite (same_dir_exists (corpus_place db2 c) fs1); [done|done|].
    apply never_intro; [done|]. destruct Hun as [_ H]. done.
Qed.
