(** Proofs about importing corpora with linked files. *)
From Coq Require Import NArith String.
From stdpp Require Import base list gmap.
From Verif Require Import KeySer Types Percent PercentProofs CompPath CompPathSpec CompPathProofs CorpusDir CorpusDirProofs Service LinkedFiles LinkedFilesSpec
  LinkedFilesProofs LinkedFilesCopy.

(** * Copying to a directory that contains only what has been copied *)
Definition only (D : path) (W : list bytes) (fs : files) : Prop :=
  ∀ r, r ≠ [] → fs !! (D.1, D.2 ++ r) = None ∨
    (∃ s t, s ∈ W ∧ r = parts s [] ∧ fs !! (D.1, D.2 ++ r) = Some (File t)) ∨
    (∃ s, s ∈ W ∧ r `prefix_of` parts s [] ∧ r ≠ parts s [] ∧ fs !! (D.1, D.2 ++ r) = Some Dir).
Lemma only_file D W fs r t : only D W fs → r ≠ [] → fs !! (D.1, D.2 ++ r) = Some (File t) → ∃ s, s ∈ W ∧ r = parts s [].
Proof. intros H Hr E. destruct (H r Hr) as [F|[(s & t' & F & G & _)|(s & _ & _ & _ & F)]]; [congruence|by exists s|congruence]. Qed.
Lemma only_dir D W fs r : only D W fs → r ≠ [] → fs !! (D.1, D.2 ++ r) = Some Dir → ∃ s, s ∈ W ∧ r `prefix_of` parts s [] ∧ r ≠ parts s [].
Proof. intros H Hr E. destruct (H r Hr) as [F|[(s & t' & _ & _ & F)|(s & F1 & F2 & F3 & _)]]; [congruence|congruence|by exists s]. Qed.

Lemma mkdirs_ok fs a acc ps : (∀ k t, 0 < k ≤ length ps → fs !! (a, reverse (fold_left (step a) (take k ps) acc)) ≠ Some (File t)) →
  ∃ fs', mkdirs fs a acc ps = (fs', true).
Proof.
  revert fs acc. induction ps as [|p ps IH]; intros fs acc H; cbn [mkdirs]; [by exists fs|].
  assert (∀ k t, 0 < k ≤ length ps → fs !! (a, reverse (fold_left (step a) (take k ps) (step a acc p))) ≠ Some (File t)) as H1.
  { intros k t Hk. apply (H (S k) t). cbn. lia. }
  destruct (is_dir fs _) eqn:E; [by apply IH|].
  destruct (fs !! (a, reverse (step a acc p))) as [[|t]|] eqn:El.
  - unfold is_dir in E. rewrite bool_decide_eq_false in E. tauto.
  - destruct (H 1 t); [cbn; lia|]. cbn [take fold_left]. by rewrite take_0.
  - apply IH. intros k t Hk. destruct (decide ((a, reverse (step a acc p)) = (a, reverse (fold_left (step a) (take k ps) (step a acc p))))) as [->|Hne].
    + by rewrite lookup_insert.
    + rewrite lookup_insert_ne by done. by apply H1.
Qed.
Lemma removelast_split s : ∃ y, parts s [] = removelast (parts s []) ++ [y].
Proof. destruct (exists_last (parts_ne s [])) as (l & y & E). exists y. by rewrite E, removelast_last. Qed.
Lemma plain_removelast s : plain s → Forall plain_part (removelast (parts s [])).
Proof. unfold plain. destruct (removelast_split s) as [y E]. rewrite E at 1. intros H. by apply Forall_app in H as [H _]. Qed.

Lemma put_ok base D W s fs : base ≠ [] → plain s → dir_exists fs base = true → place base = D → only D W fs → prefix_free (s :: W) → s ∉ W →
  ∃ fs1, create_parent fs (push base s) = (fs1, true) ∧ grown D [] fs fs1 ∧
    ∀ t, ∃ fs2, write_file fs1 (push base s) t = Some fs2 ∧ grown D [s] fs1 fs2 ∧ fs2 !! file_in D s = Some (File t) ∧ only D (s :: W) fs2.
Proof.
  intros Hb Hs Hd HD Ho Hpf Hin. destruct D as [a d]. destruct (removelast_split s) as [y Ey]. pose proof (plain_removelast s Hs) as Hpr.
  set (ps := removelast (parts s [])) in *.
  assert (∀ k, reverse (fold_left (step a) (take k ps) (reverse d)) = d ++ take k ps) as Hf.
  { intros k. rewrite fold_plain by (by apply Forall_take). by rewrite reverse_app, !reverse_involutive. }
  destruct (mkdirs_ok fs a (reverse d) ps) as [fs1 Hm].
  { intros k t Hk. rewrite Hf. intros E. destruct (only_file (a, d) W fs (take k ps) t) as (s' & Hs' & E').
    - done.
    - intros E0. apply (f_equal length) in E0. rewrite take_length in E0. cbn in E0. lia.
    - done.
    - destruct (decide (s' = s)) as [->|Hne]; [done|]. apply (Hpf s' s); [by right|by left|done|]. rewrite <- E', Ey.
      exists (drop k ps ++ [y]). by rewrite app_assoc, take_drop. }
  exists fs1. assert (create_parent fs (push base s) = (fs1, true)) as Hc by (rewrite (create_parent_push fs base a d) by done; done). split; [done|].
  destruct (create_parent_grown _ _ _ _ _ Hb Hs Hd Hc) as [G1 Gs]. rewrite HD in G1, Gs. split; [done|]. intros t.
  assert (only (a, d) (s :: W) fs1 ∧ ∀ t', fs1 !! file_in (a, d) s ≠ Some t') as [Ho1 Hfree].
  { assert (∀ t', fs1 !! file_in (a, d) s = Some t' → False) as Hfree.
    { intros t' E. rewrite Gs in E. destruct t' as [|t'].
      - destruct (only_dir (a, d) W fs (parts s [])) as (s' & A & B & C); [done|apply parts_ne|done|].
        apply (Hpf s s'); [by left|by right|by intros ->|done].
      - destruct (only_file (a, d) W fs (parts s []) t') as (s' & A & B); [done|apply parts_ne|done|].
        pose proof (join_parts_parts s []) as J1. pose proof (join_parts_parts s' []) as J2. rewrite B in J1. cbn in J1, J2. rewrite J1 in J2. apply Hin. by rewrite J2. }
    split; [|intros t' E; by apply (Hfree t')].
    intros r Hr. destruct (mkdirs_effect _ _ _ _ _ _ Hm (a, d ++ r)) as [E|(E1 & E2 & k & Hk & E3)].
    - cbn [fst snd]. rewrite E. destruct (Ho r Hr) as [F|[(s' & t' & F & F' & F'')|(s' & F1 & F2 & F3 & F4)]]; [by left| |].
      + right. left. exists s', t'. split_and!; [by right|done|done].
      + right. right. exists s'. split_and!; [by right|done|done|done].
    - right. right. exists s. rewrite Hf in E3. injection E3 as E3. apply app_inv_head in E3. subst r. split_and!; [by left| | |done].
      + rewrite Ey. exists (drop k ps ++ [y]). by rewrite app_assoc, take_drop.
      + rewrite Ey. intros E. apply (f_equal length) in E. rewrite take_length, app_length in E. cbn in E. lia. }
  assert (write_file fs1 (push base s) t = Some (<[file_in (a, d) s := File t]> fs1)) as Hw.
  { unfold write_file. rewrite (locate_push fs1 base a d); [|done|by apply plain_relative|by apply (grown_dir_exists _ _ _ _ _ G1)|done].
    apply dir_exists_walk in Hd as (acc & Hw1 & Hw2 & Hw3). rewrite HD in Hw3. injection Hw3 as -> ->.
    destruct (mkdirs_walk fs (absolute base) (reverse (reverse acc)) ps fs1) as (acc' & W1 & W2); [by rewrite reverse_involutive|done|].
    rewrite Ey, walk_app, W1. cbn. rewrite W2. apply walk_fold in W1. subst acc'. rewrite fold_plain in * by done.
    assert (plain_part y) as Hy. { unfold plain in Hs. rewrite Ey in Hs. apply Forall_app in Hs as [_ Hs]. by apply List.Forall_cons_iff in Hs as [Hs _]. }
    rewrite step_plain by done. cbn [mbind option_bind]. rewrite reverse_cons, reverse_app, !reverse_involutive, <- app_assoc, <- Ey.
    assert (is_dir fs1 (absolute base, reverse acc ++ parts s []) = false) as ->; [|done].
    unfold is_dir. apply bool_decide_false. cbn [snd]. intros [E|E].
    + apply app_eq_nil in E as [_ E]. by apply parts_ne in E.
    + by apply (Hfree Dir). }
  exists (<[file_in (a, d) s := File t]> fs1). split; [done|]. split; [by destruct (write_grown _ _ _ _ _ Hb Hs Hw) as [G2 _]; rewrite HD in G2|].
  split; [by rewrite lookup_insert|]. intros r Hr. destruct (decide (r = parts s [])) as [->|Hne].
  - right. left. exists s, t. split_and!; [by left|done|]. apply lookup_insert.
  - rewrite lookup_insert_ne by (intros [= E]; by apply app_inv_head in E). by apply Ho1.
Qed.
Lemma prefix_free_sub W W' : W ⊆ W' → prefix_free W' → prefix_free W.
Proof. intros H Hp s s' Hs Hs'. apply Hp; by apply H. Qed.
Lemma copy_put_ok base D W s fs src t : base ≠ [] → plain s → dir_exists fs base = true → place base = D → only D W fs → prefix_free (s :: W) → s ∉ W →
  never_enters D src → read_file fs src = Some t →
  ∃ fs1 fs2, create_parent fs (push base s) = (fs1, true) ∧ copy_file fs1 src (push base s) = Some fs2 ∧ grown D [s] fs fs2 ∧
    fs2 !! file_in D s = Some (File t) ∧ only D (s :: W) fs2.
Proof.
  intros Hb Hs Hd HD Ho Hpf Hin Hn Ht. destruct (put_ok base D W s fs) as (fs1 & E1 & G1 & H); [done..|].
  destruct (H t) as (fs2 & E2 & G2 & Hf & Ho2). exists fs1, fs2. split; [done|].
  assert (read_file fs1 src = Some t) as Ht1 by (rewrite <- Ht; apply (read_outside _ _ D); [intros p; by apply (grown_outside _ [])|done]).
  split; [|split_and!; [by apply (grown_trans D [] [s] fs fs1 fs2)|done|done]].
  unfold copy_file. rewrite Ht1. rewrite decide_False; [done|]. intros E. unfold read_file in Ht1. destruct (locate fs1 src) as [p|] eqn:Ep; [|done].
  symmetry in E. apply locate_file_in in E; [|done|done]. apply (never_place _ _ Hn). rewrite <- (locate_place _ _ _ Ep), E, HD. apply inside_file.
Qed.
Lemma copy_links_ok fs old new g W : new ≠ [] → dir_exists fs new = true → only (place new) W fs → named_well g → prefix_free (file_names g ++ W) →
  (∀ s, s ∈ file_names g → s ∉ W) → (∀ n name v, n ∈ g → links n name v → never_enters (place new) (push old v)) →
  ∃ fs' g', copy_links fs old new g = (fs', Some g').
Proof.
  intros Hne. revert fs W. induction g as [|n g IH]; intros fs W Hd Ho [Hp Hnd] Hpf Hin Hout; cbn [copy_links]; [by eexists _, _|].
  rewrite file_names_cons in *. apply Forall_app in Hp as [Hp1 Hp2]. apply NoDup_app in Hnd as (_ & Hdis & Hnd).
  assert (∃ fs1 n' W', copy_link fs old new n = (fs1, Some n') ∧ dir_exists fs1 new = true ∧ only (place new) W' fs1 ∧
    (W' = W ∨ ∃ s, name_list n = [s] ∧ W' = s :: W)) as (fs1 & n' & W' & E & Hd1 & Ho1 & HW).
  { unfold copy_link. destruct (is_file_node n) eqn:Ef; [|exists fs, n, W; by auto].
    destruct (n !! annis_key "file") as [v|] eqn:Ev; [|exists fs, n, W; by auto].
    destruct (read_file fs (push old v)) as [t|] eqn:Et; [|exists fs, n, W; by auto].
    destruct (n !! annis_key "node_name") as [name|] eqn:En; [|exists fs, n, W; by auto].
    pose proof (is_file_node_links _ _ _ Ef En Ev) as Hl. rewrite (name_list_links _ _ _ Hl) in *. apply List.Forall_cons_iff in Hp1 as [Hp1 _].
    destruct (copy_put_ok new (place new) W name fs (push old v) t) as (fs1 & fs2 & E1 & E2 & G & Hf & Ho2); [done..| | | |done|].
    - eapply prefix_free_sub; [|exact Hpf]. intros x Hx. apply elem_of_cons in Hx as [->|Hx]; [by left|]. apply elem_of_app. by right.
    - apply Hin. by left.
    - by apply (Hout n name); [left|].
    - cbv zeta. rewrite E1, E2, strip_push by done. exists fs2, (<[annis_key "file":=name]> n), (name :: W). split_and!; [done| |done|].
      + by apply (grown_dir_exists _ _ _ _ _ G).
      + right. by exists name. }
  rewrite E. destruct (IH fs1 W') as (fs2 & g2 & E2); [done|done|done| | | |].
  - eapply prefix_free_sub; [|exact Hpf]. intros x Hx. apply elem_of_app in Hx as [Hx|Hx]; [apply elem_of_app; left; apply elem_of_app; by right|].
    destruct HW as [->|(s & Es & ->)]; [apply elem_of_app; by right|]. apply elem_of_cons in Hx as [->|Hx].
    + apply elem_of_app. left. apply elem_of_app. left. rewrite Es. by left.
    + apply elem_of_app. by right.
  - intros s Hs. destruct HW as [->|(s' & Es & ->)].
    + apply Hin. apply elem_of_app. by right.
    + apply not_elem_of_cons. split; [|apply Hin; apply elem_of_app; by right]. intros ->. apply (Hdis s'); [rewrite Es; by left|done].
  - intros m name v Hm. apply Hout. by right.
  - exists fs2, (n' :: g2). by rewrite E2.
Qed.

(** * The directory of a corpus *)
Lemma plain_single s : s ≠ [] → file_name s → plain s ∧ parts s [] = [s].
Proof.
  intros Hne (H1 & H2 & H3). assert (parts s [] = [s]) as E by (by rewrite CompPathProofs.parts_plain by done). split; [|done].
  unfold plain. rewrite E. repeat constructor; done.
Qed.
Lemma escaped_plain c : name_ok c → plain (escaped_corpus_name c) ∧ parts (escaped_corpus_name c) [] = [escaped_corpus_name c].
Proof. intros (H1 & H2 & H3 & H4). destruct (escaped_file_name c) as [Hf Hne]; [done..|]. by apply plain_single. Qed.
Lemma files_plain : plain (str "files") ∧ parts (str "files") [] = [str "files"].
Proof. apply plain_single; [done|]. split; [|done]. apply (bool_decide_unpack _). vm_compute. exact I. Qed.
Lemma push_nil s : push [] s = s.
Proof. destruct s as [|b s]; [done|]. cbn [push]. by destruct (decide _). Qed.
Lemma corpus_path_push db c : corpus_path db c = push db (escaped_corpus_name c).
Proof. unfold corpus_path, corpus_directory_on_disk. by rewrite push_nil. Qed.
Lemma push_ne p s : p ≠ [] → push p s ≠ [].
Proof. apply ServiceProofs.push_ne. Qed.
Section Dir.
Context (db c : bytes) (Hdb : db ≠ []) (Hc : name_ok c).
Lemma corpus_place_eq : corpus_place db c = ((place db).1, (place db).2 ++ [escaped_corpus_name c]).
Proof using Hdb Hc.
  destruct (escaped_plain c Hc) as [H1 H2]. unfold corpus_place. rewrite corpus_path_push, place_push by done. unfold file_in. by rewrite H2.
Qed.
Lemma files_place_eq : files_place db c = ((corpus_place db c).1, (corpus_place db c).2 ++ [str "files"]).
Proof using Hdb.
  destruct files_plain as [H1 H2]. unfold files_place, corpus_files, corpus_place. rewrite place_push; [|rewrite corpus_path_push; by apply push_ne|done].
  unfold file_in. by rewrite H2.
Qed.
Lemma files_inside p : inside (files_place db c) p → inside (corpus_place db c) p.
Proof using Hdb. intros [r ->]. rewrite files_place_eq. cbn [fst snd]. exists (str "files" :: r). by rewrite <- app_assoc. Qed.
Lemma step_len a acc p : p ≠ str ".." → length acc ≤ length (step a acc p).
Proof.
  intros Hp. destruct (decide (real p)) as [Hr|Hr]; [|by rewrite step_skip]. rewrite step_plain by (destruct Hr; done). cbn. lia.
Qed.
Lemma fold_len a ps acc : str ".." ∉ ps → length acc ≤ length (fold_left (step a) ps acc).
Proof.
  revert acc. induction ps as [|p ps IH]; intros acc H; cbn [fold_left]; [done|]. apply not_elem_of_cons in H as [H1 H2].
  etrans; [|by apply IH]. by apply step_len.
Qed.
Lemma db_never : str ".." ∉ parts db [] → never_enters (corpus_place db c) db.
Proof using Hdb Hc.
  intros Hd k [r E]. rewrite corpus_place_eq in E. cbn [fst snd] in E. apply (f_equal (λ p : bool * list bytes, length p.2)) in E. cbn [snd] in E. unfold place in E. cbn [snd] in E.
  rewrite !app_length, !reverse_length in E. cbn in E. rewrite <- (take_drop k (parts db [])) in E at 2. rewrite fold_left_app in E.
  pose proof (fold_len (absolute db) (drop k (parts db [])) (fold_left (step (absolute db)) (take k (parts db [])) [])) as H.
  assert (str ".." ∉ drop k (parts db [])) as Hk. { intros H'. apply Hd. rewrite <- (take_drop k (parts db [])). apply elem_of_app. by right. }
  specialize (H Hk). lia.
Qed.
End Dir.

(** * Import *)
Definition same_outside (P : path) (fs fs' : files) : Prop := ∀ p, ¬ inside P p → fs' !! p = fs !! p.
Lemma same_trans P fs1 fs2 fs3 : same_outside P fs1 fs2 → same_outside P fs2 fs3 → same_outside P fs1 fs3.
Proof. intros H1 H2 p Hp. by rewrite H2, H1. Qed.
Lemma same_dir_exists P fs fs' s : same_outside P fs fs' → never_enters P s → dir_exists fs' s = dir_exists fs s.
Proof.
  intros Hs Hn. unfold dir_exists. rewrite (locate_outside fs fs' P) by done. destruct (locate fs s) as [p|] eqn:E; [|done].
  unfold is_dir. rewrite Hs; [done|]. rewrite (locate_place _ _ _ E). by apply never_place.
Qed.
Lemma same_exists_path P fs fs' s : same_outside P fs fs' → never_enters P s → exists_path fs' s = exists_path fs s.
Proof.
  intros Hs Hn. unfold exists_path. rewrite (locate_outside fs fs' P) by done. destruct (locate fs s) as [p|] eqn:E; [|done].
  unfold is_dir. rewrite Hs; [done|]. rewrite (locate_place _ _ _ E). by apply never_place.
Qed.
Lemma below_inside dir p : below dir p = true ↔ inside dir p.
Proof. apply ServiceProofs.below_spec. Qed.
Lemma remove_outside fs s : same_outside (place s) fs (remove_dir_all fs s).
Proof.
  intros p Hp. unfold remove_dir_all. destruct (locate fs s) as [q|] eqn:E; [|done]. apply locate_place in E as ->.
  destruct (fs !! p) as [x|] eqn:Ep.
  - apply map_filter_lookup_Some. split; [done|]. cbn [fst]. destruct (below (place s) p) eqn:Eb; [|done]. by apply below_inside in Eb.
  - apply map_filter_lookup_None. by left.
Qed.
Lemma remove_inside fs s p : dir_exists fs s = true → inside (place s) p → remove_dir_all fs s !! p = None.
Proof.
  intros Hd Hp. unfold remove_dir_all. unfold dir_exists in Hd. destruct (locate fs s) as [q|] eqn:E; [|done]. apply locate_place in E as ->.
  apply map_filter_lookup_None. right. intros x _. cbn [fst]. apply below_inside in Hp. by rewrite Hp.
Qed.
Lemma never_files db c s : db ≠ [] → never_enters (corpus_place db c) s → never_enters (files_place db c) s.
Proof. intros Hd H k Hi. apply (H k). by apply files_inside. Qed.

Section Import.
Context (db c : bytes) (st : storage).
Context (Hst : storage_ok db (st_files st)) (Hc : name_ok c).
Let P := corpus_place db c.
Let F := files_place db c.
Lemma mk_corpus fs : same_outside P (st_files st) fs → same_outside P fs (create_dir_all fs (corpus_path db c)).1 ∧
  (∀ p, (create_dir_all fs (corpus_path db c)).1 !! p = fs !! p ∨ (p = P ∧ (create_dir_all fs (corpus_path db c)).1 !! p = Some Dir)).
Proof using Hst Hc.
  intros Hs. destruct Hst as (H1 & H2 & H3). destruct (escaped_plain c Hc) as [E1 E2]. rewrite corpus_path_push.
  destruct (place db) as [a d] eqn:Ep. assert (dir_exists fs db = true) as Hd. { rewrite (same_dir_exists P (st_files st)); [done|done|]. by apply db_never. }
  rewrite (create_dir_all_push fs db a d) by done. rewrite E2. destruct (mkdirs fs a (reverse d) _) as [fs' ok] eqn:E. cbn [fst].
  assert (∀ p, fs' !! p = fs !! p ∨ (p = P ∧ fs' !! p = Some Dir)) as He.
  { intros p. destruct (mkdirs_effect _ _ _ _ _ _ E p) as [|(_ & Hpd & k & Hk & Epp)]; [by left|]. right. split; [|done].
    unfold P. rewrite corpus_place_eq by done. rewrite Ep. cbn [fst snd]. cbn in Hk. assert (k = 1) as -> by lia. cbn [take] in Epp.
    rewrite fold_plain in Epp by (by rewrite <- E2). rewrite reverse_app, reverse_involutive in Epp. done. }
  split; [|done]. intros p Hp. destruct (He p) as [|[-> _]]; [done|]. exfalso. apply Hp. exists []. rewrite app_nil_r. by destruct P.
Qed.
Lemma mk_files fs fs' ok : same_outside P (st_files st) fs → create_dir_all fs (corpus_files db c) = (fs', ok) →
  same_outside P fs fs' ∧ (ok = true → dir_exists fs' (corpus_files db c) = true) ∧
  (∀ p, fs' !! p = fs !! p ∨ (fs !! p = None ∧ fs' !! p = Some Dir ∧ (p = P ∨ p = F))) ∧
  ((∀ t, fs !! P ≠ Some (File t)) → (∀ t, fs !! F ≠ Some (File t)) → ok = true).
Proof using Hst Hc.
  intros Hs E. destruct Hst as (H1 & H2 & H3). destruct (escaped_plain c Hc) as [E1 E2]. destruct files_plain as [F1 F2].
  destruct (place db) as [a d] eqn:Ep. assert (dir_exists fs db = true) as Hd. { rewrite (same_dir_exists P (st_files st)); [done|done|]. by apply db_never. }
  pose proof E as E0. unfold corpus_files, create_dir_all in E. rewrite corpus_path_push in E.
  rewrite components_push in E; [|by apply push_ne|by apply plain_relative].
  rewrite components_push in E; [|done|by apply plain_relative].
  rewrite !absolute_push in E; [|done|by apply plain_relative|by apply push_ne|by apply plain_relative].
  unfold components_of at 2 3 in E. rewrite E2, F2, !filter_plain, <- app_assoc in E.
  2:{ by rewrite <- F2. } 2:{ by rewrite <- E2. }
  rewrite (mkdirs_push fs db a d) in E by done. cbn [app] in E.
  assert (P = (a, d ++ [escaped_corpus_name c])) as EP. { unfold P. rewrite corpus_place_eq by done. by rewrite Ep. }
  assert (F = (a, d ++ [escaped_corpus_name c; str "files"])) as EF.
  { unfold F. rewrite files_place_eq by done. fold P. rewrite EP. cbn [fst snd]. by rewrite <- app_assoc. }
  assert (Forall plain_part [escaped_corpus_name c; str "files"]) as Hpl. { constructor; [by rewrite <- E2 in *; unfold plain in E1; rewrite E2 in E1; apply List.Forall_cons_iff in E1 as [E1 _]|]. by rewrite <- F2. }
  assert (∀ k, 0 < k ≤ 2 → (a, reverse (fold_left (step a) (take k [escaped_corpus_name c; str "files"]) (reverse d))) = P ∨
    (a, reverse (fold_left (step a) (take k [escaped_corpus_name c; str "files"]) (reverse d))) = F) as Hk.
  { intros k Hk. rewrite fold_plain by (by apply Forall_take). rewrite reverse_app, !reverse_involutive, EP, EF.
    assert (k = 1 ∨ k = 2) as [->| ->] by lia; [by left|by right]. }
  assert (∀ p, fs' !! p = fs !! p ∨ (fs !! p = None ∧ fs' !! p = Some Dir ∧ (p = P ∨ p = F))) as He.
  { intros p. destruct (mkdirs_effect _ _ _ _ _ _ E p) as [|(A & B & k & Hk' & ->)]; [by left|]. right. split_and!; [done|done|]. apply Hk. cbn in Hk'. lia. }
  split_and!.
  - intros p Hp. destruct (He p) as [|(_ & _ & [->| ->])]; [done|exfalso; apply Hp..].
    + exists []. rewrite app_nil_r. by destruct P.
    + apply (files_inside db c H1). exists []. rewrite app_nil_r. fold F. by destruct F.
  - intros ->. by apply create_dir_all_ok in E0.
  - done.
  - intros HP HF. destruct (mkdirs_ok fs a (reverse d) [escaped_corpus_name c; str "files"]) as [fs2 Hm].
    + intros k t Hk'. destruct (Hk k) as [->| ->]; [cbn in Hk'; lia|done|done].
    + rewrite Hm in E. by injection E as _ <-.
Qed.

Definition cleared (ow : bool) : files :=
  if ow && dir_exists (st_files st) (corpus_path db c) then remove_dir_all (st_files st) (corpus_path db c) else st_files st.
Lemma cleared_same ow : same_outside P (st_files st) (cleared ow).
Proof. unfold cleared. destruct (_ && _); [|done]. unfold P, corpus_place. apply remove_outside. Qed.

Lemma import_graph_contained path ow g st' r : Forall plain (file_names g) → import_graph db st path c ow g = (st', r) →
  same_outside P (st_files st) (st_files st') ∧ ∀ m, m ≠ c → st_corpora st' !! m = st_corpora st !! m.
Proof using Hst Hc.
  intros Hp. unfold import_graph. cbv zeta. destruct (negb ow && _); [by intros [= <- _]|]. fold (cleared ow).
  pose proof (cleared_same ow) as S1. set (fs1 := cleared ow) in *. destruct (mk_corpus fs1 S1) as [S2 D2].
  set (fs2 := (create_dir_all fs1 (corpus_path db c)).1) in *. destruct (create_dir_all fs2 (corpus_files db c)) as [fs3 ok] eqn:E3.
  pose proof (same_trans _ _ _ _ S1 S2) as S12. destruct (mk_files fs2 fs3 ok S12 E3) as (S3 & D3 & _ & _).
  pose proof (same_trans _ _ _ _ S12 S3) as S123.
  set (cs := if ow then delete c (st_corpora st) else st_corpora st).
  assert (∀ m, m ≠ c → cs !! m = st_corpora st !! m) as Hcs. { intros m Hm. unfold cs. destruct ow; [|done]. by rewrite lookup_delete_ne. }
  destruct ok; [|intros [= <- _]; by split].
  unfold copy_linked_files_and_update_references. destruct (exists_path fs3 _); [|intros [= <- _]; by split].
  destruct (copy_links fs3 _ (corpus_files db c) g) as [fs4 r4] eqn:E4.
  assert (same_outside P (st_files st) fs4) as S4.
  { eapply same_trans; [exact S123|]. intros p Hpp. destruct Hst as (H1 & _ & _). eapply grown_outside.
    - eapply copy_links_grown; [|by apply D3|done|exact E4]. unfold corpus_files. apply push_ne. rewrite corpus_path_push. by apply push_ne.
    - intros Hi. apply Hpp. apply files_inside; [done|]. exact Hi. }
  destruct r4 as [g'|]; intros [= <- _]; (split; [done|]); [|done]. intros m Hm. cbn [st_corpora]. by rewrite lookup_insert_ne by congruence; apply Hcs.
Qed.
Lemma import_graph_spec path ow g st' r : named_well g →
  (∀ n name v, n ∈ g → links n name v → never_enters P (push (base_of path) v)) → import_graph db st path c ow g = (st', Some r) →
  r = c ∧ ∃ g', st_corpora st' !! c = Some g' ∧ Forall2 (imported (st_files st) (st_files st') (base_of path) F) g g'.
Proof using Hst Hc.
  intros Hp Hout. unfold import_graph. cbv zeta. destruct (negb ow && _); [done|]. fold (cleared ow) (base_of path).
  pose proof (cleared_same ow) as S1. set (fs1 := cleared ow) in *. destruct (mk_corpus fs1 S1) as [S2 D2].
  set (fs2 := (create_dir_all fs1 (corpus_path db c)).1) in *. destruct (create_dir_all fs2 (corpus_files db c)) as [fs3 ok] eqn:E3.
  pose proof (same_trans _ _ _ _ S1 S2) as S12. destruct (mk_files fs2 fs3 ok S12 E3) as (S3 & D3 & _ & _).
  pose proof (same_trans _ _ _ _ S12 S3) as S123. destruct ok; [|done].
  unfold copy_linked_files_and_update_references. destruct (exists_path fs3 _); [|done].
  destruct (copy_links fs3 _ (corpus_files db c) g) as [fs4 r4] eqn:E4. destruct r4 as [g'|]; [|done]. intros [= <- <-]. split; [done|].
  exists g'. cbn [st_corpora st_files]. split; [by rewrite lookup_insert|]. destruct Hst as (H1 & _ & _).
  assert (corpus_files db c ≠ []) as Hne. { unfold corpus_files. apply push_ne. rewrite corpus_path_push. by apply push_ne. }
  assert (Forall2 (imported fs3 fs4 (base_of path) F) g g') as HF.
  { apply (copy_links_spec fs3 (base_of path) (corpus_files db c)); [done|by apply D3|done| |done].
    intros n name v Hn Hl. apply (never_files db c); [done|]. by apply (Hout n name). }
  eapply Forall2_impl_in; [exact HF|]. intros x y Hx. apply imported_outside. intros name v Hl. apply (read_outside _ _ P); [done|]. by apply (Hout x name).
Qed.
Lemma import_graph_ok path ow g : named_well g → prefix_free (file_names g) →
  (∀ n name v, n ∈ g → links n name v → never_enters P (push (base_of path) v)) →
  never_enters P (base_of path) → dir_exists (st_files st) (base_of path) = true →
  may_import db st c ow →
  ∃ st', import_graph db st path c ow g = (st', Some c).
Proof using Hst Hc.
  intros Hp Hpf Hout Hold Hde Hmay. unfold import_graph. cbv zeta.
  assert (P.2 ≠ []) as HPne. { destruct Hst as (? & _ & _). unfold P. rewrite corpus_place_eq by done. cbn [snd]. by destruct (place db).2. }
  assert (negb ow && (bool_decide (is_Some (st_corpora st !! c)) || dir_exists (st_files st) (corpus_path db c)) = false) as ->.
  { destruct ow; [done|]. destruct Hmay as [[? _]|[[?|Hn] Hv]]; [done|done|]. rewrite Hn. cbn [negb andb orb]. rewrite bool_decide_false by (by intros []). cbn [orb]. unfold dir_exists. destruct (locate _ _) as [p|] eqn:E; [|done].
    apply locate_place in E as ->. apply bool_decide_false. intros [E|E]; [by apply HPne|]. rewrite Hv in E; [done|]. exists []. rewrite app_nil_r.
    unfold corpus_place. by destruct (place _). }
  fold (cleared ow) (base_of path).
  pose proof (cleared_same ow) as S1. pose proof Hst as (H1 & H2 & H3).
  assert (∀ p, inside P p → cleared ow !! p = None) as Hnone.
  { intros p Hi. unfold cleared. destruct (ow && _) eqn:Eo.
    - apply andb_true_iff in Eo as [_ Eo]. by apply remove_inside.
    - destruct Hmay as [[-> Hd]|[_ Hv]]; [by rewrite Hd in Eo|by apply Hv]. }
  set (fs1 := cleared ow) in *. destruct (mk_corpus fs1 S1) as [S2 D2].
  set (fs2 := (create_dir_all fs1 (corpus_path db c)).1) in *. destruct (create_dir_all fs2 (corpus_files db c)) as [fs3 ok] eqn:E3.
  pose proof (same_trans _ _ _ _ S1 S2) as S12. destruct (mk_files fs2 fs3 ok S12 E3) as (S3 & D3 & He & Hok).
  pose proof (same_trans _ _ _ _ S12 S3) as S123.
  assert (F = (P.1, P.2 ++ [str "files"])) as EF by (by apply files_place_eq).
  assert (∀ r, inside P (F.1, F.2 ++ r)) as HFP. { intros r. rewrite EF. exists (str "files" :: r). cbn [fst snd]. by rewrite <- app_assoc. }
  assert (∀ r, (F.1, F.2 ++ r) ≠ P) as HFne.
  { intros r E. apply (f_equal (λ p : bool * list bytes, length p.2)) in E. rewrite EF in E. cbn [snd] in E. rewrite !app_length in E. cbn in E. lia. }
  assert (∀ p, inside P p → p ≠ P → fs2 !! p = None) as Hnone2. { intros p Hi Hne. destruct (D2 p) as [->|[? _]]; [by apply Hnone|done]. }
  rewrite Hok.
  2:{ intros t E. destruct (D2 P) as [E'|[_ E']]; rewrite E in E'; [|done]. rewrite Hnone in E'; [done|]. exists []. rewrite app_nil_r. by destruct P. }
  2:{ intros t E. rewrite (Hnone2 F) in E; [done| |].
      - specialize (HFP []). rewrite app_nil_r in HFP. by destruct F.
      - specialize (HFne []). rewrite app_nil_r in HFne. by destruct F. }
  unfold copy_linked_files_and_update_references.
  assert (exists_path fs3 (base_of path) = true) as ->.
  { rewrite (same_exists_path P (st_files st)) by done. unfold exists_path, dir_exists in *. destruct (locate _ _); [|done]. by rewrite Hde. }
  destruct (copy_links_ok fs3 (base_of path) (corpus_files db c) g []) as (fs4 & g4 & E4).
  - unfold corpus_files. apply push_ne. rewrite corpus_path_push. by apply push_ne.
  - apply D3. apply Hok.
    + intros t E. destruct (D2 P) as [E'|[_ E']]; rewrite E in E'; [|done]. rewrite Hnone in E'; [done|]. exists []. rewrite app_nil_r. by destruct P.
    + intros t E. rewrite (Hnone2 F) in E; [done| |].
      * specialize (HFP []). rewrite app_nil_r in HFP. by destruct F.
      * specialize (HFne []). rewrite app_nil_r in HFne. by destruct F.
  - intros r Hr. left. change (place (corpus_files db c)) with F. destruct (He (F.1, F.2 ++ r)) as [->|(_ & _ & [E|E])].
    + by apply Hnone2.
    + by apply HFne in E.
    + exfalso. apply (f_equal (λ p : bool * list bytes, length p.2)) in E. cbn [snd] in E. rewrite app_length in E. destruct r; [done|]. cbn in E. lia.
  - done.
  - by rewrite app_nil_r.
  - intros s _. apply not_elem_of_nil.
  - intros n name v Hn Hl. apply never_files; [done|]. by apply (Hout n name).
  - rewrite E4. by eexists.
Qed.
End Import.
