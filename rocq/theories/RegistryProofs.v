From stdpp Require Import base list gmap fin_maps fin_sets sorting.
From Coq Require Import NArith Lia.
From Verif Require Import KeySer KeySerSpec SortedMap Types SymbolTable AnnoMem AnnoMemProofs AnnoMemQueries Dfs DfsProofs GraphSpec
  Adjacency AdjacencySpec AdjacencyProofs StatsProofs CopyProofs Search ListExtra DiskAdj DiskAdjSpec DiskAdjProofs
  Dense DenseSpec DenseProofs DiskPath DiskPathProofs Linear LinearSpec LinearProofs LinearQueries
  PrePost PrePostSpec PrePostProofs PrePostQueries Registry RegistrySpec.

(** ** Fuel of the statistics *)
Lemma visit_mono f f' out roots : f ≤ f' → ∀ acc r, visit_roots f out roots acc = Some r → visit_roots f' out roots acc = Some r.
Proof.
  intros Hf. induction roots as [|x roots IH]; [done|]. intros acc r. simpl.
  destruct (dfs_loop out 0 usize_max f (dfs_new x)) as [[steps fin]|] eqn:E; [|done].
  rewrite (loop_mono out 0 usize_max f f' _ _ Hf E). destruct acc as [[v d] c]. apply IH.
Qed.
Lemma stats_of_mono f f' out sources targets ne fo fi st : f ≤ f' →
  stats_of f out sources targets ne fo fi = Some st → stats_of f' out sources targets ne fo fi = Some st.
Proof.
  intros Hf. unfold stats_of. destruct (decide _); [done|].
  destruct (visit_roots f out _ _) as [r|] eqn:E; [|done]. by rewrite (visit_mono _ _ _ _ Hf _ _ E).
Qed.

(** ** Shapes *)
Section shape.
Context (G : gset edge) (st : stats) (S : stats_correct G st) (C : cycles_visible G).
Notation E := (edge_rel G).

Lemma stats_acyclic : s_cyclic st = false → acyclic E.
Proof using S C.
  intros Hc x Hx. destruct C as (r & y & Hr & Hry & Hy); [by exists x|]. destruct S as (_ & H & _). by eapply H.
Qed.
Lemma stats_depth a p b : s_cyclic st = false → walk E a p b → length p ≤ s_max_depth st.
Proof using S C.
  intros Hc Hw. destruct p as [|y p]; [simpl; lia|]. pose proof (stats_acyclic Hc) as Hac.
  destruct (reach_root G a Hac) as (r & Hr & q & Hq); [by apply (walk_nodes _ _ _ _ Hw)|].
  destruct S as (_ & _ & _ & _ & _ & _ & H). destruct (H Hc) as [Hd _].
  pose proof (walk_app _ _ _ _ _ _ Hq Hw) as Hw'. specialize (Hd r _ b Hr (proj2 (acyclic_simple _ _ _ _ Hac) Hw')).
  rewrite app_length in Hd. lia.
Qed.
Lemma stats_one_child : s_max_fan_out st ≤ 1 → one_child G.
Proof using S.
  intros Hf x a b Ha Hb. destruct S as (_ & _ & _ & _ & H & _). specialize (H x).
  destruct (decide (a = b)) as [|Hab]; [done|]. exfalso.
  assert (2 ≤ fan_out G x); [|lia]. unfold fan_out.
  assert (size ({[Edge x a]} ∪ {[Edge x b]} : gset edge) = 2) as <-.
  { rewrite size_union, !size_singleton; [done|]. apply disjoint_singleton_l. rewrite elem_of_singleton. congruence. }
  apply subseteq_size. intros e. rewrite elem_of_union, !elem_of_singleton, elem_of_filter. by intros [-> | ->].
Qed.
Lemma stats_forest : s_rooted_tree st = true → s_cyclic st = false ∧ forest G.
Proof using S C.
  intros Ht. destruct S as (_ & _ & H & _). apply H in Ht as [Hc Hop]. split; [done|]. split; [done|]. by apply stats_acyclic.
Qed.
End shape.

Section paths.
Context (G : gset edge).
Notation E := (edge_rel G).
Lemma strict_path_length a p b : acyclic E → walk E a p b → p ≠ [] → length p < size (all_nodes G).
Proof.
  intros Hac Hw Hp. pose proof (acyclic_nodup _ _ _ _ Hac Hw) as Hnd.
  assert (length (a :: p) ≤ size (all_nodes G)); [|simpl in *; lia].
  apply nodup_size; [done|]. intros x [->|Hx]%elem_of_cons; [by apply (walk_nodes _ _ _ _ Hw)|by eapply walk_all_nodes].
Qed.
Lemma root_path_end : one_parent G → ∀ p r b r' p', is_root G r → is_root G r' → walk E r p b → walk E r' p' b →
  r :: p = r' :: p'.
Proof.
  intros Hop p. induction p as [|c p IH] using rev_ind; intros r b r' p' Hr Hr' Hw Hw'.
  - simpl in Hw. subst b. destruct p' as [|c' p' _] using rev_ind; [by simpl in Hw'; subst r'|].
    exfalso. apply walk_app_inv in Hw' as (t & _ & Ht & Htr). simpl in Htr. subst c'. apply (proj2 Hr). by exists t.
  - destruct p' as [|c' p' _] using rev_ind.
    + exfalso. simpl in Hw'. subst b. apply walk_app_inv in Hw as (t & _ & Ht & Htr). simpl in Htr. subst c.
      apply (proj2 Hr'). by exists t.
    + apply walk_app_inv in Hw as (t & Hw & Ht & Hb). apply walk_app_inv in Hw' as (t' & Hw' & Ht' & Hb').
      simpl in Hb, Hb'. subst c c'. assert (t = t') as <- by by eapply Hop.
      injection (IH r t r' p' Hr Hr' Hw Hw') as -> ->. done.
Qed.
Lemma root_paths_count P : one_parent G → NoDup P → (∀ q, q ∈ P → root_path G q) → length P ≤ size (all_nodes G).
Proof.
  intros Hop Hnd Hq. rewrite <- (fmap_length (λ q, default 0%N (last q))). apply nodup_size.
  - apply NoDup_fmap_inj_on; [done|]. intros q1 q2 H1 H2 He.
    destruct (Hq _ H1) as (r1 & p1 & b1 & Hr1 & Hw1 & ->). destruct (Hq _ H2) as (r2 & p2 & b2 & Hr2 & Hw2 & ->).
    rewrite (walk_last _ _ _ _ Hw1), (walk_last _ _ _ _ Hw2) in He. simpl in He. subst b2.
    by apply (root_path_end Hop _ _ b1).
  - intros x (q & -> & H1)%elem_of_list_fmap. destruct (Hq _ H1) as (r & p & b & Hr & Hw & ->).
    rewrite (walk_last _ _ _ _ Hw). simpl. destruct p as [|y p].
    + simpl in Hw. subst b. destruct Hr as [[z Hz] _]. by apply (all_nodes_edge _ _ _ Hz).
    + by apply (walk_nodes _ _ _ _ Hw).
Qed.
End paths.

(** ** Fitting of the chosen implementations *)
Section fit.
Context (G : gset edge) (st : stats) (S : stats_correct G st) (C : cycles_visible G).
Context (Hsize : (N.of_nat (size (all_nodes G)) <= usize_max)%N).
Context (Hpaths : ∀ P : list (list N), NoDup P → (∀ q, q ∈ P → root_path G q) → (2 * N.of_nat (length P) <= usize_max)%N).
Notation E := (edge_rel G).

Lemma fit_linear pmax : s_rooted_tree st = true → s_max_fan_out st ≤ 1 → linear_by_size st = ILinear pmax → fits_linear pmax G.
Proof using S C Hsize.
  intros Ht Hf Hl. destruct (stats_forest _ _ S C Ht) as [Hc Hfo].
  split; [split; [by eapply stats_one_child|done]|]. split; [done|].
  intros a p b Hw. pose proof (stats_depth _ _ S C a p b Hc Hw) as Hd.
  unfold linear_by_size in Hl. unfold u8_max, u16_max, u32_max, u64_max in Hl.
  destruct (N.ltb_spec (N.of_nat (s_max_depth st)) 255);
  destruct (N.ltb_spec (N.of_nat (s_max_depth st)) 65535);
  destruct (N.ltb_spec (N.of_nat (s_max_depth st)) 4294967295);
  injection Hl as <-; try lia.
  destruct p as [|y p]; [done|].
  assert (length (y :: p) < size (all_nodes G)) as Hlt by (apply (strict_path_length G a _ b); [apply Hfo|done|done]).
  unfold usize_max in Hsize. lia.
Qed.

Lemma fit_prepost_gen omax lmax : acyclic E → s_cyclic st = false →
  (lmax = u64_max ∨ (lmax < u64_max ∧ N.of_nat (s_max_depth st) <= lmax))%N →
  (omax = u64_max ∨ (one_parent G ∧ 2 * N.of_nat (s_nodes st) <= omax))%N → fits_prepost omax lmax G.
Proof using S C Hsize Hpaths.
  intros Hac Hc Hl Ho. split_and!; [done|done|unfold u64_max in Hl; unfold usize_max; lia| |].
  - intros a p b Hw. destruct Hl as [-> |[_ Hl]].
    + pose proof (acyclic_path_length _ _ _ _ Hac Hw). unfold usize_max in Hsize. unfold u64_max. lia.
    + pose proof (stats_depth _ _ S C a p b Hc Hw). lia.
  - intros P Hnd HP. destruct Ho as [-> |[Hop Ho]].
    + by apply Hpaths.
    + pose proof (root_paths_count G P Hop Hnd HP) as Hn. destruct S as (_ & _ & _ & Hns & _). lia.
Qed.
Lemma fit_prepost omax lmax : s_cyclic st = false → prepost_by_size st = IPrePost omax lmax → fits_prepost omax lmax G.
Proof using S C Hsize Hpaths.
  intros Hc Hi. pose proof (stats_acyclic _ _ S C Hc) as Hac. unfold prepost_by_size in Hi.
  assert (s_rooted_tree st = true → one_parent G) as Hop by (intros Ht; by destruct (stats_forest _ _ S C Ht) as [_ [? _]]).
  change (u16_max / 2)%N with 32767%N in Hi. change (u32_max / 2)%N with 2147483647%N in Hi.
  unfold u8_max, u16_max, u32_max in Hi.
  destruct (N.ltb_spec (N.of_nat (s_nodes st)) 32767); destruct (N.ltb_spec (N.of_nat (s_nodes st)) 2147483647);
  destruct (N.ltb_spec (N.of_nat (s_max_depth st)) 255); destruct (N.ltb_spec (N.of_nat (s_max_depth st)) 4294967295);
  destruct (s_rooted_tree st); injection Hi as <- <-; apply fit_prepost_gen; try done; unfold u64_max;
  first [left; reflexivity | right; split; [by apply Hop|lia] | right; lia].
Qed.
Lemma fit_disk_path : s_cyclic st = false → s_max_fan_out st = 1 → s_max_depth st ≤ 15 → fits_disk_path G.
Proof using S C Hsize Hpaths.
  intros Hc Hf Hd. split; [apply (stats_one_child _ _ S); lia|]. intros a p b [Hw _].
  pose proof (stats_depth _ _ S C a p b Hc Hw). lia.
Qed.
End fit.

(** ** The number of annotations *)
Lemma anno_count sources out annos g es : holds sources out annos g → NoDup es → (∀ e, e ∈ es → e ∈ gr_edges g) →
  sum_list_with (λ e, length (annos e)) es ≤ size (gr_annos g).
Proof.
  intros H Hes Hsub. set (L := es ≫= λ e, (λ a : anno_key * bytes, (e, a.1)) <$> annos e).
  assert (sum_list_with (λ e, length (annos e)) es = length L) as ->.
  { subst L. clear Hes Hsub. induction es as [|e l IH]; [done|].
    rewrite bind_cons, app_length, fmap_length, <- IH. done. }
  rewrite <- (size_dom (gr_annos g)).
  assert (NoDup L ∧ ∀ x, x ∈ L → x ∈ dom (gr_annos g)) as [Hnd Hin].
  { split.
    - subst L. apply NoDup_bind_ext.
      + done.
      + intros e _. pose proof (h_annos_nd _ _ _ _ H e) as Hn.
        assert (((λ a : anno_key * bytes, (e, a.1)) <$> annos e) = pair e <$> (annos e).*1) as ->.
        { by rewrite <- list_fmap_compose. }
        apply NoDup_fmap_2; [|done]. intros ? ? [=]. done.
      + intros e1 e2 x _ _ (a & -> & _)%elem_of_list_fmap (b & Hb & _)%elem_of_list_fmap. congruence.
    - intros x (e & (a & -> & Ha)%elem_of_list_fmap & He)%elem_of_list_bind. apply elem_of_dom.
      exists a.2. apply (h_annos _ _ _ _ H e a.1 a.2 (Hsub e He)). by destruct a. }
  rewrite <- (size_list_to_set (C := gset _) L) by done. apply subseteq_size. intros x Hx%elem_of_list_to_set. by apply Hin.
Qed.
Lemma anno_count_edges sources out annos g : holds sources out annos g → (N.of_nat (size (gr_annos g)) <= usize_max)%N →
  (N.of_nat (sum_list_with (λ e, length (annos e)) (elements (gr_edges g))) <= usize_max)%N.
Proof.
  intros H Hn. pose proof (anno_count _ _ _ _ (elements (gr_edges g)) H (NoDup_elements _) ltac:(intros e; apply elem_of_elements)). lia.
Qed.
Lemma anno_count_sources sources out annos g : holds sources out annos g → (N.of_nat (size (gr_annos g)) <= usize_max)%N →
  (N.of_nat (sum_list_with (λ e, length (annos e)) (sources ≫= λ x, (λ y, Edge x y) <$> out x)) <= usize_max)%N.
Proof.
  intros H Hn.
  enough (sum_list_with (λ e, length (annos e)) (sources ≫= λ x, (λ y, Edge x y) <$> out x) ≤ size (gr_annos g)) by lia.
  apply (anno_count _ _ _ _ _ H).
  - apply NoDup_bind_ext.
    + apply H.
    + intros x _. apply NoDup_fmap_2; [|apply H]. intros ? ? [=]. done.
    + intros x1 x2 e _ _ (a & -> & _)%elem_of_list_fmap (b & Hb & _)%elem_of_list_fmap. congruence.
  - intros e (x & (y & -> & Hy)%elem_of_list_fmap & _)%elem_of_list_bind. by apply (h_out _ _ _ _ H).
Qed.

(** ** The invariant *)
Definition annos_ok (a : am edge) (g : graph) : Prop := ∃ leak, inv edge_compare a leak (gr_annos g).
Definition stats_ok (o : option stats) (g : graph) : Prop := ∀ st, o = Some st → stats_correct (gr_edges g) st.
Definition clean (g : graph) : Prop :=
  (∀ x, Edge x x ∉ gr_edges g) ∧ (∀ e k, is_Some (gr_annos g !! (e, k)) → e ∈ gr_edges g) ∧ small_ids (gr_edges g).
Definition gs_inv (c : gs) (g : graph) : Prop :=
  match c with
  | GAdj s => ginv s g
  | GDiskAdj d => ∃ s, sim d s (gr_edges g) ∧ ginv s g
  | GDense s =>
      (∀ x, NoDup (da_out s x) ∧ ∀ y, y ∈ da_out s x ↔ Edge x y ∈ gr_edges g) ∧
      (∀ y, NoDup (da_in s y) ∧ ∀ x, x ∈ da_in s y ↔ Edge x y ∈ gr_edges g) ∧ annos_ok (da_annos s) g ∧ stats_ok (da_stats s) g
  | GDiskPath s => dp_good (gr_edges g) s ∧ fits_disk_path (gr_edges g) ∧ annos_ok (t_annos s) g ∧ stats_ok (t_stats s) g
  | GLinear p s => lin_ok s (gr_edges g) ∧ fits_linear p (gr_edges g) ∧ annos_ok (l_annos s) g ∧ stats_ok (l_stats s) g
  | GPrePost o l s => pp_ok s (gr_edges g) ∧ fits_prepost o l (gr_edges g) ∧ annos_ok (p_annos s) g ∧ stats_ok (p_stats s) g
  end.
Definition writable (c : gs) : Prop := match c with GAdj _ | GDiskAdj _ => True | _ => False end.

Lemma annos_ok_lookup a g e : annos_ok a g →
  NoDup (am_get_annotations a e).*1 ∧ ∀ k b, (k, b) ∈ am_get_annotations a e ↔ gr_annos g !! (e, k) = Some b.
Proof. intros [leak I]. exact (get_annotations_lemma edge_compare _ _ _ e I). Qed.

Lemma shows_holds v g : clean g → shows v g → holds (v_sources v) (v_out v) (v_annos v) g.
Proof.
  intros (Hl & Hd & _) [[? Hs] _ Ho _ Ha]. split; [done|apply Hs|apply Ho|apply Ho|done|apply Ha| |done].
  intros e k b _. apply Ha.
Qed.

Lemma view_lemma c g : clean g → gs_inv c g →
  ∃ v, gs_view c = Some v ∧ shows v g ∧ (¬ writable c → stats_ok (v_stats v) g).
Proof.
  intros (Hloop & Hdom & Hids) I. destruct c as [s|d|s|s|p s|o l s]; simpl in I.
  - destruct (sources_spec _ _ I) as (H1 & H2 & H3 & H4). eexists. split; [reflexivity|]. split; [|intros W; by destruct W].
    split; simpl; [done|done| | |].
    + intros x. split; [apply nsorted_NoDup, (gi_out_sorted _ _ I)|apply (gi_out _ _ I)].
    + intros x. split; [apply nsorted_NoDup, (gi_in_sorted _ _ I)|]. intros y. apply (gi_in _ _ I).
    + intros e. apply annos_ok_lookup, (gi_annos _ _ I).
  - destruct I as (s & Sm & I). eexists. split; [reflexivity|]. split; [|intros W; by destruct W].
    split; simpl; [by eapply dk_sources_lemma|by eapply dk_roots_lemma|by eapply dk_out_lemma|by eapply dk_in_lemma|].
    intros e. rewrite (sim_annos _ _ _ Sm). apply annos_ok_lookup, (gi_annos _ _ I).
  - destruct I as (H1 & H2 & Ha & Hst). eexists. split; [reflexivity|]. split; [|done].
    assert (∀ x, x ∈ da_sources s ↔ is_source (gr_edges g) x) as Hs.
    { intros x. rewrite da_sources_lemma. unfold is_source, edge_rel. f_equiv. intros y. apply H1. }
    split; simpl; [split; [apply da_sources_nodup|done]| |done|done|intros e; by apply annos_ok_lookup].
    split; [apply NoDup_filter, da_sources_nodup|]. intros x. unfold da_roots.
    rewrite elem_of_list_filter, Hs. unfold is_root. rewrite (and_comm (_ = [])). apply and_iff_compat_l.
    destruct (H2 x) as [_ Hin]. destruct (da_in s x) as [|y l].
    + split; [|done]. intros _ [y Hy]. apply Hin in Hy. by apply elem_of_nil in Hy.
    + split; [done|]. intros Hn. exfalso. apply Hn. exists y. apply Hin. by left.
  - destruct I as (H1 & F & Ha & Hst).
    destruct (dp_sources_lemma _ s F H1 Hloop) as (ls & Els & Hls).
    destruct (dp_roots_lemma _ s F H1 Hloop) as (lr & Elr & Hlr).
    { intros x y Hxy. apply (Hids _ _ Hxy). }
    exists (View ls lr (λ x, default [] (dp_out s x)) (dp_in s) (am_get_annotations (t_annos s)) (t_stats s)).
    split; [unfold gs_view; by rewrite Els, Elr|]. split; [|done].
    split; simpl; [done|done| | |intros e; by apply annos_ok_lookup].
    + intros x. destruct (dp_out_lemma _ s F H1 Hloop x) as (l & -> & Hl). exact Hl.
    + intros y. apply (dp_in_lemma _ s H1 y). intros x Hx. apply (Hids _ _ Hx).
  - destruct I as (L & F & Ha & Hst). eexists. split; [reflexivity|]. split; [|done].
    split; simpl; [eapply lin_sources_lemma|eapply lin_roots_lemma|eapply lin_out_lemma|intros y; eapply lin_in_lemma|intros e; by apply annos_ok_lookup]; try done.
  - destruct I as (P & F & Ha & Hst). eexists. split; [reflexivity|]. split; [|done].
    split; simpl; [eapply pp_sources_lemma|eapply pp_roots_spec|eapply pp_out_lemma|intros y; eapply pp_in_lemma|intros e; by apply annos_ok_lookup]; try done.
Qed.

(** ** Conversion *)
Definition fits_impl (i : impl) (largest : option N) (G : gset edge) : Prop :=
  match i with
  | IAdj | IDiskAdj => True
  | IDense => ∃ n, largest = Some n ∧ fits_dense n G
  | IDiskPath => fits_disk_path G
  | ILinear p => fits_linear p G
  | IPrePost o l => fits_prepost o l G
  end.

Lemma gs_copy_ok f i largest v g c : clean g → shows v g → fits_impl i largest (gr_edges g) →
  (i = IAdj ∨ i = IDiskAdj ∨ stats_ok (v_stats v) g) →
  gs_copy f i largest v = Some (c, true) → gs_inv c g ∧ gs_impl c = i.
Proof.
  intros Cl Sh F St Hc. pose proof (shows_holds _ _ Cl Sh) as H. unfold gs_copy in Hc. destruct i as [| | | |p|o l]; simpl in F.
  - destruct (adj_copy _ _ _ _ _) as [s ok] eqn:E. injection Hc as <- ->. split; [|done].
    by apply (copy_lemma _ _ _ _ H _ _ _ _ ginv_new) in E as [? _].
  - destruct (dk_copy _ _ _ _ _) as [s ok] eqn:E. injection Hc as <- ->. split; [|done].
    destruct (dk_copy_lemma _ _ empty_graph _ _ _ _ _ _ sim_new ginv_new H E) as (a & ? & ? & _). by exists a.
  - destruct St as [?|[?|St]]; [done..|]. destruct F as (n & -> & F).
    destruct (da_copy _ _ _ _ _ _) as [[s ok]|] eqn:E; [|done]. injection Hc as <- ->. split; [|done].
    destruct (dense_copy_ok n g (v_stats v) s F) as (H1 & H2 & H3 & H4); [by exists (v_sources v), (v_out v), (v_annos v)|].
    simpl. rewrite H3. done.
  - destruct St as [?|[?|St]]; [done..|].
    destruct (dp_copy _ _ _ _ _ _) as [[s ok]|] eqn:E; [|done]. injection Hc as <- ->. split; [|done].
    destruct (path_copy_ok g (v_stats v) s F) as (H1 & H3 & H4); [by exists f, (v_sources v), (v_out v), (v_annos v)|].
    simpl. rewrite H3. done.
  - destruct St as [?|[?|St]]; [done..|].
    destruct (lin_copy _ _ _ _ _ _ _) as [[s ok]|] eqn:E; [|done]. injection Hc as <- ->. split; [|done].
    destruct (linear_copy_ok p g (v_stats v) s true F) as (H1 & H3 & H4).
    { exists f, (v_sources v), (v_roots v), (v_out v), (v_annos v). destruct (sh_roots _ _ Sh). done. }
    simpl. rewrite H3. split_and!; [done|done|by apply H4|done].
  - destruct St as [?|[?|St]]; [done..|].
    destruct (pp_copy _ _ _ _ _ _ _ _) as [[s ok]|] eqn:E; [|done]. injection Hc as <- ->. split; [|done].
    destruct (prepost_copy_ok o l g (v_stats v) s true F) as (H1 & H3 & H4).
    { exists f, (v_sources v), (v_roots v), (v_out v), (v_annos v). destruct (sh_roots _ _ Sh). done. }
    simpl. rewrite H3. split_and!; [done|done|by apply H4|done].
Qed.

Lemma gs_copy_total i largest v g : clean g → shows v g → fits_impl i largest (gr_edges g) →
  (N.of_nat (size (gr_annos g)) <= usize_max)%N →
  ∃ f0, ∀ f, f0 ≤ f → ∃ c, gs_copy f i largest v = Some (c, true).
Proof.
  intros Cl Sh F Ha. pose proof (shows_holds _ _ Cl Sh) as H.
  pose proof (anno_count_edges _ _ _ _ H Ha) as Hc1. pose proof (anno_count_sources _ _ _ _ H Ha) as Hc2.
  destruct (sh_roots _ _ Sh) as [Hr1 Hr2]. destruct i as [| | | |p|o l]; simpl in F.
  - exists 0. intros f _. cbn [gs_copy]. destruct (adj_copy _ _ _ _ _) as [s ok] eqn:E. exists (GAdj s). repeat f_equal.
    unfold adj_copy in E. destruct (fold_left _ _ _) as [s1 ok1] eqn:E1. injection E as <- <-.
    exact (copy_no_error _ _ (adj_clear adj_new) 0 s1 ok1 (conj (le_n 0) (le_n 0)) Hc2 E1).
  - exists 0. intros f _. cbn [gs_copy]. destruct (dk_copy _ _ _ _ _) as [s ok] eqn:E. exists (GDiskAdj s). repeat f_equal.
    destruct (dk_copy_sim _ _ empty_graph _ _ _ _ _ _ sim_new ginv_new E) as (a & g' & Ea & _).
    unfold adj_copy in Ea. destruct (fold_left _ _ _) as [s1 ok1] eqn:E1. injection Ea as <- <-.
    exact (copy_no_error _ _ (adj_clear adj_new) 0 s1 ok1 (conj (le_n 0) (le_n 0)) Hc2 E1).
  - destruct F as (n & -> & F). exists 0. intros f _. cbn [gs_copy].
    destruct (dense_copy_total n g _ _ _ (v_stats v) F H) as (s & ok & -> & Hok). rewrite (Hok Hc1). by exists (GDense s).
  - destruct (dp_copy_lemma g _ _ _ (v_stats v) F H) as (f0 & Hf). exists f0. intros f Hle. cbn [gs_copy].
    destruct (Hf f Hle) as (s & ok & -> & Hok & _). rewrite (Hok Hc1). by exists (GDiskPath s).
  - destruct (linear_copy_total p g _ _ _ _ (v_stats v) F H Hr1 Hr2) as (f0 & Hf). exists f0. intros f Hle. cbn [gs_copy].
    destruct (Hf f Hle) as (s & ok & -> & Hok). rewrite (Hok Hc1). by exists (GLinear p s).
  - destruct (prepost_copy_total o l g _ _ _ _ (v_stats v) F H Hr1 Hr2) as (f0 & Hf). exists f0. intros f Hle. cbn [gs_copy].
    destruct (Hf f Hle) as (s & ok & -> & Hok). rewrite (Hok Hc1). by exists (GPrePost o l s).
Qed.

Section opt.
Context (ge75 : nat → N → bool) (le103 : nat → nat → bool).

(** The implementation that is chosen can hold the component. *)
Lemma optimal_fits disk largest g st : fits_optimize largest g → stats_correct (gr_edges g) st →
  fits_impl (optimal_impl ge75 le103 disk largest st) largest (gr_edges g).
Proof.
  intros [C Hn _ Hp Hl] S. unfold optimal_impl.
  assert (fits_impl (adjacencylist_impl ge75 disk largest st) largest (gr_edges g)) as Hadj.
  { unfold adjacencylist_impl. destruct disk; [done|]. destruct largest as [n|]; [|done].
    destruct (bool_decide (s_max_fan_out st ≤ 1)) eqn:Ef; [|done]. apply bool_decide_eq_true in Ef. simpl.
    destruct (ge75 _ _); [|done]. exists n. split; [done|]. split; [by eapply stats_one_child|]. intros x. by apply Hl. }
  assert (s_cyclic st = false → fits_impl (prepost_by_size st) largest (gr_edges g)) as Hpp.
  { intros Hc. destruct (prepost_by_size st) as [| | | |p|o l] eqn:E.
    1-5: exfalso; unfold prepost_by_size in E; repeat (destruct (_ <? _)%N in E); destruct (s_rooted_tree st); done.
    by apply (fit_prepost _ st S C Hn Hp). }
  destruct (disk && bool_decide (s_max_depth st ≤ max_depth) && bool_decide (s_max_fan_out st = 1) && negb (s_cyclic st)) eqn:E1.
  { apply andb_true_iff in E1 as [E1 Hc%negb_true_iff]. apply andb_true_iff in E1 as [E1 Hf%bool_decide_eq_true].
    apply andb_true_iff in E1 as [_ Hd%bool_decide_eq_true]. simpl. by apply (fit_disk_path _ st S C Hn Hp). }
  destruct (bool_decide (s_max_depth st ≤ 1)); [done|].
  destruct (s_rooted_tree st) eqn:Et.
  - destruct (stats_forest _ _ S C Et) as [Hc _]. destruct (bool_decide (s_max_fan_out st ≤ 1)) eqn:Ef; [|by apply Hpp].
    apply bool_decide_eq_true in Ef. destruct (linear_by_size st) as [| | | |p|o l] eqn:E.
    1-4,6: exfalso; unfold linear_by_size in E; repeat (destruct (_ <? _)%N in E); done.
    by apply (fit_linear _ st S C Hn).
  - destruct (negb (s_cyclic st) && le103 _ _) eqn:E; [|done]. apply andb_true_iff in E as [Hc%negb_true_iff _]. by apply Hpp.
Qed.

Lemma calc_stats_ok f c g c' : clean g → (N.of_nat (size (all_nodes (gr_edges g))) <= usize_max)%N → gs_inv c g →
  gs_calc_stats f c = Some c' → gs_inv c' g ∧ ∀ v, gs_view c' = Some v → stats_ok (v_stats v) g.
Proof.
  intros Cl Hn I Hc. destruct (view_lemma c g Cl I) as (v0 & Ev0 & _ & Hst).
  destruct c as [s|d|s|s|p s|o l s]; simpl in Hc.
  - destruct (calc_stats f s) as [st|] eqn:E; [|done]. injection Hc as <-. split.
    + destruct I as [? ? ? ? ? ? ?]. by split.
    + intros v [= <-]. intros st' [= <-]. destruct (calc_stats_lemma s g I Hn) as (f0 & H).
      destruct (H (f0 `max` f) ltac:(lia)) as (st' & E' & Hc). unfold calc_stats in E, E'.
      apply (stats_of_mono f (f0 `max` f)) in E; [|lia]. rewrite E in E'. by injection E' as <-.
  - destruct I as (s & Sm & I). destruct (dk_calc_stats f d) as [st|] eqn:E; [|done]. injection Hc as <-. split.
    + exists s. split; [|done]. destruct Sm. by split.
    + intros v [= <-]. intros st' [= <-]. destruct (dk_stats_lemma d s g Sm I (proj2 (proj2 Cl)) Hn) as (f0 & H).
      destruct (H (f0 `max` f) ltac:(lia)) as (st' & E' & Hc). unfold dk_calc_stats in E, E'.
      apply (stats_of_mono f (f0 `max` f)) in E; [|lia]. rewrite E in E'. by injection E' as <-.
  - injection Hc as <-. split; [done|]. intros v Hv. rewrite Ev0 in Hv. injection Hv as <-. apply Hst. intros [].
  - injection Hc as <-. split; [done|]. intros v Hv. rewrite Ev0 in Hv. injection Hv as <-. apply Hst. intros [].
  - injection Hc as <-. split; [done|]. intros v Hv. rewrite Ev0 in Hv. injection Hv as <-. apply Hst. intros [].
  - injection Hc as <-. split; [done|]. intros v Hv. rewrite Ev0 in Hv. injection Hv as <-. apply Hst. intros [].
Qed.
Lemma calc_stats_total c g : clean g → (N.of_nat (size (all_nodes (gr_edges g))) <= usize_max)%N → gs_inv c g →
  ∃ f0, ∀ f, f0 ≤ f → ∃ c', gs_calc_stats f c = Some c'.
Proof.
  intros Cl Hn I. destruct c as [s|d|s|s|p s|o l s]; [| |exists 0; intros f _; by eexists..].
  - destruct (calc_stats_lemma s g I Hn) as (f0 & H). exists f0. intros f Hf. destruct (H f Hf) as (st & E & _).
    simpl. rewrite E. by eexists.
  - destruct I as (s & Sm & I). destruct (dk_stats_lemma d s g Sm I (proj2 (proj2 Cl)) Hn) as (f0 & H). exists f0. intros f Hf.
    destruct (H f Hf) as (st & E & _). simpl. rewrite E. by eexists.
Qed.

Lemma optimize_ok f disk largest c g c' ok : clean g → fits_optimize largest g → gs_inv c g →
  optimize ge75 le103 f disk largest c = Some (c', ok) → gs_inv c' g.
Proof.
  intros Cl F I. unfold optimize. destruct (gs_calc_stats f c) as [c1|] eqn:E1; [|done]. simpl.
  destruct (calc_stats_ok f c g c1 Cl (fo_nodes _ _ F) I E1) as [I1 Hst]. clear I E1 c.
  unfold optimize_gs. destruct (view_lemma c1 g Cl I1) as (v & Ev & Sh & _). rewrite Ev. simpl. specialize (Hst v Ev).
  destruct (v_stats v) as [st|] eqn:Est; [|by intros [= <- _]].
  destruct (decide _); [by intros [= <- _]|].
  destruct (gs_copy f _ largest v) as [[c2 ok2]|] eqn:E2; [|done]. simpl. intros [= <- <-]. destruct ok2; [|done].
  apply (gs_copy_ok _ _ _ _ _ _ Cl Sh) in E2; [apply E2| |].
  - apply optimal_fits; [done|]. by apply Hst.
  - right. right. rewrite Est. done.
Qed.
Lemma optimize_total disk largest c g : clean g → fits_optimize largest g → gs_inv c g →
  ∃ f0, ∀ f, f0 ≤ f → ∃ c', optimize ge75 le103 f disk largest c = Some (c', true).
Proof.
  intros Cl F I. destruct (calc_stats_total c g Cl (fo_nodes _ _ F) I) as (f1 & H1).
  destruct (H1 f1 (le_n _)) as (c1 & E1).
  destruct (calc_stats_ok f1 c g c1 Cl (fo_nodes _ _ F) I E1) as [I1 Hst].
  destruct (view_lemma c1 g Cl I1) as (v & Ev & Sh & _). specialize (Hst v Ev).
  assert (∀ f, f1 ≤ f → gs_calc_stats f c = Some c1) as Hm.
  { intros f Hf. destruct c as [s|d|s|s|p s|o l s]; simpl in *; [| |done..].
    - destruct (calc_stats f1 s) as [st|] eqn:E; [|done]. unfold calc_stats in *. by rewrite (stats_of_mono _ _ _ _ _ _ _ _ _ Hf E).
    - destruct (dk_calc_stats f1 d) as [st|] eqn:E; [|done]. unfold dk_calc_stats in *. by rewrite (stats_of_mono _ _ _ _ _ _ _ _ _ Hf E). }
  destruct (v_stats v) as [st|] eqn:Est.
  - destruct (gs_copy_total (optimal_impl ge75 le103 disk largest st) largest v g Cl Sh) as (f2 & H2);
      [by apply optimal_fits, Hst|apply (fo_annos _ _ F)|].
    exists (f1 `max` f2). intros f Hf. unfold optimize. rewrite Hm by lia. simpl. unfold optimize_gs. rewrite Ev. simpl. rewrite Est.
    destruct (decide _); [by eexists|]. destruct (H2 f ltac:(lia)) as (c2 & ->). by exists c2.
  - exists f1. intros f Hf. unfold optimize. rewrite Hm by lia. simpl. unfold optimize_gs. rewrite Ev. simpl. rewrite Est. by eexists.
Qed.

Lemma make_writable_ok f disk c g c' ok : clean g → gs_inv c g → make_writable f disk c = Some (c', ok) →
  gs_inv c' g ∧ (ok = true → writable c').
Proof.
  intros Cl I Hm. destruct (view_lemma c g Cl I) as (v & Ev & Sh & _).
  assert (∀ i, i = (if disk then IDiskAdj else IAdj) → gs_copy f i None v ≫= (λ '(g', ok),
     Some (if (ok : bool) then g' else c, ok)) = Some (c', ok) → gs_inv c' g ∧ (ok = true → writable c')) as Hgen.
  { intros i -> Hc. destruct (gs_copy f _ None v) as [[c2 ok2]|] eqn:E2; [|done]. simpl in Hc.
    destruct ok2; injection Hc as <- <-; [|done].
    apply (gs_copy_ok _ _ _ _ _ _ Cl Sh) in E2; [|by destruct disk|destruct disk; auto].
    destruct E2 as [? Hi]. split; [done|]. intros _. by destruct disk, c2. }
  destruct c as [s|d|s|s|p s|o l s]; unfold make_writable in Hm;
    [injection Hm as <- <-; by split|injection Hm as <- <-; by split|..];
    rewrite Ev in Hm; by eapply Hgen.
Qed.
Lemma make_writable_total disk c g : clean g → gs_inv c g → (N.of_nat (size (gr_annos g)) <= usize_max)%N →
  ∃ f0, ∀ f, f0 ≤ f → ∃ c', make_writable f disk c = Some (c', true).
Proof.
  intros Cl I Ha. destruct (view_lemma c g Cl I) as (v & Ev & Sh & _).
  destruct (gs_copy_total (if disk then IDiskAdj else IAdj) None v g Cl Sh) as (f0 & H); [by destruct disk|done|].
  exists f0. intros f Hf. destruct (H f Hf) as (c' & E).
  destruct c as [s|d|s|s|p s|o l s]; [by eexists|by eexists|..]; exists c'; unfold make_writable; rewrite Ev; simpl; by rewrite E.
Qed.

Lemma graph_step_false g o s s' : adj_step s o = (s', false) → graph_step g o false = g.
Proof. destruct g as [E A], o; simpl; try discriminate. done. Qed.

Lemma clean_step g o ok : op_disk_ids_ok o → clean g → clean (graph_step g o ok).
Proof.
  intros Ho (Hl & Hd & Hi). split_and!.
  - intros x. destruct o as [e|e k b|e|e k|n| |]; simpl.
    + destruct (decide _) as [|Hne]; [done|]. rewrite elem_of_union, elem_of_singleton. intros [<-|?]; [done|by eapply Hl].
    + done.
    + rewrite elem_of_difference. intros [? _]. by eapply Hl.
    + done.
    + rewrite elem_of_filter. intros [_ ?]. by eapply Hl.
    + apply not_elem_of_empty.
    + done.
  - intros e' k'. destruct o as [e|e k b|e|e k|n| |]; simpl.
    + intros H%Hd. destruct (decide _); [done|]. set_solver.
    + destruct ok; simpl; [|apply Hd]. destruct (bool_decide (e ∈ gr_edges g)) eqn:Eb; [|apply Hd].
      apply bool_decide_eq_true in Eb. destruct (decide ((e, k) = (e', k'))) as [[= <- <-]|Hne]; [done|].
      rewrite lookup_insert_ne by done. apply Hd.
    + intros [b Hb]. apply map_filter_lookup_Some in Hb as [Hb Hne]. simpl in Hne.
      apply elem_of_difference. split; [apply (Hd e' k'); by exists b|by rewrite elem_of_singleton].
    + intros [b Hb]. apply lookup_delete_Some in Hb as [_ Hb]. apply (Hd e' k'). by exists b.
    + intros [b Hb]. apply map_filter_lookup_Some in Hb as [Hb Hne]. simpl in Hne.
      apply elem_of_filter. split; [done|]. apply (Hd e' k'). by exists b.
    + intros [b Hb]. by rewrite lookup_empty in Hb.
    + apply Hd.
  - by apply small_step.
Qed.

Lemma update_ok f disk c g o c' ok : clean g → op_disk_ids_ok o → gs_inv c g → update_gs f disk c o = Some (c', ok) →
  let g' := if ok then graph_step g o true else g in clean g' ∧ gs_inv c' g'.
Proof.
  intros Cl Ho I. unfold update_gs. destruct (make_writable f disk c) as [[c1 ok1]|] eqn:E1; [|done]. simpl.
  destruct (make_writable_ok _ _ _ _ _ _ Cl I E1) as [I1 W].
  destruct ok1; [|intros [= <- <-]; done]. specialize (W eq_refl).
  destruct c1 as [s|d|s|s|p s|o' l s]; try done; simpl in I1.
  - destruct (adj_step s o) as [s' ok'] eqn:E. intros [= <- <-]. pose proof (ginv_step _ _ _ _ _ I1 E) as I2.
    destruct ok'; cbv zeta.
    + split; [by apply clean_step|done].
    + rewrite (graph_step_false g o _ _ E) in I2. done.
  - destruct I1 as (s & Sm & I1). destruct (dk_step d o) as [d' ok'] eqn:E. intros [= <- <-].
    destruct (sim_step _ _ _ _ _ _ Sm I1 (proj2 (proj2 Cl)) E) as (s' & Es & Sm'). pose proof (ginv_step _ _ _ _ _ I1 Es) as I2.
    destruct ok'; cbv zeta.
    + split; [by apply clean_step|]. by exists s'.
    + rewrite (graph_step_false g o _ _ Es) in I2, Sm'. split; [done|]. by exists s'.
Qed.
Lemma update_total disk c g o : clean g → gs_inv c g → (N.of_nat (size (gr_annos g)) <= usize_max)%N →
  ∃ f0, ∀ f, f0 ≤ f → ∃ r, update_gs f disk c o = Some r.
Proof.
  intros Cl I Ha. destruct (make_writable_total disk c g Cl I Ha) as (f0 & H). exists f0. intros f Hf.
  destruct (H f Hf) as (c' & E). unfold update_gs. rewrite E. simpl.
  destruct (make_writable_ok _ _ _ _ _ _ Cl I E) as [_ W]. specialize (W eq_refl).
  destruct c' as [s|d|s|s|p s|o' l s]; try done; [destruct (adj_step s o)|destruct (dk_step d o)]; by eexists.
Qed.

Lemma comp_step_ok f c g o c' ok : clean g → op_fits g o → gs_inv c.2 g → comp_step ge75 le103 f c o = Some (c', ok) →
  clean (comp_graph_step g o ok) ∧ gs_inv c'.2 (comp_graph_step g o ok).
Proof.
  intros Cl F I. destruct o as [u| |disk largest]; simpl in *.
  - destruct (update_gs f c.1 c.2 u) as [[c1 ok1]|] eqn:E; [|done]. intros [= <- <-]. by apply (update_ok _ _ _ _ _ _ _ Cl F I E).
  - destruct (gs_calc_stats f c.2) as [c1|] eqn:E; [|done]. intros [= <- <-]. split; [done|]. by apply (calc_stats_ok _ _ _ _ Cl F I E).
  - destruct (optimize ge75 le103 f disk largest c.2) as [[c1 ok1]|] eqn:E; [|done]. intros [= <- <-]. split; [done|].
    by apply (optimize_ok _ _ _ _ _ _ _ Cl F I E).
Qed.
Lemma comp_run_ok f ops : ∀ c g c' oks, clean g → gs_inv c.2 g → comp_run ge75 le103 f c ops = Some (c', oks) →
  history_fits g ops oks → clean (comp_graph g ops oks) ∧ gs_inv c'.2 (comp_graph g ops oks).
Proof.
  induction ops as [|o ops IH]; intros c g c' oks Cl I; simpl.
  - intros [= <- <-] _. done.
  - destruct (comp_step ge75 le103 f c o) as [[c1 ok]|] eqn:E; [|done]. simpl.
    destruct (comp_run ge75 le103 f c1 ops) as [[c2 oks2]|] eqn:E2; [|done]. simpl. intros [= <- <-] [F Fs].
    destruct (comp_step_ok _ _ _ _ _ _ Cl F I E) as [Cl1 I1]. by apply (IH c1 _ c2).
Qed.
Lemma clean_empty : clean empty_graph.
Proof.
  split_and!; simpl; [intros x; apply not_elem_of_empty| |intros a b H; by apply elem_of_empty in H].
  intros e k [v Hv]. by rewrite lookup_empty in Hv.
Qed.
Lemma reached_ok c g : reached ge75 le103 c g → clean g ∧ gs_inv c.2 g.
Proof.
  intros (disk & f & ops & oks & Hr & F & ->). apply (comp_run_ok f ops (comp_new disk) _ c oks clean_empty); [|done|done].
  unfold comp_new. destruct disk; simpl; [exists adj_new; split; [apply sim_new|]|]; apply ginv_new.
Qed.
End opt.
