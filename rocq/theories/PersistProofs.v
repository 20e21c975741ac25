From stdpp Require Import base list gmap fin_maps.
From Coq Require Import NArith Lia.
From Verif Require Import KeySer Types AnnoMem Adjacency GraphUpdate GraphApply Persist PersistSpec.

(** The number of the last change does not matter *)
Definition same (g h : gstate) : Prop := content_of g = content_of h.
Definition osame (x y : option (gstate * lru)) : Prop :=
  match x, y with Some (g, c), Some (h, d) => same g h ∧ c = d | None, None => True | _, _ => False end.
Lemma same_writable g h c : same g h → writable g c = writable h c.
Proof. intros [= _ E]. unfold writable. by rewrite E. Qed.
Lemma same_set g h c x : same g h → same (set_comp g c x) (set_comp h c x).
Proof. intros [= E1 E2]. unfold same, content_of, set_comp. cbn. by rewrite E1, E2. Qed.
Lemma same_annos g h a : same g h → same (set_annos g a) (set_annos h a).
Proof. intros [= E1 E2]. unfold same, content_of, set_annos. cbn. by rewrite E2. Qed.
Lemma same_cached cap g h c n : same g h → cached_id cap g c n = cached_id cap h c n.
Proof. intros [= E1 E2]. unfold cached_id. by rewrite E1. Qed.
Lemma same_on_edge ct cap g h c a b l ty cn f : same g h →
  osame (on_edge ct cap g c a b l ty cn f) (on_edge ct cap h c a b l ty cn f).
Proof.
  intros H. unfold on_edge. rewrite (same_cached cap g h c a H). destruct (cached_id cap h c a) as [i c1].
  rewrite (same_cached cap g h c1 b H). destruct (cached_id cap h c1 b) as [j c2].
  destruct i as [i|]; [|done]. destruct j as [j|]; [|done]. destruct (ct ty) as [k|]; [|done].
  rewrite (same_writable g h _ H). destruct (f _ _) as [x []]; [|done]. split; [|done]. by apply same_set.
Qed.
Lemma same_step ct cap all g h c e : same g h → osame (ev_step ct cap all g c e) (ev_step ct cap all h c e).
Proof.
  intros H. pose proof H as H0. injection H0 as E1 E2.
  destruct e as [n t|n|n ns a v|n ns a|s t l ty cn|s t l ty cn|s t l ty cn ns a v|s t l ty cn ns a]; cbn [ev_step];
    try (by apply same_on_edge).
  - rewrite E1. destruct (am_has_node_name _ _ n); [done|]. unfold new_id. rewrite E1.
    destruct (match am_largest_item (g_node_annos h) with Some i => _ | None => _ end) as [i|]; [|done]. cbn [mbind option_bind].
    destruct (am_insert _ (g_node_annos h) i node_name_key n) as [a1 []]; [|done].
    destruct (am_insert _ a1 i node_type_key t) as [a2 []]; [|done]. split; [|done]. by apply same_annos.
  - rewrite (same_cached cap g h c n H). destruct (cached_id cap h c n) as [[i|] c1]; [|done]. split; [|done].
    rewrite E1. assert (∀ l x y, same x y → same (fold_left (del_node_in i) l x) (fold_left (del_node_in i) l y)) as Hf.
    { induction l as [|k l IH]; intros x y Hxy; [done|]. cbn. apply IH. unfold del_node_in.
      rewrite (same_writable x y k Hxy). by apply same_set. }
    apply Hf. by apply same_annos.
  - rewrite (same_cached cap g h c n H). destruct (cached_id cap h c n) as [[i|] c1]; [|done]. rewrite E1.
    destruct (am_insert _ _ i _ v) as [a' []]; [|done]. split; [|done]. by apply same_annos.
  - rewrite (same_cached cap g h c n H). destruct (cached_id cap h c n) as [[i|] c1]; [|done]. rewrite E1.
    split; [|done]. by apply same_annos.
Qed.
Lemma same_loop ct cap all es : ∀ g h c, same g h →
  match ev_loop ct cap all g c es, ev_loop ct cap all h c es with Some x, Some y => same x y | None, None => True | _, _ => False end.
Proof.
  induction es as [|[id e] es IH]; intros g h c H; cbn [ev_loop]; [done|].
  pose proof (same_step ct cap all g h c e H) as Hs.
  destruct (ev_step ct cap all g c e) as [[g1 c1]|], (ev_step ct cap all h c e) as [[h1 d1]|]; try done.
  destruct Hs as [Hs <-]. cbn [mbind option_bind]. apply IH. exact Hs.
Qed.
Lemma same_update ct a m k k' l g : apply_update ct (GState a m k) l = Some g →
  ∃ g', apply_update ct (GState a m k') l = Some g' ∧ content_of g' = content_of g.
Proof.
  intros Hg. pose proof (same_loop ct 1000 (map_to_list m).*1 l (GState a m k) (GState a m k') [] eq_refl) as H.
  unfold apply_update in *. cbn [g_comps] in *. rewrite Hg in H.
  destruct (ev_loop ct 1000 _ (GState a m k') [] l) as [g'|]; [|done]. by exists g'.
Qed.

(** Directories *)
Definition base (d : cdir) (c : content) : Prop := d_nodes d = Some (Good c.1) ∧ d_gs d = Good <$> c.2.
Definition good (d : cdir) (c : content) : Prop := base d c ∧ d_log d = None.
Definition logged (ct : bytes → option N) (d : cdir) (c : content) : Prop :=
  ∃ c0 l, base d c0 ∧ d_log d = Some l ∧ updates_to ct c0 l c.
Definition loaded (m : mem) (c : content) : Prop := m_annos m = c.1 ∧ m_comps m = Some <$> c.2.
Definition memok (m : mem) (c : content) : Prop :=
  m_annos m = c.1 ∧ ∀ k, match m_comps m !! k with
    | Some (Some g) => c.2 !! k = Some g | Some None => is_Some (c.2 !! k) | None => c.2 !! k = None end.
Lemma loaded_memok m c : loaded m c → memok m c.
Proof.
  intros [H1 H2]. split; [done|]. intros k. rewrite H2, lookup_fmap. by destruct (c.2 !! k).
Qed.
Lemma load_ok s m c d : active s = Some d → d_gs d = Good <$> c.2 → memok m c →
  ∃ m', ensure_loaded_all s m = Some m' ∧ loaded m' c ∧ m_change m' = m_change m.
Proof.
  intros Ha Hd [H1 H2]. unfold ensure_loaded_all. rewrite Ha. cbn [mbind option_bind].
  assert (∀ k o, m_comps m !! k = Some o → ∃ g, load_comp d k o = Some g ∧ c.2 !! k = Some g) as Hl.
  { intros k o Ho. specialize (H2 k). rewrite Ho in H2. destruct o as [g|]; cbn; [by exists g|].
    destruct H2 as [g Hg]. exists g. by rewrite Hd, lookup_fmap, Hg. }
  rewrite decide_True.
  2:{ intros k o Ho. destruct (Hl k o Ho) as (g & -> & _). done. }
  eexists. split; [done|]. split; [|done]. split; [done|]. cbn. apply map_eq. intros k. rewrite map_lookup_imap, lookup_fmap.
  specialize (H2 k). destruct (m_comps m !! k) as [o|] eqn:Ho; cbn.
  - destruct (Hl k o Ho) as (g & -> & Hg). by rewrite Hg.
  - by rewrite H2.
Qed.
Lemma load_loaded s m c d : active s = Some d → loaded m c → ∃ m', ensure_loaded_all s m = Some m' ∧ loaded m' c ∧ m_change m' = m_change m.
Proof.
  intros Ha Hm. pose proof Hm as [H1 H2]. unfold ensure_loaded_all. rewrite Ha. cbn [mbind option_bind].
  assert (∀ k o, m_comps m !! k = Some o → load_comp d k o = o ∧ o ≠ None) as Hl.
  { intros k o Ho. rewrite H2, lookup_fmap in Ho. destruct (c.2 !! k); [|done]. by injection Ho as <-. }
  rewrite decide_True.
  2:{ intros k o Ho. destruct (Hl k o Ho) as [-> ?]. done. }
  eexists. split; [done|]. split; [|done]. split; [done|]. cbn. rewrite <- H2. apply map_eq. intros k. rewrite map_lookup_imap.
  destruct (m_comps m !! k) as [o|] eqn:Ho; cbn; [|done]. by destruct (Hl k o Ho) as [-> _].
Qed.
Lemma loaded_gstate m c : loaded m c → to_gstate m = GState c.1 c.2 (m_change m).
Proof.
  intros [H1 H2]. unfold to_gstate. rewrite H1, H2. f_equal. apply map_eq. intros k. rewrite lookup_omap, lookup_fmap.
  by destruct (c.2 !! k).
Qed.
Lemma of_gstate_loaded g : loaded (of_gstate g) (content_of g).
Proof. done. Qed.

(** Saving *)
Lemma run_app s l l' : run_acts s (l ++ l') = run_acts (run_acts s l) l'.
Proof. apply fold_left_app. Qed.
Definition keeps_backup (a : act) : Prop := match a with AMove | ADrop => False | _ => True end.
Lemma keeps_run l : ∀ s, Forall keeps_backup l → f_backup (run_acts s l) = f_backup s.
Proof.
  induction l as [|a l IH]; intros s H; [done|]. apply Forall_cons in H as [Ha H]. cbn.
  unfold run_acts in IH. rewrite IH by done. by destruct a.
Qed.
Lemma save_keeps m : Forall keeps_backup (save_acts m).
Proof.
  unfold save_acts. apply Forall_app. split; [by repeat constructor|].
  apply Forall_bind. apply Forall_forall. intros [k [g|]] _; by repeat constructor.
Qed.
Definition cur (s : fs) (d : cdir) : Prop := f_current s = Some d.
Lemma save_comps l : ∀ s d, NoDup l.*1 → f_current s = Some d →
  ∃ d', f_current (run_acts s (l ≫= comp_acts)) = Some d' ∧ d_nodes d' = d_nodes d ∧ d_log d' = d_log d ∧
    ∀ k, d_gs d' !! k = match (list_to_map l : gmap comp (option adj)) !! k with Some (Some g) => Some (Good g) | _ => d_gs d !! k end.
Proof.
  induction l as [|[k o] l IH]; intros s d Hnd Hs.
  - exists d. cbn. split_and!; [done..|]. intros k. by rewrite lookup_empty.
  - cbn [fmap list_fmap fst] in Hnd. apply NoDup_cons in Hnd as [Hk Hnd]. cbn [mbind list_bind]. rewrite run_app.
    destruct o as [g|].
    + destruct (IH (run_acts s (comp_acts (k, Some g)))
        (CDir (d_nodes d) (<[k := Good g]> (d_gs d)) (d_log d) (d_nested d)) Hnd) as (d' & E1 & E2 & E3 & E4).
      { cbn. unfold upd_current. cbn. rewrite Hs. cbn. by rewrite !insert_insert. }
      exists d'. split_and!; [done|done|done|]. intros j. rewrite E4. cbn [list_to_map foldr fst snd uncurry d_gs].
      destruct (decide (j = k)) as [->|Hj].
      * rewrite lookup_insert, (not_elem_of_list_to_map_1 (M := gmap comp)) by done. by rewrite lookup_insert.
      * rewrite (lookup_insert_ne (list_to_map l)) by done.
        destruct (list_to_map l !! j) as [[g'|]|]; [done| |]; by rewrite lookup_insert_ne.
    + destruct (IH s d Hnd Hs) as (d' & E1 & E2 & E3 & E4). exists d'. split_and!; [done..|]. intros j. rewrite E4.
      cbn [list_to_map foldr fst snd uncurry]. destruct (decide (j = k)) as [->|Hj].
      * rewrite lookup_insert. by rewrite (not_elem_of_list_to_map_1 (M := gmap comp)) by done.
      * by rewrite lookup_insert_ne.
Qed.
Lemma save_good s m c : f_current s = None → loaded m c →
  ∃ d, f_current (run_acts s (save_acts m)) = Some d ∧ good d c.
Proof.
  intros Hs [H1 H2]. unfold save_acts. rewrite run_app.
  destruct (save_comps (map_to_list (m_comps m))
    (run_acts s [ACreate; ANodes (Torn false); ANodes (Good (m_annos m))])
    (CDir (Some (Good (m_annos m))) ∅ None false)) as (d & E1 & E2 & E3 & E4).
  { apply NoDup_fst_map_to_list. }
  { cbn. by rewrite Hs. }
  exists d. split; [done|]. split; [|done]. split; [by rewrite E2, H1|]. apply map_eq. intros k. rewrite E4.
  rewrite list_to_map_to_list, H2, !lookup_fmap. cbn. by destruct (c.2 !! k).
Qed.

(** The invariant of the histories *)
Definition Inv (ct : bytes → option N) (ph : phase) (s : fs) (om : option mem) (c : content) : Prop :=
  match ph with
  | Saved => f_backup s = None ∧ (∃ d, f_current s = Some d ∧ good d c) ∧ ∀ m, om = Some m → memok m c
  | Logged => (∃ d, active s = Some d ∧ logged ct d c) ∧ ∀ m, om = Some m → f_backup s = None ∧ loaded m c
  | Recovered => f_backup s = None ∧ is_Some (f_current s) ∧ ∃ m, om = Some m ∧ loaded m c
  end.
Lemma updates_det ct c l c1 c2 : updates_to ct c l c1 → updates_to ct c l c2 → c1 = c2.
Proof.
  intros (g1 & k1 & E1 & ->) (g2 & k2 & E2 & ->).
  destruct (same_update _ _ _ _ k2 _ _ E1) as (g' & E' & H). congruence.
Qed.
Lemma base_mem d c : d_gs d = Good <$> c.2 → memok (Mem c.1 (omap listed (d_gs d)) 0) c.
Proof.
  intros Hd. split; [done|]. intros k. cbn. rewrite Hd, lookup_omap, lookup_fmap.
  destruct (c.2 !! k) eqn:E; cbn; [eauto|done].
Qed.
(** Opening a directory without log *)
Lemma open_saved ct s d c : f_backup s = None → f_current s = Some d → good d c →
  ∃ m, do_open ct s = Some (m, []) ∧ memok m c.
Proof.
  intros Hb Hc [[H1 H2] H3]. unfold do_open, active. rewrite Hb, Hc. cbn [mbind option_bind]. rewrite H1, H3.
  rewrite bool_decide_eq_false_2 by (intros [[? ?]|[? ?]]; done). cbn [mbind option_bind].
  eexists. split; [done|]. by apply base_mem.
Qed.
(** Opening a directory with log, or a backup *)
Lemma open_logged ct s d c : active s = Some d → logged ct d c →
  ∃ m acts, do_open ct s = Some (m, acts) ∧ loaded m c ∧
    (f_backup s = None → acts = []) ∧
    (∀ b, f_backup s = Some b → ∃ n, acts = replicate (S n) ANested ++ [ADrop]).
Proof.
  intros Ha (c0 & l & [H1 H2] & Hl & g0 & k0 & E0 & ->). unfold do_open. rewrite Ha. cbn [mbind option_bind]. rewrite H1, Hl.
  rewrite bool_decide_eq_true_2 by (left; eauto).
  destruct (load_ok s (Mem c0.1 (omap listed (d_gs d)) 0) c0 d Ha H2 (base_mem d c0 H2)) as (m1 & -> & Hm1 & _).
  cbn [mbind option_bind]. rewrite (loaded_gstate _ _ Hm1).
  destruct (same_update _ _ _ _ (m_change m1) _ _ E0) as (g' & -> & Hg'). cbn [mbind option_bind].
  eexists _, _. split; [done|]. rewrite <- Hg'. split; [apply of_gstate_loaded|]. split.
  - intros ->. done.
  - intros b ->. by eexists.
Qed.
Lemma nested_run n : ∀ s, f_backup (run_acts s (replicate n ANested)) = f_backup s ∧
  (is_Some (f_current s) ∨ n ≠ 0 → is_Some (f_current (run_acts s (replicate n ANested)))).
Proof.
  induction n as [|n IH]; intros s; [split; [done|]; by intros [?|?]|]. cbn [replicate].
  change (run_acts s (ANested :: replicate n ANested)) with (run_acts (run_act s ANested) (replicate n ANested)).
  destruct (IH (run_act s ANested)) as [E1 E2]. split; [by rewrite E1|]. intros _. apply E2. left. cbn. eauto.
Qed.

Lemma hist_inv ct ph s m c : hist ct ph s m c → Inv ct ph s m c.
Proof.
  induction 1 as [g|ph s m c Hph H IH|s c m acts H IH Ho|s c m acts H IH Ho|s c m acts k H IH Ho Hk|s m c m' H IH Hl
    |s m c l m' acts c' H IH Hu Hc|s m c l m' acts k H IH Hu Hk|ph s m c Hph H IH|s m c k H IH Hk].
  - destruct (save_good (FS None None) (of_gstate g) (content_of g) eq_refl (of_gstate_loaded g)) as (d & E & Hd).
    split_and!.
    + unfold do_persist. by rewrite keeps_run by apply save_keeps.
    + by exists d.
    + intros m [= <-]. apply loaded_memok, of_gstate_loaded.
  - destruct ph; cbn in IH |- *; [|destruct IH as [? ?]; by split|done].
    destruct IH as (H1 & H2 & _). by split.
  - destruct IH as (H1 & (d & H2 & H3) & _). destruct (open_saved ct s d c H1 H2 H3) as (m1 & E1 & Hm).
    rewrite E1 in Ho. injection Ho as <- <-. cbn. split; [done|]. split; [by exists d|]. by intros ? [= <-].
  - destruct IH as [(d & H1 & H2) _]. destruct (open_logged ct s d c H1 H2) as (m1 & a1 & E1 & Hm & Hn & Hb).
    rewrite E1 in Ho. injection Ho as <- <-. destruct (f_backup s) as [b|] eqn:Eb.
    + destruct (Hb b eq_refl) as [n ->]. rewrite run_app. destruct (nested_run (S n) s) as [_ E3].
      cbn. split; [done|]. split; [by apply E3; right|]. by exists m1.
    + rewrite (Hn eq_refl). cbn. split; [done|]. unfold active in H1. rewrite Eb in H1. split; [by rewrite H1|]. by exists m1.
  - destruct IH as [(d & H1 & H2) _]. destruct (open_logged ct s d c H1 H2) as (m1 & a1 & E1 & Hm & Hn & Hb).
    rewrite E1 in Ho. injection Ho as <- <-. destruct (f_backup s) as [b|] eqn:Eb.
    + destruct (Hb b eq_refl) as [n ->]. rewrite app_length, replicate_length in Hk. cbn in Hk.
      rewrite take_app_le by (rewrite replicate_length; lia). rewrite take_replicate.
      destruct (nested_run (k `min` S n) s) as [E2 _]. split; [|done]. exists d. unfold active in *. rewrite E2, Eb in *. done.
    + rewrite (Hn eq_refl) in Hk. cbn in Hk. lia.
  - destruct IH as (H1 & (d & H2 & H3) & H4). cbn. split; [done|]. split; [by exists d|]. intros ? [= <-].
    assert (active s = Some d) as Ha by (unfold active; by rewrite H1).
    destruct (load_ok s m c d Ha (proj2 (proj1 H3)) (H4 m eq_refl)) as (m1 & E1 & Hm & _). rewrite E1 in Hl.
    injection Hl as <-. by apply loaded_memok.
  - destruct IH as (H1 & (d & H2 & H3) & H4). unfold do_update in Hu.
    assert (active s = Some d) as Ha by (unfold active; by rewrite H1).
    destruct (load_ok s m c d Ha (proj2 (proj1 H3)) (H4 m eq_refl)) as (m1 & E1 & Hm & _). rewrite E1 in Hu.
    cbn [mbind option_bind] in Hu. rewrite (loaded_gstate _ _ Hm) in Hu.
    destruct (apply_update ct _ l) as [g|] eqn:Eg; [|done]. cbn [mbind option_bind] in Hu. injection Hu as <- <-.
    assert (c' = content_of g) as ->. { apply (updates_det ct c l); [done|]. by exists g, (m_change m1). }
    cbn. rewrite H2. cbn. split.
    + eexists. split; [unfold active, upd_current; cbn; by rewrite H1|]. exists c, l. destruct H3 as [[H31 H32] _].
      split; [by split|]. split; [done|]. by exists g, (m_change m1).
    + intros ? [= <-]. split; [done|]. apply of_gstate_loaded.
  - destruct IH as (H1 & (d & H2 & H3) & H4). unfold do_update in Hu.
    assert (acts = [ACreate; ALog l]) as ->.
    { destruct (ensure_loaded_all s m) as [m1|]; [|done]. cbn [mbind option_bind] in Hu.
      destruct (apply_update ct _ l) as [g|]; [|done]. cbn [mbind option_bind] in Hu. by injection Hu as <- <-. }
    cbn in Hk. destruct k as [|[|k]]; [| |lia]; cbn; (split; [done|]; split; [|done]); exists d.
    + done.
    + by rewrite H2.
  - (* complete synchronisation *)
    assert (f_backup s = None ∧ loaded m c) as [Hb Hm].
    { destruct ph; [done| |].
      - destruct IH as [_ IH]. by apply IH.
      - destruct IH as (H1 & _ & m1 & [= <-] & H2). done. }
    unfold do_sync. rewrite Hb. rewrite !run_app.
    destruct (save_good (run_acts s [AMove]) m c eq_refl Hm) as (d & E & Hd).
    cbn. split; [done|]. split; [by exists d|]. intros ? [= <-]. by apply loaded_memok.
  - destruct IH as [(d & H1 & H2) H3]. destruct (H3 m eq_refl) as [Hb Hm]. unfold do_sync in *. rewrite Hb in *.
    destruct k as [|k]; [split; [by exists d|done]|]. split; [|done]. exists d. split; [|done].
    cbn [app take]. cbn [app length] in Hk. rewrite app_length in Hk. cbn [length] in Hk.
    rewrite take_app_le by lia.
    change (run_acts s (AMove :: take k (save_acts m))) with (run_acts (run_act s AMove) (take k (save_acts m))).
    unfold active in *. rewrite keeps_run by apply Forall_take, save_keeps. cbn. rewrite Hb in H1. by rewrite H1.
Qed.

Lemma mem_content_ok s m c d : active s = Some d → loaded m c → mem_content s m = Some c.
Proof.
  intros Ha Hm. destruct (load_loaded s m c d Ha Hm) as (m1 & E & H1 & _). unfold mem_content. rewrite E. cbn [mbind option_bind].
  rewrite (loaded_gstate _ _ H1). by destruct c.
Qed.
Lemma memok_content s m c d : active s = Some d → d_gs d = Good <$> c.2 → memok m c → mem_content s m = Some c.
Proof.
  intros Ha Hd Hm. destruct (load_ok s m c d Ha Hd Hm) as (m1 & E & H1 & _). unfold mem_content. rewrite E. cbn [mbind option_bind].
  rewrite (loaded_gstate _ _ H1). by destruct c.
Qed.
Lemma hist_open ct ph s m c : hist ct ph s m c → ph ≠ Recovered → opened_content ct s = Some c.
Proof.
  intros H Hph. apply hist_inv in H. unfold opened_content. destruct ph; [| |done].
  - destruct H as (H1 & (d & H2 & H3) & _). destruct (open_saved ct s d c H1 H2 H3) as (m1 & E1 & Hm). rewrite E1.
    cbn [mbind option_bind run_acts fold_left]. apply (memok_content s m1 c d); [unfold active; by rewrite H1|apply H3|done].
  - destruct H as [(d & H1 & H2) _]. destruct (open_logged ct s d c H1 H2) as (m1 & a1 & E1 & Hm & Hn & Hb). rewrite E1.
    cbn [mbind option_bind]. destruct (f_backup s) as [b|] eqn:Eb.
    + destruct (Hb b eq_refl) as [n ->]. rewrite run_app. destruct (nested_run (S n) s) as [_ [d' Hd']]; [by right|].
      apply (mem_content_ok _ m1 c d'); [|done]. cbn [run_acts fold_left run_act active]. unfold active. cbn. exact Hd'.
    + rewrite (Hn eq_refl). by apply (mem_content_ok _ m1 c d).
Qed.
Lemma hist_mem ct ph s m c : hist ct ph s (Some m) c → mem_content s m = Some c.
Proof.
  intros H%hist_inv. destruct ph; cbn in H.
  - destruct H as (H1 & (d & H2 & H3) & H4). apply (memok_content s m c d); [unfold active; by rewrite H1|apply H3|by apply H4].
  - destruct H as [(d & H1 & H2) H3]. apply (mem_content_ok s m c d H1). by apply H3.
  - destruct H as (H1 & [d H2] & m1 & [= <-] & H3). apply (mem_content_ok s m c d); [|done]. unfold active. by rewrite H1.
Qed.

(** Progress: opening works in every saved or logged state *)
Lemma hist_can_open ct ph s m c : hist ct ph s m c → ph ≠ Recovered → is_Some (do_open ct s).
Proof.
  intros H Hph. pose proof (hist_open ct ph s m c H Hph) as Ho. unfold opened_content in Ho.
  destruct (do_open ct s); [eauto|done].
Qed.
