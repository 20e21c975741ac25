(** Proofs about the path storage *)
From stdpp Require Import base list gmap fin_maps fin_sets sorting.
From Coq Require Import NArith Lia.
From Verif Require Import KeySer KeySerSpec SortedMap Types SymbolTable SymTabIface AnnoMem AnnoMemProofs AnnoMemQueries Dfs DfsProofs GraphSpec
  Adjacency AdjacencySpec AdjacencyProofs CopyProofs ListExtra Linear LinearProofs LinearQueries EdgeAnnoProofs Search DiskPath DenseSpec DenseProofs.

Definition mk (l : list N) : nat * list N := (length l, l ++ replicate (15 - length l) 0%N).
Lemma mk_take l : take (mk l).1 (mk l).2 = l.
Proof. unfold mk. simpl. by rewrite take_app. Qed.

Lemma enum_single nb : (∀ x, nb x = [] ∨ ∃ y : N, nb x = [y]) → ∀ k pre x, 1 ≤ length pre ≤ 15 →
  ∃ l, enum nb 1 15 k pre x = imap (λ i y, (y, length pre + i)) l ∧ length pre + length l ≤ 16.
Proof.
  intros Hnb. induction k as [|k IH]; intros pre x Hpre; [exists []; split; [done|simpl; lia]|]. cbn [enum].
  destruct (decide (x ∈ pre)); [exists []; split; [done|simpl; lia]|].
  replace (in_rng 1 15 (length pre)) with true.
  2: { symmetry. unfold in_rng. apply andb_true_iff. rewrite !N.leb_le. lia. }
  destruct (N.of_nat (length pre) <? 15)%N eqn:E1.
  2: { exists [x]. split; [cbn; by rewrite Nat.add_0_r|simpl; lia]. }
  apply N.ltb_lt in E1. destruct (Hnb x) as [->|[y ->]].
  - exists [x]. split; [cbn; by rewrite Nat.add_0_r|simpl; lia].
  - destruct (IH (pre ++ [x]) y) as (l & El & Hl); [rewrite app_length; simpl; lia|]. rewrite app_length in Hl. simpl in Hl.
    exists (x :: l). split; [|simpl; lia]. change (reverse [y]) with [y]. rewrite bind_cons. cbn [mbind list_bind]. rewrite app_nil_r, El.
    cbn [imap]. rewrite Nat.add_0_r. simpl. f_equal. apply imap_ext. intros i z _. simpl. rewrite app_length. simpl. f_equal. lia.
Qed.

Lemma al_insert_iff l k v k' v' : al_sorted edge_compare l →
  (k', v') ∈ al_insert edge_compare l k v ↔ (k' = k ∧ v' = v) ∨ (k' ≠ k ∧ (k', v') ∈ (l : list (edge * bool))).
Proof.
  intros Hs. rewrite <- (al_get_iff edge_compare) by (by apply (al_insert_sorted edge_compare)). rewrite (al_get_insert edge_compare).
  destruct (edge_compare k' k) eqn:Ec.
  - apply (cmp_eq edge_compare) in Ec as ->. naive_solver.
  - assert (k' ≠ k) by (intros ->; by rewrite (proj2 (cmp_eq edge_compare k k) eq_refl) in Ec). rewrite (al_get_iff edge_compare) by done. naive_solver.
  - assert (k' ≠ k) by (intros ->; by rewrite (proj2 (cmp_eq edge_compare k k) eq_refl) in Ec). rewrite (al_get_iff edge_compare) by done. naive_solver.
Qed.

Section copy.
Context (G : gset edge) (out : N → list N) (annos : edge → list (anno_key * bytes)).
Context (F : fits_disk_path G) (Hnd : ∀ x, NoDup (out x)) (Hout : ∀ x y, y ∈ out x ↔ Edge x y ∈ G).
Notation E := (edge_rel G).

Definition path_of (x : N) (l : list N) : Prop :=
  length l ≤ 15 ∧ ∀ i m, l !! i = Some m ↔ ∃ p, simple_path E x p m ∧ length p = S i.

Lemma dfs_path x : ∃ f0 l, path_of x l ∧ ∀ f, f0 ≤ f → ∃ s',
  dfs_loop out 1 15 f (dfs_new x) = Some (imap (λ i y, (y, S i)) l, s').
Proof using All.
  set (Vs := {[x]} ∪ all_nodes G). set (K := S (size (Vs ∖ list_to_set []))).
  assert (∀ a b, a ∈ Vs → b ∈ out a → b ∈ Vs) as Hcl.
  { intros a b _ Hb%Hout. apply elem_of_union. right. by eapply en_r. }
  assert (x ∈ Vs) as Hx by (apply elem_of_union; left; by apply elem_of_singleton).
  destruct (big_step out 1 15 Vs Hcl K [] x (dfs_new x) []) as (n & s' & L & S' & _).
  { unfold K; lia. } { done. } { constructor. } { done. } { by eapply fits_new. }
  assert (∃ l, enum out 1 15 K [] x = imap (λ i y, (y, S i)) l ∧ length l ≤ 15) as (l & El & Hl).
  { unfold K. cbn [enum]. rewrite decide_False by apply not_elem_of_nil. change (in_rng 1 15 (length [])) with false.
    change (N.of_nat (length []) <? 15)%N with true. cbn [app].
    destruct (out_cases G out (proj1 F) Hnd Hout x) as [->|[y ->]]; [exists []; split; [done|simpl; lia]|].
    change (reverse [y]) with [y]. rewrite bind_cons. cbn [mbind list_bind]. rewrite app_nil_r.
    destruct (enum_single out (out_cases G out (proj1 F) Hnd Hout) (size (Vs ∖ list_to_set [])) [x] y) as (l & El & Hl); [simpl; lia|].
    exists l. split; [exact El|simpl in Hl; lia]. }
  exists n, l. split.
  - split; [done|]. intros i m.
    assert (l !! i = Some m ↔ (m, S i) ∈ enum out 1 15 K [] x) as ->.
    { rewrite El, elem_of_lookup_imap. split; [intros ?; by exists i, m|]. by intros (i' & m' & [= -> ->] & ?). }
    rewrite (enum_spec out 1 15 Vs Hcl K [] x) by (done || unfold K; lia). cbn [length Nat.add]. split.
    + intros (p & Hw & Hn & _ & Hd & _). exists p. split; [|done]. split; [|done].
      eapply walk_ext; [|exact Hw]. intros a b. apply Hout.
    + intros (p & [Hw Hn] & Hd). exists p. split_and!; [|done|intros ? _; apply not_elem_of_nil|done|].
      * eapply walk_ext; [|exact Hw]. intros a b. apply Hout.
      * assert (length p ≤ 15) by (apply (proj2 F x p m); by split).
        unfold in_rng. apply andb_true_iff. rewrite !N.leb_le. lia.
  - intros f Hf. exists s'. rewrite <- El. replace f with (n + (f - n)) by lia. rewrite L.
    destruct (f - n); simpl; rewrite S'; simpl; by rewrite app_nil_r.
Qed.

Lemma steps_fold x : ∀ l prev s, entry s x = mk prev → prev ≠ [] → length prev + length l ≤ 15 →
  ∃ s', fold_left (dp_step annos x) (imap (λ i y, (y, S (length prev) + i)) l) (s, true) = (s', true) ∧
    entry s' x = mk (prev ++ l) ∧ (∀ z, z ≠ x → entry s' z = entry s z) ∧
    t_size s' = t_size s ∧ t_inverse s' = t_inverse s ∧ t_annos s' = t_annos s.
Proof using.
  induction l as [|y l IH]; intros prev s He Hp Hlen.
  - exists s. cbn [imap fold_left]. rewrite app_nil_r. done.
  - cbn [imap fold_left]. rewrite Nat.add_0_r. cbn [length] in Hlen.
    assert (S (length prev) ≠ 1) as Hn1 by (destruct prev; simpl; [done|lia]).
    unfold dp_step at 2. rewrite !decide_False by done. cbn [fst snd].
    set (s1 := DPath _ _ _ _ _). destruct (IH (prev ++ [y]) s1) as (s' & E1 & E2 & E3 & E4 & E5 & E6).
    + unfold entry. simpl. rewrite lookup_insert. simpl. rewrite He. unfold mk. simpl. rewrite app_length. simpl.
      f_equal; [lia|]. rewrite Nat.sub_0_r. rewrite insert_app_r_alt by lia. rewrite Nat.sub_diag.
      destruct (15 - length prev) as [|n] eqn:En; [lia|]. simpl. rewrite <- (assoc_L (++)). simpl. do 3 f_equal. lia.
    + by destruct prev.
    + rewrite app_length. simpl. lia.
    + exists s'. split_and!.
      * rewrite <- E1. f_equal. apply imap_ext. intros i z _. simpl. f_equal. rewrite app_length. simpl. lia.
      * rewrite E2. by rewrite <- (assoc_L (++)).
      * intros z Hz. rewrite E3 by done. unfold entry. simpl. by rewrite lookup_insert_ne.
      * done. * done. * done.
Qed.

Lemma path_one_child x y l : path_of x (y :: l) → Edge x y ∈ G.
Proof using.
  intros [_ Hl]. destruct (proj1 (Hl 0 y) eq_refl) as (p & [Hw _] & Hp). destruct p as [|z [|]]; simplify_eq/=. by destruct Hw as [He ->].
Qed.
Lemma path_nil x y : path_of x [] → x ≠ y → Edge x y ∉ G.
Proof using.
  intros [_ Hl] Hxy He. assert (@nil N !! 0 = Some y) as Hno; [|done]. apply Hl. exists [y]. split; [|done].
  split; [by split|]. apply NoDup_cons. split; [by rewrite elem_of_list_singleton|apply NoDup_singleton].
Qed.

Context (Hloop : ∀ x, Edge x x ∉ G).

Record dp_ok (s : dpath) (D : list N) : Prop := {
  po_paths : ∀ x, ∃ l, entry s x = mk l ∧ length l ≤ 15 ∧ (x ∈ D → path_of x l) ∧ (x ∉ D → l = []);
  po_inv_sorted : al_sorted edge_compare (t_inverse s);
  po_inv : ∀ x y b, (Edge y x, b) ∈ t_inverse s ↔ b = true ∧ x ∈ D ∧ Edge x y ∈ G
}.

Lemma copy_false f xs s : fold_left (dp_copy_node f out annos) xs (Some (s, false)) = Some (s, false).
Proof using. by induction xs. Qed.

Lemma node_lemma x : ∃ f0, ∀ f, f0 ≤ f → ∀ D s, x ∉ D → dp_ok s D →
  ∃ s' ok, dp_copy_node f out annos (Some (s, true)) x = Some (s', ok) ∧ t_size s' = t_size s ∧
    (t_annos s', ok) = fold_left (insert_annos annos) ((λ y, Edge x y) <$> out x) (t_annos s, true) ∧
    (ok = true → dp_ok s' (D ++ [x])).
Proof using All.
  destruct (dfs_path x) as (f0 & l & Hl & Hf). exists f0. intros f Hf0 D s HxD Hs. destruct (Hf f Hf0) as [s0 Hd].
  unfold dp_copy_node. cbn [mbind option_bind]. change (N.of_nat max_depth) with 15%N. rewrite Hd. cbn [mbind option_bind].
  assert (entry s x = mk []) as He0.
  { destruct (po_paths _ _ Hs x) as (l0 & E0 & _ & _ & Hn). by rewrite (Hn HxD) in E0. }
  destruct l as [|y l].
  - cbn [imap fold_left]. exists s, true. split_and!; [done|done| |].
    + destruct (out x) as [|y r] eqn:Eo; [done|]. exfalso.
      assert (Edge x y ∈ G) as He by (apply Hout; rewrite Eo; left). apply (path_nil x y Hl); [|done]. intros ->. by apply (Hloop y).
    + intros _. constructor; [|apply Hs|].
      * intros z. destruct (po_paths _ _ Hs z) as (lz & H1 & H2 & H3 & H4). exists lz. rewrite elem_of_app, elem_of_list_singleton.
        split_and!; [done|done| |tauto]. intros [Hz| ->]; [auto|]. by rewrite (H4 HxD).
      * intros a b c. rewrite (po_inv _ _ Hs), elem_of_app, elem_of_list_singleton. split; [tauto|].
        intros (-> & [Ha| ->] & He); [done|]. exfalso. apply (path_nil x b Hl); [|done]. intros ->. by apply (Hloop b).
  - pose proof (path_one_child x y l Hl) as He.
    assert (out x = [y]) as Eo.
    { apply Hout in He. destruct (out_cases G out (proj1 F) Hnd Hout x) as [Eo|[z Eo]]; rewrite Eo in He |- *; [by apply elem_of_nil in He|].
      by apply elem_of_list_singleton in He as ->. }
    rewrite Eo. cbn [fmap list_fmap fold_left imap]. unfold dp_step at 2. rewrite !decide_True by done.
    destruct (insert_annos annos (t_annos s, true) (Edge x y)) as [a1 ok1] eqn:Ea. cbn [fst snd].
    destruct ok1.
    + set (s1 := DPath _ _ _ _ _).
      assert (entry s1 x = mk [y]) as He1.
      { unfold entry. simpl. rewrite lookup_insert. simpl. rewrite He0. done. }
      destruct (steps_fold x l [y] s1 He1) as (s' & E1 & E2 & E3 & E4 & E5 & E6); [done|destruct Hl as [Hl _]; simpl in *; lia|].
      exists s', true. split_and!.
      * rewrite <- E1. do 2 f_equal.
      * by rewrite E4.
      * by rewrite E6.
      * intros _. constructor.
        -- intros z. setoid_rewrite elem_of_app. setoid_rewrite elem_of_list_singleton. destruct (decide (z = x)) as [->|Hz].
           ++ exists (y :: l). split_and!; [done|apply Hl|done|tauto].
           ++ rewrite E3 by done. unfold entry, s1. simpl. rewrite lookup_insert_ne by done. fold (entry s z).
              destruct (po_paths _ _ Hs z) as (lz & H1 & H2 & H3 & H4). exists lz. split_and!; [done|done|tauto|tauto].
        -- rewrite E5. simpl. apply (al_insert_sorted edge_compare), Hs.
        -- intros a b c. rewrite E5. simpl. rewrite al_insert_iff by apply Hs. rewrite (po_inv _ _ Hs), elem_of_app, elem_of_list_singleton.
           split.
           ++ intros [[[= -> ->] ->]|(Hne & -> & Ha & Hab)]; [tauto|tauto].
           ++ intros (-> & [Ha| ->] & Hab).
              ** right. split_and!; [|done|done|done]. intros [= -> ->]. done.
              ** left. split; [|done]. f_equal. by apply (proj1 F x).
    + set (s1 := DPath _ _ _ _ _). exists s1, false.
      assert (∀ l, fold_left (dp_step annos x) l (s1, false) = (s1, false)) as Hff by (intros l0; by induction l0).
      rewrite Hff. split_and!; [done|done|done|done].
Qed.

Lemma nodes_lemma xs : ∃ f0, ∀ f, f0 ≤ f → ∀ D s, NoDup (D ++ xs) → dp_ok s D →
  ∃ s' ok, fold_left (dp_copy_node f out annos) xs (Some (s, true)) = Some (s', ok) ∧ t_size s' = t_size s ∧
    (t_annos s', ok) = fold_left (insert_annos annos) (xs ≫= λ x, (λ y, Edge x y) <$> out x) (t_annos s, true) ∧
    (ok = true → dp_ok s' (D ++ xs)).
Proof using All.
  induction xs as [|x xs (f1 & IH)].
  - exists 0. intros f _ D s _ Hs. exists s, true. rewrite app_nil_r. done.
  - destruct (node_lemma x) as (f2 & Hx). exists (f1 `max` f2). intros f Hf D s HD Hs.
    replace (D ++ x :: xs) with ((D ++ [x]) ++ xs) in * by (by rewrite <- (assoc_L (++))).
    assert (x ∉ D) as HxD.
    { apply NoDup_app in HD as (HD & _ & _). apply NoDup_app in HD as (_ & HD & _). intros Hin. apply (HD x Hin). by left. }
    destruct (Hx f ltac:(lia) D s HxD Hs) as (s1 & ok1 & E1 & E2 & E3 & E4).
    cbn [fold_left]. rewrite E1, bind_cons, fold_left_app, <- E3. destruct ok1.
    + destruct (IH f ltac:(lia) (D ++ [x]) s1 HD (E4 eq_refl)) as (s' & ok & H1 & H2 & H3 & H4).
      exists s', ok. rewrite H2. done.
    + rewrite copy_false, insert_annos_fold_false. exists s1, false. done.
Qed.
End copy.

Lemma fold_max_ge (l : list N) : ∀ a, (a <= fold_left N.max l a)%N ∧ ∀ x, x ∈ l → (x <= fold_left N.max l a)%N.
Proof.
  induction l as [|y l IH]; intros a; simpl; [split; [lia|by intros x ?%elem_of_nil]|].
  destruct (IH (N.max a y)) as [H1 H2]. split; [lia|]. intros x [->|Hx]%elem_of_cons; [lia|by apply H2].
Qed.
Lemma dp_copy_mono f f' s sources out annos st r : f ≤ f' → dp_copy f s sources out annos st = Some r →
  dp_copy f' s sources out annos st = Some r.
Proof.
  intros Hle. unfold dp_copy. generalize (Some (DPath (fold_left N.max sources 0 + 1)%N ∅ [] (t_annos s) (t_stats s), true)). intros s0. generalize (sort_list N.compare sources). intros l.
  assert (∀ x y, fold_left (dp_copy_node f out annos) l x = Some y → fold_left (dp_copy_node f' out annos) l x = Some y) as Hm.
  { assert (∀ g l, fold_left (dp_copy_node g out annos) l None = None) as Hno by (intros g l0; by induction l0).
    induction l as [|z l IH]; intros x y; [done|]. cbn [fold_left].
    destruct (dp_copy_node f out annos x z) as [r1|] eqn:E; [|by rewrite Hno].
    intros Hy. apply IH. assert (dp_copy_node f' out annos x z = Some r1) as ->; [|done].
    destruct x as [[s1 ok]|]; [|done]. unfold dp_copy_node in *. cbn [mbind option_bind] in *. destruct ok; [|done].
    destruct (dfs_loop out 1 (N.of_nat max_depth) f (dfs_new z)) as [d|] eqn:Ed; [|done].
    by rewrite (loop_mono _ _ _ _ _ _ _ Hle Ed). }
  destruct (fold_left (dp_copy_node f out annos) l s0) as [r1|] eqn:E; [|done]. by rewrite (Hm _ _ E).
Qed.

(** The state after a copy *)
Definition dp_good (G : gset edge) (s : dpath) : Prop :=
  (∀ x, ∃ l, dp_path s x = Some l ∧ path_of G x l) ∧
  (∀ x, entry s x = mk (default [] (dp_path s x))) ∧
  (0 < t_size s)%N ∧ (∀ x, is_source G x → (x < t_size s)%N) ∧
  al_sorted edge_compare (t_inverse s) ∧ ∀ x y b, (Edge y x, b) ∈ t_inverse s ↔ b = true ∧ Edge x y ∈ G.

Lemma dp_copy_lemma g sources out annos st : fits_disk_path (gr_edges g) → holds sources out annos g →
  ∃ f0, ∀ f, f0 ≤ f → ∃ s ok, dp_copy f dp_new sources out annos st = Some (s, ok) ∧
   ((N.of_nat (sum_list_with (λ e, length (annos e)) (elements (gr_edges g))) <= usize_max)%N → ok = true) ∧
   (ok = true → dp_good (gr_edges g) s ∧ t_stats s = st ∧ ∃ leak, inv edge_compare (t_annos s) leak (gr_annos g)).
Proof.
  intros F H. pose proof (sort_list_perm N.compare sources) as Hp. set (xs := sort_list N.compare sources) in *.
  assert (∀ x, ¬ is_source (gr_edges g) x → path_of (gr_edges g) x []) as Hleaf.
  { intros x Hx. split; [simpl; lia|]. intros i m. split; [by rewrite lookup_nil|]. intros (p & [Hw _] & Hl). destruct p as [|y p]; [done|].
    destruct Hx. exists y. apply Hw. }
  destruct (nodes_lemma (gr_edges g) out annos F (h_out_nd _ _ _ _ H) (h_out _ _ _ _ H) (h_loop _ _ _ _ H) xs) as (f0 & Hf).
  exists f0. intros f Hf0. unfold dp_copy. fold xs.
  set (s0 := DPath (fold_left N.max sources 0%N + 1)%N ∅ [] (t_annos dp_new) (t_stats dp_new)).
  destruct (Hf f Hf0 [] s0) as (s & ok & E1 & E2 & E3 & E4).
  { simpl. rewrite Hp. apply H. }
  { constructor.
    - intros x. exists []. split_and!; [done|simpl; lia|by intros ?%elem_of_nil|done].
    - constructor.
    - intros x y b. simpl. split; [by intros ?%elem_of_nil|]. by intros (_ & ?%elem_of_nil & _). }
  rewrite E1. cbn [mbind option_bind]. eexists _, ok. split; [done|]. simpl. change (t_annos s0) with (am_clear (am_new (T := edge))) in E3. split.
  - intros Hsum. symmetry in E3.
    eapply (insert_edges_ok_new annos (gr_annos g) (gr_edges g) (h_annos_nd _ _ _ _ H) (h_annos _ _ _ _ H)); [|exact Hsum|exact E3].
    intros e (x & (y & -> & Hy)%elem_of_list_fmap & _)%elem_of_list_bind. by apply (h_out _ _ _ _ H).
  - intros ->. destruct (E4 eq_refl) as [P1 P2 P3]. simpl in E2.
    assert (∀ x, is_source (gr_edges g) x → x ∈ xs) as Hsrc.
    { intros x Hx. rewrite Hp. by apply (h_sources _ _ _ _ H). }
    assert (∀ x, is_source (gr_edges g) x → (x < t_size s)%N) as Hsz.
    { intros x Hx. rewrite E2. destruct (fold_max_ge sources 0%N) as [_ Hmx]. specialize (Hmx x (h_sources _ _ _ _ H x Hx)). lia. }
    assert (∀ x, ∃ l, entry s x = mk l ∧ path_of (gr_edges g) x l ∧ (¬ is_source (gr_edges g) x → l = [])) as Hent.
    { intros x. destruct (P1 x) as (l & H1 & H2 & H3 & H4). exists l. split; [done|]. simpl in *.
      destruct (decide (x ∈ xs)) as [Hx|Hx].
      - split; [by apply H3|]. intros Hns. destruct l as [|y l]; [done|]. destruct Hns. exists y.
        eapply path_one_child. by apply H3.
      - rewrite (H4 Hx). split; [|done]. apply Hleaf. intros Hs. by apply Hx, Hsrc. }
    assert (∀ x, ∃ l, dp_path (DPath (t_size s) (t_paths s) (t_inverse s) (t_annos s) st) x = Some l ∧ entry s x = mk l ∧ path_of (gr_edges g) x l) as Hpath.
    { intros x. destruct (Hent x) as (l & H1 & H2 & H3). exists l. split; [|done]. unfold dp_path, entry. cbn [t_size t_paths].
      change (default zero_entry (t_paths s !! x)) with (entry s x).
      rewrite decide_False by lia. destruct (_ <? x)%N eqn:Ex.
      - apply N.ltb_lt in Ex. rewrite (H3 ltac:(intros Hs%Hsz; lia)). done.
      - rewrite H1, mk_take. done. }
    split_and!.
    + split_and!.
      * intros x. destruct (Hpath x) as (l & ? & _ & ?). eauto.
      * intros x. destruct (Hpath x) as (l & E & Hx & _). rewrite E. exact Hx.
      * simpl. lia.
      * done.
      * done.
      * intros x y b. rewrite P3. simpl. split; [naive_solver|]. intros [-> He]. split_and!; [done| |done]. apply Hsrc. by exists y.
    + done.
    + symmetry in E3.
      eapply (insert_edges_all annos (gr_annos g) (gr_edges g) (h_annos_nd _ _ _ _ H) (h_annos _ _ _ _ H)); [|apply H| |exact E3].
      * intros [a b]. rewrite elem_of_list_bind. split.
        -- intros (x & (y & [= -> ->] & Hy)%elem_of_list_fmap & _). by apply (h_out _ _ _ _ H).
        -- intros He. exists a. split; [apply elem_of_list_fmap; exists b; split; [done|by apply (h_out _ _ _ _ H)]|].
           apply Hsrc. by exists b.
      * exists 0, ∅. apply AnnoMemProofs.inv_new.
Qed.
Lemma path_copy_ok g st s : fits_disk_path (gr_edges g) → path_copy_of g st s true →
  dp_good (gr_edges g) s ∧ t_stats s = st ∧ ∃ leak, inv edge_compare (t_annos s) leak (gr_annos g).
Proof.
  intros F (f & sources & out & annos & H & Hc). destruct (dp_copy_lemma g sources out annos st F H) as (f0 & Hf).
  destruct (Hf (f `max` f0) ltac:(lia)) as (s' & ok & E & _ & Hok).
  apply (dp_copy_mono _ (f `max` f0)) in Hc; [|lia]. rewrite E in Hc. injection Hc as -> ->. by apply Hok.
Qed.

(** ** Queries *)
Section queries.
Context (G : gset edge) (s : dpath) (F : fits_disk_path G) (P : dp_good G s) (Hloop : ∀ x, Edge x x ∉ G).
Notation E := (edge_rel G).

Lemma path_nodup x l : path_of G x l → NoDup (x :: l).
Proof using F.
  intros [_ Hl]. apply NoDup_cons. split.
  - intros [i Hi]%elem_of_list_lookup. apply Hl in Hi as (p & [Hw Hn] & Hlen).
    pose proof (walk_end _ _ _ _ Hw) as Hend. destruct p as [|z p] using rev_ind; [done|]. rewrite last_snoc in Hend. simpl in Hend. subst z.
    apply NoDup_cons in Hn as [Hn _]. apply Hn, elem_of_app. right. left.
  - apply NoDup_alt. intros i j z Hi Hj. apply Hl in Hi as (p & Hp & Ei). apply Hl in Hj as (q & Hq & Ej).
    assert (p = q) as -> by (eapply one_child_unique; [apply F|done|done]). lia.
Qed.
Lemma dp_out_lemma x : ∃ l, dp_out s x = Some l ∧ NoDup l ∧ ∀ y, y ∈ l ↔ Edge x y ∈ G.
Proof using All.
  destruct P as (P1 & P2 & P3 & P4 & _). destruct (P1 x) as (l & El & Hl). specialize (P2 x). rewrite El in P2. simpl in P2.
  assert (dp_out s x = Some (take 1 l)) as ->.
  { unfold dp_path in El. unfold dp_out. rewrite decide_False in El |- * by lia. destruct (_ <? x)%N; [by injection El as <-|].
    rewrite P2 in El |- *. f_equal. unfold mk. cbn [fst snd]. destruct l; done. }
  eexists. split; [done|]. destruct l as [|y l].
  - split; [constructor|]. intros y. simpl. split; [by intros ?%elem_of_nil|]. intros He.
    exfalso. apply (path_nil G x y Hl); [|done]. intros ->. by apply (Hloop y).
  - simpl. split; [apply NoDup_singleton|]. intros z. rewrite elem_of_list_singleton. pose proof (path_one_child _ _ _ _ Hl) as He.
    split; [by intros ->|]. intros Hz. by apply (proj1 F x).
Qed.
Lemma dp_in_lemma x : (∀ y, Edge y x ∈ G → (y < 18446744073709551615)%N) → NoDup (dp_in s x) ∧ ∀ y, y ∈ dp_in s x ↔ Edge y x ∈ G.
Proof using P.
  intros Hb. destruct P as (_ & _ & _ & _ & P5 & P6). unfold dp_in.
  assert (∀ y b, (y < 18446744073709551615)%N → above edge_compare (Included (Edge x 0)) (Edge b y) && below edge_compare (Excluded (Edge x 18446744073709551615)) (Edge b y) = true ↔ b = x) as Hrng.
  { intros y b Hy. simpl. unfold edge_compare. simpl. split.
    - intros [H1 H2]%andb_true_iff. destruct (N.compare_spec x b), (N.compare_spec b x); subst; try done; lia.
    - intros ->. rewrite N.compare_refl. destruct (N.compare_spec 0 y), (N.compare_spec y 18446744073709551615); subst; try done; try lia. by destruct y. }
  assert (∀ e b, (e, b) ∈ al_range edge_compare (t_inverse s) (Included (Edge x 0)) (Excluded (Edge x 18446744073709551615)) ↔
    b = true ∧ source e = x ∧ Edge (target e) x ∈ G) as Hin.
  { intros [a b] v. unfold al_range. rewrite elem_of_list_filter. cbn [fst]. rewrite P6. simpl source. simpl target. split.
    - intros (Hr & -> & He). destruct (decide (b < 18446744073709551615)%N) as [Hlt|Hge].
      + apply Hrng in Hr as ->; done.
      + simpl in Hr. unfold edge_compare in Hr. simpl in Hr. apply andb_true_iff in Hr as [H1 H2].
        destruct (N.compare_spec x a), (N.compare_spec a x); subst; try done; lia.
    - intros (-> & -> & He). split; [|done]. apply Hrng; [by apply Hb|done]. }
  split.
  - apply NoDup_fmap_inj_on; [apply (al_sorted_NoDup edge_compare), (al_sorted_filter edge_compare), P5|].
    intros e e' ([e1 b1] & -> & H1)%elem_of_list_fmap ([e2 b2] & -> & H2)%elem_of_list_fmap. cbn [fst].
    apply Hin in H1 as (_ & H1 & _). apply Hin in H2 as (_ & H2 & _). destruct e1, e2; simpl in *. congruence.
  - intros y. rewrite elem_of_list_fmap. setoid_rewrite elem_of_list_fmap. split.
    + intros (e & -> & [e1 b1] & -> & H1). apply Hin in H1 as (_ & _ & H1). exact H1.
    + intros He. exists (Edge x y). split; [done|]. exists (Edge x y, true). split; [done|]. by apply Hin.
Qed.
Lemma dp_sources_lemma : ∃ l, dp_sources s = Some l ∧ NoDup l ∧ ∀ x, x ∈ l ↔ is_source G x.
Proof using All.
  destruct P as (P1 & P2 & P3 & P4 & _). unfold dp_sources. rewrite decide_False by lia. eexists. split; [done|].
  split.
  - apply NoDup_filter, NoDup_fmap_inj_on; [apply NoDup_seq|]. intros a b _ _. lia.
  - intros x. rewrite elem_of_list_filter, elem_of_list_fmap. destruct (P1 x) as (l & El & Hl). rewrite (P2 x), El. simpl. split.
    + intros [Hn _]. destruct l as [|y l]; [done|]. exists y. by eapply path_one_child.
    + intros Hs. split.
      * destruct l as [|y l]; [|done]. exfalso. destruct Hs as [y He]. apply (path_nil G x y Hl); [|done]. intros ->. by apply (Hloop y).
      * exists (N.to_nat x). split; [lia|]. apply elem_of_seq. specialize (P4 x Hs). lia.
Qed.
Lemma dp_roots_lemma : (∀ x y, Edge x y ∈ G → (x < 18446744073709551615)%N) →
  ∃ l, dp_roots s = Some l ∧ NoDup l ∧ ∀ x, x ∈ l ↔ is_root G x.
Proof using All.
  intros Hb. destruct dp_sources_lemma as (l & El & Hnd & Hl). unfold dp_roots. rewrite El. eexists. split; [done|].
  split; [by apply NoDup_filter|]. intros x. rewrite elem_of_list_filter, Hl. unfold is_root. rewrite (and_comm (_ = false)). apply and_iff_compat_l.
  destruct (dp_in_lemma x (λ y, Hb y x)) as [_ Hin]. unfold dp_has_in. destruct (dp_in s x) as [|y r].
  - split; [|done]. intros _ [y Hy]. apply Hin in Hy. by apply elem_of_nil in Hy.
  - split; [done|]. intros Hno. destruct Hno. exists y. apply Hin. left.
Qed.

Lemma path_end_spec max len d : max ≠ Excluded 0%N → (N.of_nat d < path_end max len)%N ↔ d < len ∧ in_distance 0 max (S d).
Proof using. intros Hm. unfold path_end, in_distance. destruct max as [m|m|]; [lia| |lia]. assert (m ≠ 0%N) by congruence. lia. Qed.

Lemma dp_find_connected_lemma x min max : max ≠ Excluded 0%N → ∃ l, dp_find_connected s x min max = Some l ∧ NoDup l ∧
  ∀ y, y ∈ l ↔ ∃ p, simple_path E x p y ∧ in_distance min max (length p).
Proof using All.
  intros Hm. destruct P as (P1 & _). destruct (P1 x) as (l & El & Hl). unfold dp_find_connected. rewrite El. cbn [mbind option_bind].
  pose proof (path_nodup x l Hl) as Hnd. apply NoDup_cons in Hnd as [Hx Hnd]. destruct Hl as [Hlen Hl].
  set (rest := if (_ <? _)%N then _ else _).
  assert (∀ y, y ∈ rest ↔ ∃ p, simple_path E x p y ∧ p ≠ [] ∧ in_distance min max (length p)) as Hrest.
  { intros y. trans (∃ i, l !! i = Some y ∧ in_distance min max (S i)).
    - unfold rest. split.
      + destruct (_ <? _)%N eqn:Eb; [|by intros ?%elem_of_nil]. intros (j & Hj & Hy)%elem_of_slice. exists j. split; [done|].
        assert (N.of_nat j < path_end max (length l))%N as Hje by lia. apply path_end_spec in Hje as [_ Hd]; [|done].
        unfold in_distance in *. split; [lia|tauto].
      + intros (j & Hy & Hd). assert (N.of_nat j < path_end max (length l))%N as Hje.
        { apply path_end_spec; [done|]. split; [by eapply lookup_lt_Some|]. unfold in_distance in *. split; [lia|tauto]. }
        assert (min <= N.of_nat (S j))%N by apply Hd. destruct (_ <? _)%N eqn:Eb; [|apply N.ltb_ge in Eb; lia].
        apply elem_of_slice. exists j. split; [lia|done].
    - split.
      + intros (i & Hi & Hd). apply Hl in Hi as (p & Hp & Hpl). exists p. split_and!; [done|by destruct p|by rewrite Hpl].
      + intros (p & Hp & Hne & Hd). destruct p as [|z p]; [done|]. exists (length p). split; [|done]. apply Hl. eauto. }
  assert (NoDup rest) as Hrn. { unfold rest. destruct (_ <? _)%N; [by apply NoDup_slice|constructor]. }
  assert (x ∉ rest) as Hxr.
  { intros (p & Hp & Hne & _)%Hrest. destruct p as [|z p]; [done|]. apply Hx. apply elem_of_list_lookup. exists (length p). apply Hl. eauto. }
  eexists. split; [done|]. split.
  - destruct (decide (min = 0%N)); [|done]. by apply NoDup_cons.
  - intros y. rewrite elem_of_app, Hrest. split.
    + intros [Hy|(p & Hp & _ & Hd)]; [|by exists p]. destruct (decide (min = 0%N)) as [->|]; [|by apply elem_of_nil in Hy].
      apply elem_of_list_singleton in Hy as ->. exists []. split; [by split; [|apply NoDup_singleton]|].
      split; [simpl; lia|]. destruct max; simpl; [lia| |done]. assert (k ≠ 0%N) by congruence. lia.
    + intros (p & Hp & Hd). destruct p as [|z p]; [left|right; by exists (z :: p)]. destruct Hp as [Hp _]. simpl in Hp. subst y.
      destruct Hd as [Hd _]. simpl in Hd. rewrite decide_True by lia. left.
Qed.
Lemma dp_is_connected_lemma x y min max : max ≠ Excluded 0%N → x ≠ y ∨ (1 <= min)%N →
  ∃ b, dp_is_connected s x y min max = Some b ∧
    (b = true ↔ ∃ p, simple_path E x p y ∧ in_distance min max (length p)).
Proof using All.
  intros Hm Hxy. destruct P as (P1 & _). destruct (P1 x) as (l & El & Hl). unfold dp_is_connected. rewrite El. cbn [mbind option_bind].
  eexists. split; [done|]. rewrite bool_decide_eq_true. destruct Hl as [Hlen Hl].
  rewrite elem_of_drop. split.
  - intros (j & Hj & Hy). apply lookup_take_Some in Hy as [Hy Hje]. pose proof Hy as Hlt%lookup_lt_Some.
    apply Hl in Hy as (p & Hp & Hpl). exists p. split; [done|]. rewrite Hpl.
    assert (N.of_nat j < path_end max (length l))%N as Hje' by lia. apply path_end_spec in Hje' as [_ Hd]; [|done].
    unfold in_distance in *. split; [lia|tauto].
  - intros (p & Hp & Hd). destruct p as [|z p].
    { destruct Hp as [Hp _]. simpl in Hp. subst y. destruct Hxy as [|Hmin]; [done|]. destruct Hd as [Hd _]. simpl in Hd. lia. }
    assert (l !! length p = Some y) as Hy by (apply Hl; by exists (z :: p)).
    exists (length p). pose proof Hy as Hlt%lookup_lt_Some.
    assert (N.of_nat (length p) < path_end max (length l))%N as Hje.
    { apply path_end_spec; [done|]. split; [done|]. simpl in Hd. unfold in_distance in *. split; [lia|tauto]. }
    destruct Hd as [Hd _]. simpl in Hd. split; [lia|]. apply lookup_take_Some. split; [done|lia].
Qed.
Lemma position_spec t l : match position t l with
  | Some i => l !! i = Some t ∧ ∀ j, j < i → l !! j ≠ Some t
  | None => t ∉ l end.
Proof using.
  induction l as [|x l IH]; simpl; [apply not_elem_of_nil|]. destruct (decide (x = t)) as [->|Hne].
  - split; [done|]. lia.
  - destruct (position t l) as [i|]; simpl.
    + destruct IH as [H1 H2]. split; [done|]. intros [|j] Hj; simpl; [congruence|]. apply H2. lia.
    + rewrite not_elem_of_cons. done.
Qed.
Lemma dp_distance_lemma x y : x ≠ y → ∃ r, dp_distance s x y = Some r ∧
  match r with Some d => shortest E x y d | None => ¬ reachable E x y end.
Proof using All.
  intros Hxy. destruct P as (P1 & _). destruct (P1 x) as (l & El & Hl). unfold dp_distance. rewrite El. cbn [mbind option_bind].
  eexists. split; [done|]. destruct Hl as [Hlen Hl]. pose proof (position_spec y l) as Hpos. destruct (position y l) as [i|]; simpl.
  - destruct Hpos as [Hi _]. apply Hl in Hi as (p & Hp & Hpl). split; [exists p; split; [apply Hp|done]|].
    intros q Hq. destruct (walk_simple E x q y Hq) as (q' & Hq' & Hle & _).
    assert (p = q') as -> by (eapply one_child_unique; [apply F|done|done]). lia.
  - intros [q Hq]. destruct (walk_simple E x q y Hq) as (q' & Hq' & Hle & _). destruct q' as [|z q'].
    + destruct Hq' as [Hq' _]. simpl in Hq'. done.
    + apply Hpos, elem_of_list_lookup. exists (length q'). apply Hl. eauto.
Qed.
End queries.
