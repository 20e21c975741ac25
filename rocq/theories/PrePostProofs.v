From stdpp Require Import base list gmap fin_maps fin_sets sorting.
From Coq Require Import NArith Lia.
From Verif Require Import KeySer KeySerSpec SortedMap Types SymbolTable SymTabIface AnnoMem AnnoMemProofs Dfs DfsProofs
  GraphSpec Adjacency AdjacencySpec AdjacencyProofs StatsProofs CopyProofs ListExtra Linear EdgeAnnoProofs LinearProofs
  PrePost PrePostSpec PrePostNum.

(** ** The map of orders and the vector of entries *)
Definition occs (m : gmap N (list ppo)) (x : N) : list ppo := default [] (m !! x).
Lemma push_occs m xo x o : o ∈ occs (push_order m xo) x ↔ o ∈ occs m x ∨ (x, o) = xo.
Proof.
  destruct xo as [y o']. unfold push_order, occs. cbn [fst snd]. destruct (decide (x = y)) as [->|Hne].
  - rewrite lookup_insert. simpl. rewrite elem_of_app, elem_of_list_singleton. naive_solver.
  - rewrite lookup_insert_ne by done. naive_solver.
Qed.
Lemma fold_push_occs os : ∀ m x o, o ∈ occs (fold_left push_order os m) x ↔ o ∈ occs m x ∨ (x, o) ∈ os.
Proof.
  induction os as [|xo os IH]; intros m x o; simpl; [rewrite elem_of_nil; tauto|].
  rewrite IH, push_occs, elem_of_cons. tauto.
Qed.
Lemma fold_push_nonempty os : ∀ m, (∀ x l, m !! x = Some l → l ≠ []) →
  ∀ x l, fold_left push_order os m !! x = Some l → l ≠ [].
Proof.
  induction os as [|[y o] os IH]; intros m Hm x l; simpl; [apply Hm|]. apply IH. clear x l. intros x l.
  unfold push_order. cbn [fst snd]. intros [[_ <-]|[_ ?]]%lookup_insert_Some; [by destruct (default [] _)|by eapply Hm].
Qed.
Lemma elem_of_all_orders m x o : (x, o) ∈ all_orders m ↔ o ∈ occs m x.
Proof.
  unfold all_orders, occs. rewrite elem_of_list_bind. split.
  - intros ([y l] & Ho & Hl). apply elem_of_map_to_list in Hl. simpl in Ho.
    apply elem_of_list_fmap in Ho as (o' & [= -> ->] & Ho). by rewrite Hl.
  - intros Ho. destruct (m !! x) as [l|] eqn:E; simpl in Ho; [|by apply elem_of_nil in Ho].
    exists (x, l). split; [apply elem_of_list_fmap; by exists o|by apply elem_of_map_to_list].
Qed.

Lemma posl_unique os : NoDup (posl os) → ∀ x o y o', (x, o) ∈ os → (y, o') ∈ os →
  (pre_of o = pre_of o' → (x, o) = (y, o')) ∧ (post_of o = post_of o' → (x, o) = (y, o')) ∧
  (pre_of o = post_of o' → False).
Proof.
  induction os as [|[z q] os IH]; intros Hnd x o y o' Ho Ho'; [by apply elem_of_nil in Ho|].
  change (posl ((z, q) :: os)) with ([pre_of q; post_of q] ++ posl os) in Hnd.
  apply NoDup_app in Hnd as (Hn1 & Hn2 & Hn3). apply NoDup_cons in Hn1 as [Hn1 _]. rewrite elem_of_list_singleton in Hn1.
  assert (∀ x o, (x, o) ∈ os → pre_of o ≠ pre_of q ∧ pre_of o ≠ post_of q ∧ post_of o ≠ pre_of q ∧ post_of o ≠ post_of q) as Hd.
  { intros x' o1 Ho1. assert (pre_of o1 ∈ posl os) as P1 by (apply elem_of_posl; eauto).
    assert (post_of o1 ∈ posl os) as P2 by (apply elem_of_posl; eauto).
    split_and!; intros He; [apply (Hn2 (pre_of q))|apply (Hn2 (post_of q))|apply (Hn2 (pre_of q))|apply (Hn2 (post_of q))];
      rewrite ?elem_of_cons; try tauto; by rewrite <- He. }
  apply elem_of_cons in Ho as [[= -> ->]|Ho]; apply elem_of_cons in Ho' as [[= -> ->]|Ho'].
  - split_and!; intros; congruence.
  - destruct (Hd _ _ Ho') as (? & ? & ? & ?). split_and!; intros He; exfalso; congruence.
  - destruct (Hd _ _ Ho) as (? & ? & ? & ?). split_and!; intros He; exfalso; congruence.
  - by apply IH.
Qed.

Definition orders_unique (L : list (N * ppo)) : Prop := ∀ x o y o', (x, o) ∈ L → (y, o') ∈ L →
  (pre_of o = pre_of o' → (x, o) = (y, o')) ∧ (post_of o = post_of o' → (x, o) = (y, o')) ∧
  (pre_of o = post_of o' → False).

Lemma fold_put_length L : ∀ v, length (fold_left put_order L v) = length v.
Proof.
  induction L as [|[x o] L IH]; intros v; [done|]. simpl. rewrite IH. by rewrite !insert_length.
Qed.
Lemma fold_put L n : orders_unique L → (∀ x o, (x, o) ∈ L → (pre_of o < N.of_nat n)%N ∧ (post_of o < N.of_nat n)%N) →
  let v := fold_left put_order L (replicate n ONone) in
  ∀ i post lv x, (v !! i = Some (OPre post lv x) ↔ (x, PPO (N.of_nat i) post lv) ∈ L) ∧
    (v !! i = Some (OPost post lv x) ↔ (x, PPO post (N.of_nat i) lv) ∈ L).
Proof.
  induction L as [|[y [a b e]] L IH] using rev_ind; intros Hu Hlen; cbv zeta; intros i post lv x.
  - simpl. rewrite !elem_of_nil. split; (split; [|done]); intros [? _]%lookup_replicate_1; done.
  - assert (orders_unique L) as Hu' by (intros ? ? ? ? ? ?; apply Hu; apply elem_of_app; by left).
    destruct (IH Hu' ltac:(intros; eapply Hlen; apply elem_of_app; by left) i post lv x) as [IH1 IH2].
    rewrite fold_left_app. cbn [fold_left]. set (v := fold_left put_order L (replicate n ONone)) in *.
    assert (length v = n) as Hv by (unfold v; rewrite fold_put_length; apply replicate_length).
    assert ((y, PPO a b e) ∈ L ++ [(y, PPO a b e)]) as Hyo by (apply elem_of_app; right; by left).
    destruct (Hlen y _ Hyo) as [L1 L2]. cbn [put_order pre_of post_of level_of] in *.
    assert (∀ x o, (x, o) ∈ L → (pre_of o = a → x = y ∧ o = PPO a b e) ∧ (post_of o = b → x = y ∧ o = PPO a b e) ∧
      pre_of o ≠ b ∧ post_of o ≠ a) as Ho.
    { intros z o Ho. assert ((z, o) ∈ L ++ [(y, PPO a b e)]) as Ho' by (apply elem_of_app; by left).
      destruct (Hu _ _ _ _ Ho' Hyo) as (H1 & H2 & H3). destruct (Hu _ _ _ _ Hyo Ho') as (_ & _ & H4). simpl in *.
      split_and!; [intros H; specialize (H1 H); by injection H1|intros H; specialize (H2 H); by injection H2|done|].
      intros H. by apply H4. }
    assert (a ≠ b) as Hab by (intros Hab; by apply (Hu _ _ _ _ Hyo Hyo)).
    rewrite !elem_of_app, !elem_of_list_singleton.
    assert (∀ a' b' e', (x, PPO a' b' e') = (y, PPO a b e) ↔ x = y ∧ a' = a ∧ b' = b ∧ e' = e) as Heq.
    { intros a' b' e'. split; [by intros [= -> -> -> ->]|by intros (-> & -> & -> & ->)]. }
    rewrite !Heq.
    assert (∀ a' b' e', (x, PPO a' b' e') ∈ L → (a' = a → x = y ∧ b' = b ∧ e' = e) ∧
      (b' = b → x = y ∧ a' = a ∧ e' = e) ∧ a' ≠ b ∧ b' ≠ a) as Ho'.
    { intros a' b' e' Hin. destruct (Ho _ _ Hin) as (H1 & H2 & H3 & H4). simpl in *.
      split_and!; [intros H; destruct (H1 H) as [-> [= -> -> ->]]; done|intros H; destruct (H2 H) as [-> [= -> -> ->]]; done|done|done]. }
    destruct (decide (i = N.to_nat b)) as [->|Hn1].
    + rewrite list_lookup_insert by (rewrite insert_length; lia). rewrite N2Nat.id. split.
      * split; [done|]. intros [Hin|(? & ? & ?)]; [|congruence]. by destruct (Ho' _ _ _ Hin) as (_ & _ & ? & _).
      * split; [intros [= <- <- <-]; by right|]. intros [Hin|(-> & -> & _ & ->)]; [|done].
        destruct (Ho' _ _ _ Hin) as (_ & H & _). destruct (H eq_refl) as (-> & -> & ->). done.
    + rewrite list_lookup_insert_ne by done. destruct (decide (i = N.to_nat a)) as [->|Hn2].
      * rewrite list_lookup_insert by lia. rewrite N2Nat.id. split.
        -- split; [intros [= <- <- <-]; by right|]. intros [Hin|(-> & _ & -> & ->)]; [|done].
           destruct (Ho' _ _ _ Hin) as (H & _). destruct (H eq_refl) as (-> & -> & ->). done.
        -- split; [done|]. intros [Hin|(? & ? & ? & ?)]; [|congruence]. by destruct (Ho' _ _ _ Hin) as (_ & _ & _ & ?).
      * rewrite list_lookup_insert_ne by done. rewrite IH1, IH2. split; (split; [by left|]); intros [?|(? & ? & ? & ?)]; try done; lia.
Qed.

(** ** State of a storage that represents a set of edges *)
Record pp_ok (s : pp) (G : gset edge) : Prop := {
  po_some : ∀ x, is_Some (p_orders s !! x) ↔ x ∈ all_nodes G;
  po_ne : ∀ x l, p_orders s !! x = Some l → l ≠ [];
  po_range : ∀ x o, o ∈ occs (p_orders s) x → (pre_of o < post_of o)%N ∧ N.to_nat (post_of o) < length (p_vec s);
  po_sound : ∀ x o y o', o ∈ occs (p_orders s) x → o' ∈ occs (p_orders s) y → contains o o' →
    ∃ p, walk (edge_rel G) x p y ∧ level_of o' = (level_of o + N.of_nat (length p))%N;
  po_cover : ∀ x o p y, o ∈ occs (p_orders s) x → walk (edge_rel G) x p y →
    ∃ o', o' ∈ occs (p_orders s) y ∧ contains o o' ∧ level_of o' = (level_of o + N.of_nat (length p))%N;
  po_pre : ∀ i post lv x, p_vec s !! i = Some (OPre post lv x) ↔ PPO (N.of_nat i) post lv ∈ occs (p_orders s) x;
  po_post : ∀ i pre lv x, p_vec s !! i = Some (OPost pre lv x) ↔ PPO pre (N.of_nat i) lv ∈ occs (p_orders s) x
}.

Section copy.
Context (omax lmax : N) (G : gset edge) (out : N → list N) (annos : edge → list (anno_key * bytes)).
Context (F : fits_prepost omax lmax G) (Hout_nd : ∀ x, NoDup (out x)) (Hout : ∀ x y, y ∈ out x ↔ edge_rel G x y).
Notation E := (λ a b, b ∈ out a).
Definition K : nat := S (size (all_nodes G)).

Lemma pout_walk x p y : walk E x p y ↔ walk (edge_rel G) x p y.
Proof using All. split; apply walk_ext; intros a b; apply Hout. Qed.
Lemma pout_acyclic : acyclic E.
Proof using All. destruct F as (Hac & _). intros x (p & Hp & Hw). apply (Hac x). exists p. split; [done|]. by apply pout_walk. Qed.

Lemma walk_lt_K x p y : walk E x p y → length p < K.
Proof using All.
  intros Hw%pout_walk. destruct F as (Hac & _). pose proof (acyclic_path_length G x p y Hac Hw). unfold K. lia.
Qed.

Lemma pp_root_lemma r : r ∈ all_nodes G → ∃ f0, ∀ f, f0 ≤ f → ∃ nodes, (∀ x, x ∈ nodes ↔ reachable E r x) ∧
  ∀ c m a, ((num out K 0 r c).2 <= omax)%N →
  pp_copy_root omax lmax f out annos (Some (c, m, a)) r =
    Some ((num out K 0 r c).2, fold_left push_order (num out K 0 r c).1 m, fold_left (copy_node_annos out annos) nodes a).
Proof using All.
  intros Hr. pose proof F as (Hac & Hsize & Hlm & Hlev & _).
  assert (∀ a b, a ∈ all_nodes G → b ∈ out a → b ∈ all_nodes G) as Hcl by (intros a b _ Hb%Hout; by eapply en_r).
  assert (size (all_nodes G ∖ list_to_set []) < K) as Hk0 by (simpl; unfold K; rewrite difference_empty_L; lia).
  destruct (big_step out 1 usize_max (all_nodes G)) with (k := K) (pre := @nil N) (node := r) (s := dfs_new r) (rest := @nil (N * nat)) as (n & s' & L & S' & _).
  { done. } { done. } { done. } { constructor. } { done. } { by eapply fits_new. }
  assert (∀ k, n ≤ k → dfs_loop out 1 usize_max k (dfs_new r) = Some (enum out 1 usize_max K [] r, s')) as Hd.
  { intros k Hk. replace k with (n + (k - n)) by lia. rewrite L. destruct (k - n); simpl; rewrite S'; simpl; by rewrite app_nil_r. }
  clear L S'.
  exists n. intros f Hf. exists (r :: (enum out 1 usize_max K [] r).*1). split.
  - intros x. rewrite elem_of_cons, elem_of_list_fmap. split.
    + intros [->|([y d] & -> & Hy)]; [apply reachable_refl|].
      apply (enum_spec out 1 usize_max (all_nodes G) Hcl K [] r Hk0 Hr) in Hy as (p & Hw & _). by exists p.
    + intros (p & Hw). destruct p as [|y p]; [left; by simpl in Hw|]. right. exists (x, length (y :: p)). split; [done|].
      apply (enum_spec out 1 usize_max (all_nodes G) Hcl K [] r Hk0 Hr).
      { exists (y :: p). split_and!; [done|by eapply acyclic_nodup; [apply pout_acyclic|]|intros; apply not_elem_of_nil|done|].
        pose proof (acyclic_path_length G r (y :: p) x Hac ltac:(by apply pout_walk)) as Hlen.
        unfold in_rng. apply andb_true_intro. split; apply N.leb_le; simpl in *; lia. }
  - intros c m a Hmax. unfold pp_copy_root. cbn [mbind option_bind]. rewrite Hd by done. cbn [mbind option_bind].
    assert (∃ k, K = S k) as [k Ek] by (by eexists). rewrite Ek in Hmax |- *. simpl num in Hmax |- *. simpl enum.
    set (z := num_list (num out k (0 + 1)) (reverse (out r)) (c + 1)) in *. cbn [fst snd] in *.
    assert (c + 1 <= z.2)%N as Hz by apply num_list_mono, num_mono.
    assert (∀ l st c' m', (∀ y, y ∈ l → y ∈ out r) → good st 1 → exits omax 1 st.1 = NState c' [(r, c, 0%N)] m' →
      ((num_list (num out k 1) l c').2 <= omax)%N →
      let z := num_list (num out k 1) l c' in
      good (fold_left (copy_step omax lmax) (l ≫= enum out 1 usize_max k [r]) st) 1 ∧
      exits omax 1 (fold_left (copy_step omax lmax) (l ≫= enum out 1 usize_max k [r]) st).1 =
        NState z.2 [(r, c, 0%N)] (fold_left push_order z.1 m')) as Hl.
    { clear Hd z Hz Hmax. intros l. induction l as [|y l IHl]; intros st c' m' Hy Hg He Hm; cbv zeta; [done|].
      rewrite bind_cons, fold_left_app. cbn [num_list fst snd] in Hm |- *.
      assert (y ∈ out r) as Hyr by (apply Hy; by left).
      pose proof (num_list_mono (num out k 1) l (num_mono _ _ _) (num out k 1 y c').2) as Hmm.
      destruct (process out omax lmax pout_acyclic Hlm k [r] y st) as [Hg' He'].
      - simpl. lia.
      - intros z ->%elem_of_list_singleton (p & Hw). apply (pout_acyclic r). exists (y :: p). split; [done|]. by split.
      - intros p z Hw. assert (walk E r (y :: p) z) as Hw' by by split. apply pout_walk in Hw'. specialize (Hlev _ _ _ Hw').
        simpl in *. lia.
      - done.
      - simpl length. rewrite He. simpl n_cur. change (N.of_nat 1) with 1%N. lia.
      - cbv zeta in He'. simpl length in He', Hg'. change (N.of_nat 1) with 1%N in He'. rewrite He in He'. cbn [n_cur n_stack n_map] in He'.
        destruct (IHl _ _ _ ltac:(intros; apply Hy; by right) Hg' He' Hm) as [H1 H2]. cbv zeta in H2.
        split; [done|]. rewrite H2. by rewrite fold_left_app. }
    change (0 + 1)%N with 1%N in *.
    destruct (Hl (reverse (out r)) (enter_node omax (NState c [] m) r 0, 0) (c + 1)%N m) as [Hg' He'].
    + intros y. by rewrite elem_of_reverse.
    + split; simpl; lia.
    + rewrite exits_id by (simpl; lia). unfold enter_node. simpl. by rewrite next_order_lt by lia.
    + fold z. lia.
    + cbv zeta in He'. fold z in He'. rewrite <- (exits_comp _ 0 1) by lia.
      rewrite He'. rewrite (exits_one omax 0 _ r c 0%N [] _ _ eq_refl eq_refl). cbn [n_cur n_map].
      rewrite next_order_lt by lia. rewrite fold_left_app. done.
Qed.

Lemma pp_roots_lemma roots : (∀ r, r ∈ roots → r ∈ all_nodes G) → ∃ f0, ∀ f, f0 ≤ f →
  ∃ nodes, (∀ x, x ∈ nodes ↔ ∃ r, r ∈ roots ∧ reachable E r x) ∧
  ∀ c m a, ((num_list (num out K 0) roots c).2 <= omax)%N →
  fold_left (pp_copy_root omax lmax f out annos) roots (Some (c, m, a)) =
    Some ((num_list (num out K 0) roots c).2, fold_left push_order (num_list (num out K 0) roots c).1 m,
          fold_left (copy_node_annos out annos) nodes a).
Proof using All.
  induction roots as [|r roots IH]; intros Hr.
  - exists 0. intros f _. exists []. split; [|done]. intros x. split; [by intros ?%elem_of_nil|by intros (? & ?%elem_of_nil & _)].
  - destruct (pp_root_lemma r) as (f1 & H1); [apply Hr; by left|]. destruct IH as (f2 & H2); [intros; apply Hr; by right|].
    exists (f1 `max` f2). intros f Hf. destruct (H1 f ltac:(lia)) as (n1 & Hn1 & E1). destruct (H2 f ltac:(lia)) as (n2 & Hn2 & E2).
    exists (n1 ++ n2). split.
    + intros x. rewrite elem_of_app, Hn1, Hn2. split.
      * intros [?|(r' & ? & ?)]; [exists r; split; [by left|done]|exists r'; split; [by right|done]].
      * intros (r' & [->|?]%elem_of_cons & ?); [by left|right; by exists r'].
    + intros c m a Hmax. cbn [num_list fst snd] in Hmax |- *. cbn [fold_left].
      pose proof (num_list_mono (num out K 0) roots (num_mono _ _ _) (num out K 0 r c).2) as Hmm.
      rewrite E1 by lia. rewrite E2 by done. by rewrite !fold_left_app.
Qed.

Lemma num_list_count roots c : (num_list (num out K 0) roots c).2 = (c + 2 * N.of_nat (length (roots ≫= upaths out K)))%N.
Proof using.
  revert c. induction roots as [|y l IHl]; intros c'; [simpl; lia|]. cbn [num_list fst snd]. rewrite bind_cons.
  rewrite IHl. destruct (num_count out K 0 y c') as [_ ->]. rewrite app_length. lia.
Qed.

Lemma pp_copy_lemma s0 roots st : NoDup roots → (∀ r, r ∈ roots ↔ is_root G r) →
  ∃ f0, ∀ f, f0 ≤ f → ∃ s ok nodes, pp_copy omax lmax f s0 roots out annos st = Some (s, ok) ∧ pp_ok s G ∧ p_stats s = st ∧
    (p_annos s, ok) = fold_left (copy_node_annos out annos) nodes (am_clear (p_annos s0), true) ∧
    (∀ x, x ∈ nodes ↔ x ∈ all_nodes G).
Proof using All.
  intros Hnd Hroots. pose proof F as (Hac & Hsize & Hlm & Hlev & Hpaths).
  assert (∀ r, r ∈ roots → r ∈ all_nodes G) as Hrin by (intros r [Hr _]%Hroots; apply all_nodes_cases; by left).
  destruct (pp_roots_lemma roots Hrin) as (f0 & Hf). exists f0. intros f Hf0. destruct (Hf f Hf0) as (nodes & Hnodes & HE).
  assert (2 * N.of_nat (length (roots ≫= upaths out K)) <= omax)%N as Hcount.
  { apply Hpaths.
    - apply NoDup_bind_ext; [done|intros; by apply upaths_nodup|].
      intros y y' q _ _ (p & z & _ & ->)%upaths_walk (p' & z' & _ & [= -> _])%upaths_walk. done.
    - intros q (r & (p & z & Hw & ->)%upaths_walk & Hr)%elem_of_list_bind. exists r, p, z.
      split_and!; [by apply Hroots|by apply pout_walk|done]. }
  assert (∀ x, x ∈ nodes ↔ x ∈ all_nodes G) as Hnodes'.
  { intros x. rewrite Hnodes. split.
    - intros (r & Hr & [|y p] & Hw); [simpl in Hw; subst; by apply Hrin|]. apply pout_walk in Hw.
      by apply (walk_nodes G r (y :: p) x Hw).
    - intros Hx. destruct (reach_root G x Hac Hx) as (r & Hr & p & Hp). exists r. split; [by apply Hroots|].
      exists p. by apply pout_walk. }
  pose proof (num_list_count roots 0) as Hc2.
  unfold pp_copy. rewrite HE by lia. cbn [mbind option_bind].
  destruct (num_list_ok out (num out K 0) 0 roots (num_mono _ _ _)) with (c := 0%N) as (Hok & Hy & Hz).
  { intros y c _. apply num_ok. intros p z Hw. by eapply walk_lt_K. }
  set (os := (num_list (num out K 0) roots 0).1) in *. set (hi := (num_list (num out K 0) roots 0).2) in *.
  set (m := fold_left push_order os ∅).
  assert (∀ x o, o ∈ occs m x ↔ (x, o) ∈ os) as Hocc.
  { intros x o. unfold m. rewrite fold_push_occs. unfold occs at 1. rewrite lookup_empty. cbn. rewrite elem_of_nil. tauto. }
  assert (orders_unique (all_orders m)) as Hu.
  { intros x o y o'. rewrite !elem_of_all_orders, !Hocc. apply posl_unique, Hok. }
  eexists _, _, nodes. split; [reflexivity|]. split_and!; [|done|symmetry; apply surjective_pairing|done].
  assert (∀ x l, m !! x = Some l → l ≠ []) as Hne by (apply fold_push_nonempty; intros x l; by rewrite lookup_empty).
  assert (length (fold_left put_order (all_orders m) (replicate (N.to_nat hi) ONone)) = N.to_nat hi) as Hlen
    by (rewrite fold_put_length; apply replicate_length).
  pose proof (fold_put (all_orders m) (N.to_nat hi) Hu) as Hput. cbv zeta in Hput.
  assert (∀ x o, (x, o) ∈ all_orders m → (pre_of o < N.of_nat (N.to_nat hi))%N ∧ (post_of o < N.of_nat (N.to_nat hi))%N) as Hb.
  { intros x o. rewrite elem_of_all_orders, Hocc. intros Ho. apply (oc_range _ _ _ _ Hok) in Ho. lia. }
  specialize (Hput Hb).
  constructor; cbn [p_orders p_vec].
  - intros x. rewrite <- Hnodes', Hnodes. split.
    + intros [l Hl]. destruct l as [|o l]; [by destruct (Hne _ _ Hl)|].
      assert (o ∈ occs m x) as Ho by (unfold occs; rewrite Hl; by left). apply Hocc in Ho.
      destruct (Hz _ _ Ho) as (r & ro & Hr & Hro & _ & Hcont). exists r. split; [done|].
      destruct (oc_sound _ _ _ _ Hok r ro x o Hro Ho Hcont) as (p & Hp & _). by exists p.
    + intros (r & Hr & p & Hp). destruct (Hy r Hr) as (ro & Hro & _).
      destruct (oc_cover _ _ _ _ Hok r ro p x Hro Hp) as (o & Ho & _). apply Hocc in Ho. unfold occs in Ho.
      destruct (m !! x); [by eexists|]. by apply elem_of_nil in Ho.
  - done.
  - intros x o Ho%Hocc. apply (oc_range _ _ _ _ Hok) in Ho. rewrite Hlen. lia.
  - intros x o y o' Ho%Hocc Ho'%Hocc Hcont. destruct (oc_sound _ _ _ _ Hok x o y o' Ho Ho' Hcont) as (p & Hp & ?).
    exists p. split; [by apply pout_walk|done].
  - intros x o p y Ho%Hocc Hw%pout_walk. destruct (oc_cover _ _ _ _ Hok x o p y Ho Hw) as (o' & Ho'%Hocc & ?). by exists o'.
  - intros i post lv x. rewrite (proj1 (Hput i post lv x)). apply elem_of_all_orders.
  - intros i pre lv x. rewrite (proj2 (Hput i pre lv x)). apply elem_of_all_orders.
Qed.
End copy.
