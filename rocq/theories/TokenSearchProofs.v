From stdpp Require Import base list gmap.
From Coq Require Import NArith Lia.
From Verif Require Import KeySer KeySerSpec SortedMap Types SymbolTable AnnoMem AnnoSpec AnnoMemProofs AnnoMemQueries GraphSpec Adjacency AdjacencySpec
  DfsProofs AdjacencyProofs LinearProofs ListExtra Storage StorageSpec GraphApply TokenHelper QuickSortSpec QuickSort SortMatches SortMatchesSpec SortMatchesProofs TokenSearch TokenSearchSpec.

Section helper.
Context (db : corpus) (c : content) (H : holds_content db c).

Lemma labels_inv : ∃ leak, inv N.compare (cp_annos db) leak (ct_labels c).
Proof using H.
  destruct (hc_labels _ _ H) as (ops & outs & Hr & ->). destruct (inv_run_new N.compare ops _ _ Hr) as [_ (leak & I & _)].
  by exists leak.
Qed.
Lemma th_some : ∃ th, th_new db = Some th ∧ th_annos th = cp_annos db ∧ th_cov th = cov_edges db ∧
  implements (th_left th) (ct_left c) ∧ implements (th_right th) (ct_right c).
Proof using H.
  destruct (hc_left _ _ H) as (l & El & Hl), (hc_right _ _ H) as (r & Er & Hr). unfold th_new. rewrite El, Er. cbn.
  eexists. split; [done|]. done.
Qed.
Lemma has_out_iff gs G n : implements gs G → gs_has_out gs n = true ↔ is_source G n.
Proof.
  intros I. unfold gs_has_out, is_source. destruct (gs_out gs n) as [|y l] eqn:E.
  - split; [done|]. intros [y Hy%(im_out _ _ I)]. rewrite E in Hy. by apply elem_of_nil in Hy.
  - split; [|done]. intros _. exists y. apply (im_out _ _ I). rewrite E. by left.
Qed.
Lemma has_in_iff gs G n : implements gs G → gs_has_in gs n = true ↔ is_target G n.
Proof.
  intros I. unfold gs_has_in, is_target. destruct (gs_in gs n) as [|y l] eqn:E.
  - split; [done|]. intros [y Hy%(im_in _ _ I)]. rewrite E in Hy. by apply elem_of_nil in Hy.
  - split; [|done]. intros _. exists y. apply (im_in _ _ I). rewrite E. by left.
Qed.
Lemma coverage_iff th n : th_new db = Some th → has_outgoing_coverage th n = true ↔ covers_something c n.
Proof using H.
  intros Hth. destruct th_some as (th' & E & _ & Hc & _). rewrite Hth in E. injection E as <-.
  unfold has_outgoing_coverage. rewrite Hc. unfold cov_edges, covers_something. rewrite existsb_exists.
  pose proof (hc_cov _ _ H) as F. split.
  - intros (gs & Hin & Ho). apply elem_of_list_In, elem_of_list_filter in Hin as [_ Hin].
    apply elem_of_list_lookup in Hin as [i Hi]. destruct (Forall2_lookup_l _ _ _ _ _ F Hi) as (G & HG & I).
    exists G. split; [by eapply elem_of_list_lookup_2|]. by apply (has_out_iff gs G n I).
  - intros (G & Hin & Hs). apply elem_of_list_lookup in Hin as [i Hi]. destruct (Forall2_lookup_r _ _ _ _ _ F Hi) as (gs & Hg & I).
    exists gs. split; [|by apply (has_out_iff gs G n I)]. apply elem_of_list_In, elem_of_list_filter. split; [|by eapply elem_of_list_lookup_2].
    destruct (gs_nodes gs) as [k|] eqn:Ek; [|done]. apply bool_decide_eq_true. destruct k; [|lia].
    rewrite (im_nodes _ _ I Ek) in Hs. destruct Hs as [y Hy]. unfold edge_rel in Hy. set_solver.
Qed.
Lemma is_token_iff th n : th_new db = Some th → is_token th n = true ↔ token c n.
Proof using H.
  intros Hth. pose proof (coverage_iff th n Hth) as Hc. destruct th_some as (th' & E & Ha & _). rewrite Hth in E. injection E as <-.
  destruct labels_inv as [leak I]. unfold is_token, token. rewrite Ha, (has_value_lemma N.compare _ leak _ n tok_key I).
  destruct (bool_decide _) eqn:Hv; [apply bool_decide_eq_true in Hv|apply bool_decide_eq_false in Hv].
  - rewrite negb_true_iff. destruct (has_outgoing_coverage th n).
    + split; [done|]. intros [_ Hn]. destruct Hn. by apply Hc.
    + split; [|done]. intros _. split; [done|]. intros Hs. by apply Hc in Hs.
  - split; [done|]. by intros [Hs _].
Qed.
Lemma tok_search m : m ∈ am_exact_search (cp_annos db) (Some (ak_ns tok_key)) (ak_name tok_key) VAny ↔
  m.2 = tok_key ∧ is_Some (ct_labels c !! (m.1, tok_key)).
Proof using H.
  destruct labels_inv as [leak I]. destruct m as [n k].
  destruct (exact_search_lemma N.compare _ leak _ (Some (ak_ns tok_key)) (ak_name tok_key) VAny I) as [_ Hs].
  rewrite Hs. unfold key_matches, value_matches. cbn [fst snd]. split.
  - intros ([Hn Hns] & v & Hv & _). assert (k = tok_key) as ->; [|by eauto]. destruct k. cbn in *. by subst.
  - intros [-> [v Hv]]. split; [done|]. by exists v.
Qed.
Lemma tok_search_nodup : NoDup (am_exact_search (cp_annos db) (Some (ak_ns tok_key)) (ak_name tok_key) VAny).
Proof using H.
  destruct labels_inv as [leak I]. by destruct (exact_search_lemma N.compare _ leak _ (Some (ak_ns tok_key)) (ak_name tok_key) VAny I).
Qed.
End helper.

(** Lists *)
Lemma ascending_reverse {T} (cmp : T → T → comparison) l : ascending (λ a b, cmp b a) l → ascending cmp (reverse l).
Proof.
  intros Ha i j x y Hij Hx Hy. apply reverse_lookup_Some in Hx as [Hx Hi], Hy as [Hy Hj].
  exact (Ha (length l - S j) (length l - S i) y x ltac:(lia) Hy Hx).
Qed.
Lemma mjoin_nodup {A B} (f : A → list B) l : NoDup l → (∀ a, a ∈ l → NoDup (f a)) →
  (∀ a b x, a ∈ l → b ∈ l → x ∈ f a → x ∈ f b → a = b) → NoDup (mjoin (f <$> l)).
Proof.
  induction l as [|a l IH]; intros Hnd Hf Hd; [constructor|]. apply NoDup_cons in Hnd as [Ha Hnd]. rewrite fmap_cons. cbn.
  apply NoDup_app. split_and!.
  - apply Hf. by left.
  - intros x Hx Hin. apply elem_of_list_join in Hin as (l' & Hx' & Hl'). apply elem_of_list_fmap in Hl' as (b & -> & Hb).
    apply Ha. rewrite (Hd a b x); [done|by left|by right|done|done].
  - apply IH; [done| |].
    + intros b Hb. apply Hf. by right.
    + intros b b' x Hb Hb'. apply Hd; by right.
Qed.
Lemma mjoin_split {A B} (f : A → list B) l a : a ∈ l → ∃ l1 l2, mjoin (f <$> l) = l1 ++ f a ++ l2.
Proof.
  induction 1 as [a l|a b l Ha IH].
  - exists [], (mjoin (f <$> l)). done.
  - destruct IH as (l1 & l2 & E). exists (f b ++ l1), l2. change (mjoin (f <$> b :: l)) with (f b ++ mjoin (f <$> l)). rewrite E.
    by rewrite <- (assoc_L (++)).
Qed.

Section search.
Context (db : corpus) (c : content) (H : holds_content db c) (T : texts_ok c).
(** If the shortcut is used, all tokens are part of the token order *)
Context (Hflag : is_Some (cp_order db) → cp_all_in_order db = Some true → ∀ n, token c n → n ∈ all_nodes (ct_order c)).
Notation O := (ct_order c).

Lemma target_node n : is_target O n → n ∈ all_nodes O.
Proof. intros [y Hy]. by apply (all_nodes_edge O y n). Qed.
Lemma order_has_in n : match cp_order db with Some gs => gs_has_in gs n | None => false end = true ↔ is_target O n.
Proof using All.
  pose proof (hc_order _ _ H) as Ho. destruct (cp_order db) as [gs|].
  - destruct Ho as [Ho _]. by apply has_in_iff.
  - split; [done|]. rewrite Ho. intros [y Hy]. unfold edge_rel in Hy. set_solver.
Qed.
Lemma is_root_iff n : is_Some (ct_labels c !! (n, tok_key)) → is_root_tok db n = true ↔ token c n ∧ ¬ is_target O n.
Proof using All.
  intros Hl. unfold is_root_tok. destruct (th_some db c H) as (th & Eth & _). rewrite Eth. pose proof (order_has_in n) as Hin.
  destruct (match cp_order db with Some gs => gs_has_in gs n | None => false end).
  - split; [done|]. intros [_ Hn]. destruct Hn. by apply Hin.
  - rewrite negb_true_iff. pose proof (coverage_iff db c H th n Eth) as Hc. unfold token. destruct (has_outgoing_coverage th n).
    + split; [done|]. intros [[_ Hn] _]. destruct Hn. by apply Hc.
    + split; [|done]. intros _. split; [split; [done|]|].
      * intros Hs. by apply Hc in Hs.
      * intros Hs. by apply Hin in Hs.
Qed.
(** The roots are the tokens without a preceding token *)
Lemma roots_spec : NoDup (root_nodes db).*1 ∧ ∀ n, n ∈ (root_nodes db).*1 ↔ token c n ∧ ¬ is_target O n.
Proof using All.
  unfold root_nodes. pose proof (hc_order _ _ H) as Ho.
  assert (∀ b, match cp_order db, b with Some _, true => False | _, _ => True end →
    NoDup (filter (λ m : match_, is_root_tok db m.1 = true) (am_exact_search (cp_annos db) (Some (ak_ns tok_key)) (ak_name tok_key) VAny)).*1 ∧
    ∀ n, n ∈ (filter (λ m : match_, is_root_tok db m.1 = true) (am_exact_search (cp_annos db) (Some (ak_ns tok_key)) (ak_name tok_key) VAny)).*1 ↔
      token c n ∧ ¬ is_target O n) as Hs.
  { intros b _. split.
    - apply NoDup_fmap_inj_on; [apply NoDup_filter, (tok_search_nodup db c H)|].
      intros x y Hx Hy E. apply elem_of_list_filter in Hx as [_ Hx], Hy as [_ Hy].
      apply (tok_search db c H) in Hx as [Hx _], Hy as [Hy _]. destruct x, y. cbn in *. by subst.
    - intros n. rewrite elem_of_list_fmap. split.
      + intros (m & -> & Hm). apply elem_of_list_filter in Hm as [Hr Hm]. apply (tok_search db c H) in Hm as [_ Hm]. by apply is_root_iff.
      + intros [Ht Hn]. exists (n, tok_key). split; [done|]. apply elem_of_list_filter. split; [by apply is_root_iff; [apply Ht|]|].
        apply (tok_search db c H). split; [done|]. apply Ht. }
  destruct (cp_order db) as [gs|] eqn:Eo.
  2: { apply (Hs false). done. }
  destruct (default false (cp_all_in_order db)) eqn:Ef.
  2: { apply (Hs false). done. }
  destruct Ho as [Ho _]. split.
  - rewrite <- list_fmap_compose. cbn. rewrite (list_fmap_ext _ id) by done. rewrite list_fmap_id. apply Ho.
  - intros n. rewrite <- list_fmap_compose. cbn. rewrite (list_fmap_ext _ id) by done. rewrite list_fmap_id, (im_roots _ _ Ho). split.
    + intros [[y Hy] Hn]. split; [|done]. apply T. by apply (all_nodes_edge O n y).
    + intros [Ht Hn]. split; [|done]. destruct (cp_all_in_order db) as [[|]|] eqn:Ea; try done.
      pose proof (Hflag ltac:(by eexists) eq_refl n Ht) as Hall. unfold all_nodes in Hall.
      apply elem_of_union in Hall as [Hall|Hall]; apply elem_of_map in Hall as ([a b] & -> & He).
      * by exists b.
      * destruct Hn. by exists a.
Qed.
(** No two texts share a token *)
Lemma text_unique r1 r2 n : ¬ is_target O r1 → ¬ is_target O r2 → reachable (edge_rel O) r1 n → reachable (edge_rel O) r2 n → r1 = r2.
Proof using All.
  destruct T as [(_ & Hp & _) _]. intros H1 H2 [p Hw1] [q Hw2]. revert q n Hw1 Hw2.
  induction p as [|x p IH] using rev_ind; intros q n Hw1 Hw2.
  - simpl in Hw1. subst n. destruct q as [|y q _] using rev_ind; [by simpl in Hw2|].
    apply walk_app_inv in Hw2 as (z & _ & Hz). destruct Hz as [Hz <-]. destruct H1. by exists z.
  - apply walk_app_inv in Hw1 as (z & Hw1 & Hz). destruct Hz as [Hz Hx]. simpl in Hx. subst x.
    destruct q as [|y q _] using rev_ind.
    + simpl in Hw2. subst n. destruct H2. by exists z.
    + apply walk_app_inv in Hw2 as (z' & Hw2 & Hz'). destruct Hz' as [Hz' Hy]. simpl in Hy. subst y.
      rewrite (Hp z' z n Hz' Hz) in Hw2. by apply (IH q z).
Qed.

(** A token which is not part of the token order is found by a search in it *)
Context (Hlone : ∀ gs n, cp_order db = Some gs → token c n → n ∉ all_nodes O → gs_connected gs n 0 Unbounded = [n]).

Lemma from_root_spec r : token c r → ¬ is_target O r →
  NoDup (from_root db r) ∧ (∀ n, n ∈ from_root db r ↔ reachable (edge_rel O) r n) ∧
  ∀ i j a b, from_root db r !! i = Some a → from_root db r !! j = Some b → i < j → reachable (edge_rel O) a b.
Proof using All.
  intros Ht Hr. unfold from_root. pose proof (hc_order _ _ H) as Ho.
  assert (r ∉ all_nodes O → NoDup [r] ∧ (∀ n, n ∈ [r] ↔ reachable (edge_rel O) r n) ∧
    ∀ i j a b, [r] !! i = Some a → [r] !! j = Some b → i < j → reachable (edge_rel O) a b) as Hl.
  { intros Hn. split_and!; [apply NoDup_singleton| |].
    - intros n. rewrite elem_of_list_singleton. split; [intros ->; by exists []|]. intros [[|z p] Hw]; [done|].
      destruct Hw as [He _]. destruct Hn. by apply (all_nodes_edge O r z).
    - intros i j a b Ha Hb Hij. apply lookup_lt_Some in Hb. simpl in Hb. lia. }
  destruct (cp_order db) as [gs|] eqn:Eo.
  - destruct Ho as [Ho Hc]. destruct (decide (r ∈ all_nodes O)) as [Hn|Hn].
    + split_and!.
      * by apply Ho.
      * intros n. rewrite (im_connected _ _ Ho r n 0 Unbounded Logic.I (or_introl Hn)). split.
        -- intros (p & [Hw _] & _). by exists p.
        -- intros (p & Hp)%reachable_simple. exists p. split; [done|]. split; [lia|done].
      * intros i j a b Ha Hb. exact (Hc r i j a b Ha Hb).
    + rewrite (Hlone gs r eq_refl Ht Hn). by apply Hl.
  - apply Hl. rewrite Ho. unfold all_nodes. set_solver.
Qed.

Lemma text_root n : token c n → ∃ r, token c r ∧ ¬ is_target O r ∧ reachable (edge_rel O) r n.
Proof using All.
  intros Ht. destruct (decide (n ∈ all_nodes O)) as [Hn|Hn].
  - destruct T as [(_ & _ & Hac) [Htok _]]. destruct (reach_root O n Hac Hn) as (r & [Hs Hr] & Hreach). exists r. split_and!; [|done|done].
    apply Htok. destruct Hs as [y Hy]. by apply (all_nodes_edge O r y).
  - exists n. split_and!; [done| |by exists []]. intros Hn'. by apply Hn, target_node.
Qed.
Lemma reach_token r n : token c r → reachable (edge_rel O) r n → token c n.
Proof using All.
  intros Ht [p Hp]. destruct p as [|x p _] using rev_ind; [simpl in Hp; by subst|].
  apply walk_app_inv in Hp as (z & _ & Hz & Hx). simpl in Hx. subst x. apply T. by apply (all_nodes_edge O z n).
Qed.

(** The comparison of the roots *)
Lemma text_pos_fresh a b : text_pos db a b =
  compare_fresh (λ n, am_get_value (cp_annos db) n node_name_key)
     (λ n, match th_new db with Some th => left_token_for th n | None => None end)
     (λ t u, match cp_order db with Some gs => gs_is_connected gs t u 1 Unbounded | None => false end)
     (match th_new db, cp_order db with Some _, Some _ => true | _, _ => false end)
     lex_compare id false [a] [b].
Proof.
  unfold text_pos, compare_fresh, compare_groups, compare_elements. destruct (compare_match _ _ _ _ _ _ _ _ a b) as [r c']. by destruct r.
Qed.
Lemma lex_tp : total_preorder lex_compare.
Proof. apply cmp_order_tp, _. Qed.
Lemma text_pos_tpo : total_preorder_on (λ m : match_, token c m.1 ∧ ¬ is_target O m.1) (text_pos db).
Proof using H T.
  clear Hflag Hlone.
  set (conn := λ t u, match cp_order db with Some gs => gs_is_connected gs t u 1 Unbounded | None => false end).
  assert (∀ t u, conn t u = true ↔ ∃ p, p ≠ [] ∧ walk (edge_rel O) t p u) as Hconn.
  { intros t u. unfold conn. pose proof (hc_order _ _ H) as Ho. destruct T as [(_ & _ & Hac) _]. destruct (cp_order db) as [gs|].
    - destruct Ho as [Ho _]. rewrite (im_is_connected _ _ Ho t u 1 Unbounded Logic.I) by (right; lia). split.
      + intros (p & [Hw _] & [Hd _]). exists p. split; [|done]. intros ->. simpl in Hd. lia.
      + intros (p & Hp & Hw). exists p. split; [by apply acyclic_simple|]. split; [|done]. destruct p; [done|]. simpl. lia.
    - split; [done|]. rewrite Ho. intros ([|x p] & Hp & Hw); [done|]. destruct Hw as [He _]. unfold edge_rel in He. set_solver. }
  assert (total_preorder_on (Forall (λ m : match_, (λ n, token c n ∧ ¬ is_target O n) m.1))
    (compare_fresh (λ n, am_get_value (cp_annos db) n node_name_key)
     (λ n, match th_new db with Some th => left_token_for th n | None => None end) conn
     (match th_new db, cp_order db with Some _, Some _ => true | _, _ => false end) lex_compare id false)) as Ht.
  { refine (groups_tpo _ _ _ _ _ _ _ lex_tp _ (λ n, token c n ∧ ¬ is_target O n) _).
    - destruct T as [(_ & _ & Hac) _]. split.
      + intros t. apply not_true_is_false. intros (p & Hp & Hw)%Hconn. apply (Hac t). by exists p.
      + intros t u v (p & Hp & Hw)%Hconn (q & Hq & Hw')%Hconn. apply Hconn. exists (p ++ q). split; [by destruct p|].
        by eapply walk_app.
    - apply one_order_path. split.
      + intros a [Ha _]. destruct (labels_inv db c H) as [leak I]. rewrite (get_value_lemma N.compare _ leak _ a node_name_key I). by apply T.
      + intros a Ha. right. intros b b' [Hb Nb] [Hb' Nb'] _ _ t u Hleft Hleft'.
        destruct (th_some db c H) as (th & Eth & _). rewrite Eth in Hleft, Hleft'. unfold left_token_for in *.
        rewrite (proj2 (is_token_iff db c H th b Eth) Hb) in Hleft. rewrite (proj2 (is_token_iff db c H th b' Eth) Hb') in Hleft'.
        injection Hleft as <-. injection Hleft' as <-.
        assert (∀ x y, ¬ is_target O y → conn x y = false) as Hno.
        { intros x y Hy. apply not_true_is_false. intros (p & Hp & Hw)%Hconn. destruct p as [|z p _] using rev_ind; [done|].
          apply walk_app_inv in Hw as (w & _ & Hz & Hzy). simpl in Hzy. subst z. destruct Hy. by exists w. }
        split; by apply Hno. }
  split.
  - intros x y Hx Hy. rewrite !text_pos_fresh. refine (tpo_flip _ _ Ht [x] [y] _ _); (constructor; [assumption|constructor]).
  - intros x y z Hx Hy Hz. rewrite !text_pos_fresh. refine (tpo_trans _ _ Ht [x] [y] [z] _ _ _); (constructor; [assumption|constructor]).
Qed.

(** All tokens of all texts *)
Lemma token_search_lemma fuel rnd : token_search fuel rnd db ≠ Failed ∧
  ∀ l, token_search fuel rnd db = Done l →
  ∃ roots : list match_,
    NoDup roots.*1 ∧ (∀ n, n ∈ roots.*1 ↔ token c n ∧ ¬ is_target O n) ∧ ascending (text_pos db) roots ∧
    l = (λ n, (n, node_type_key)) <$> mjoin ((λ m, from_root db m.1) <$> roots).
Proof using All.
  destruct roots_spec as [Hnd Hin]. unfold token_search.
  pose proof (sort_on_ok (λ m : match_, token c m.1 ∧ ¬ is_target O m.1) (λ a b, text_pos db b a) fuel rnd (root_nodes db)) as Hs.
  destruct (sort _ fuel rnd (root_nodes db)) as [r| |] eqn:E.
  - split; [done|]. intros l [= <-]. destruct Hs as [Hp Ha].
    + pose proof text_pos_tpo as Ht. split.
      * intros x y Hx Hy. by apply (tpo_flip _ _ Ht).
      * intros x y z Hx Hy Hz H1 H2. by apply (tpo_trans _ _ Ht z y x).
    + apply Forall_forall. intros m Hm. apply Hin. apply elem_of_list_fmap. by exists m.
    + exists (reverse r). split_and!.
      * rewrite fmap_reverse, reverse_Permutation, Hp. done.
      * intros n. rewrite <- Hin. rewrite fmap_reverse, elem_of_reverse, Hp. done.
      * by apply ascending_reverse.
      * clear. generalize (reverse r) as rs. clear r. intros rs. induction rs as [|m rs IH]; [done|].
        rewrite !fmap_cons. cbn. fold (mjoin ((λ m : match_, from_root db m.1) <$> rs)). rewrite fmap_app. f_equal. exact IH.
  - exfalso. apply Hs.
    + pose proof text_pos_tpo as Ht. split.
      * intros x y Hx Hy. by apply (tpo_flip _ _ Ht).
      * intros x y z Hx Hy Hz H1 H2. by apply (tpo_trans _ _ Ht z y x).
    + apply Forall_forall. intros m Hm. apply Hin. apply elem_of_list_fmap. by exists m.
  - split; [done|]. done.
Qed.
End search.

Section result.
Context (db : corpus) (c : content) (H : holds_content db c) (T : texts_ok c).
Context (Hflag : is_Some (cp_order db) → cp_all_in_order db = Some true → ∀ n, token c n → n ∈ all_nodes (ct_order c)).
Context (Hlone : ∀ gs n, cp_order db = Some gs → token c n → n ∉ all_nodes (ct_order c) → gs_connected gs n 0 Unbounded = [n]).
Notation O := (ct_order c).

Lemma tokens_lemma fuel rnd l : token_search fuel rnd db = Done l →
  ∃ ns, l = (λ n, (n, node_type_key)) <$> ns ∧ NoDup ns ∧ (∀ n, n ∈ ns ↔ token c n) ∧
    ∀ i j a b, ns !! i = Some a → ns !! j = Some b → precedes c a b → i < j.
Proof using All.
  intros E. destruct (token_search_lemma db c H T Hflag Hlone fuel rnd) as [_ Hs]. destruct (Hs l E) as (roots & Hnd & Hin & _ & ->).
  set (ns := mjoin ((λ m : match_, from_root db m.1) <$> roots)). exists ns. split; [done|].
  assert (ns = mjoin (from_root db <$> roots.*1)) as Ens by (unfold ns; by rewrite <- list_fmap_compose).
  assert (NoDup ns) as Hns.
  { rewrite Ens. apply mjoin_nodup; [done| |].
    - intros r [Ht Hr]%Hin. by apply (from_root_spec db c H T Hflag Hlone).
    - intros a b x [Ha Ha']%Hin [Hb Hb']%Hin Hxa Hxb.
      apply (from_root_spec db c H T Hflag Hlone a Ha Ha') in Hxa. apply (from_root_spec db c H T Hflag Hlone b Hb Hb') in Hxb.
      exact (text_unique db c H T Hflag a b x Ha' Hb' Hxa Hxb). }
  split_and!; [done| |].
  - intros n. rewrite Ens, elem_of_list_join. split.
    + intros (l & Hn & Hl). apply elem_of_list_fmap in Hl as (r & -> & Hr). apply Hin in Hr as [Ht Hr].
      apply (from_root_spec db c H T Hflag Hlone r Ht Hr) in Hn. exact (reach_token db c H T Hflag Hlone r n Ht Hn).
    + intros Ht. destruct (text_root db c H T Hflag Hlone n Ht) as (r & Hr & Hnr & Hre). exists (from_root db r). split.
      * by apply (from_root_spec db c H T Hflag Hlone).
      * apply elem_of_list_fmap. exists r. split; [done|]. by apply Hin.
  - intros i j a b Ha Hb (p & Hp & Hw).
    assert (a ∈ ns) as Ha' by (by eapply elem_of_list_lookup_2). rewrite Ens in Ha'. apply elem_of_list_join in Ha' as (l & Hal & Hl).
    apply elem_of_list_fmap in Hl as (r & -> & Hr). pose proof Hr as Hroot. apply Hin in Hr as [Ht Hr].
    destruct (from_root_spec db c H T Hflag Hlone r Ht Hr) as (Hrnd & Hrin & Hro).
    assert (b ∈ from_root db r) as Hbl.
    { apply Hrin. apply Hrin in Hal as [q Hq]. exists (q ++ p). by eapply walk_app. }
    destruct (mjoin_split (from_root db) _ _ Hroot) as (l1 & l2 & Esplit). rewrite <- Ens in Esplit.
    apply elem_of_list_lookup in Hal as [i' Hi'], Hbl as [j' Hj'].
    assert (ns !! (length l1 + i') = Some a) as Hia.
    { rewrite Esplit. rewrite lookup_app_r by lia. replace (length l1 + i' - length l1) with i' by lia.
      rewrite lookup_app_l; [done|]. by eapply lookup_lt_Some. }
    assert (ns !! (length l1 + j') = Some b) as Hjb.
    { rewrite Esplit. rewrite lookup_app_r by lia. replace (length l1 + j' - length l1) with j' by lia.
      rewrite lookup_app_l; [done|]. by eapply lookup_lt_Some. }
    rewrite (NoDup_lookup _ _ _ _ Hns Ha Hia), (NoDup_lookup _ _ _ _ Hns Hb Hjb).
    assert (i' < j'); [|lia]. destruct (Nat.lt_trichotomy i' j') as [?|[Heq|Hgt]]; [done| |].
    + exfalso. subst j'. rewrite Hi' in Hj'. injection Hj' as ->. destruct T as [(_ & _ & Hac) _]. apply (Hac b). by exists p.
    + exfalso. destruct (Hro j' i' b a Hj' Hi' Hgt) as [q Hq]. destruct T as [(_ & _ & Hac) _]. apply (Hac a).
      exists (p ++ q). split; [by destruct p|]. by eapply walk_app.
Qed.
End result.

(** The shortcut finds no token outside of the order *)
Lemma shortcut_lemma db c fuel rnd : holds_content db c → texts_ok c → is_Some (cp_order db) → cp_all_in_order db = Some true →
  token_search fuel rnd db ≠ Failed ∧
  ∀ l, token_search fuel rnd db = Done l → ∀ n k, (n, k) ∈ l → n ∈ all_nodes (ct_order c).
Proof.
  intros H T [gs Egs] Ef. pose proof (hc_order _ _ H) as Ho. rewrite Egs in Ho. destruct Ho as [Ho _].
  assert (∀ m, m ∈ root_nodes db → token c m.1 ∧ ¬ is_target (ct_order c) m.1) as Hrt.
  { intros x Hx. unfold root_nodes in Hx. rewrite Egs, Ef in Hx. cbn in Hx. apply elem_of_list_fmap in Hx as (y & -> & Hy). cbn.
    apply (im_roots _ _ Ho) in Hy as [[z Hz] Hy]. split; [|done]. apply T. by apply (all_nodes_edge (ct_order c) y z). }
  pose proof (sort_on_ok (λ m : match_, token c m.1 ∧ ¬ is_target (ct_order c) m.1) (λ a b, text_pos db b a) fuel rnd (root_nodes db)) as Hs.
  assert (total_preorder_on (λ m : match_, token c m.1 ∧ ¬ is_target (ct_order c) m.1) (λ a b, text_pos db b a)) as Hp.
  { pose proof (text_pos_tpo db c H T) as Ht. split.
    - intros x y Hx Hy. by apply (tpo_flip _ _ Ht).
    - intros x y z Hx Hy Hz H1 H2. by apply (tpo_trans _ _ Ht z y x). }
  specialize (Hs Hp ltac:(apply Forall_forall; exact Hrt)). unfold token_search.
  destruct (sort _ _ _ _) as [r| |]; [|done|done]. split; [done|]. intros l [= <-] n k Hin. destruct Hs as [Hperm _].
  apply elem_of_list_join in Hin as (l & Hl & Hr). apply elem_of_list_fmap in Hr as (m & -> & Hm). rewrite elem_of_reverse in Hm.
  apply elem_of_list_fmap in Hl as (n' & [= <- ->] & Hn).
  assert (m ∈ root_nodes db) as Hroot by (by rewrite Hperm in Hm).
  unfold root_nodes in Hroot. rewrite Egs, Ef in Hroot. cbn in Hroot. apply elem_of_list_fmap in Hroot as (rt & -> & Hr). cbn in Hn.
  unfold from_root in Hn. rewrite Egs in Hn.
  apply (im_roots _ _ Ho) in Hr as [[z Hz] _]. apply (all_nodes_edge (ct_order c) rt z) in Hz as [Hz _].
  apply (im_connected _ _ Ho rt n 0 Unbounded) in Hn; [|done|by left].
  destruct Hn as (p & [Hw _] & _). destruct p as [|y p _] using rev_ind; [simpl in Hw; by subst n|].
  apply walk_app_inv in Hw as (w & _ & Hwy & Hyn). simpl in Hyn. subst y. by apply (all_nodes_edge (ct_order c) w n).
Qed.
(** Up to 20 texts are always sorted *)
Lemma short_search db rnd : length (root_nodes db) ≤ 20 → token_search 1 rnd db ≠ NoFuel.
Proof.
  intros Hl E. unfold token_search in E. destruct (sort _ _ _ _) eqn:Es; [done|done|]. clear E.
  unfold sort, sort_first_n_items in Es. destruct (decide (0 < length (root_nodes db))); [|done].
  cbn [quicksort] in Es. rewrite Nat.sub_0_r in Es.
  destruct (decide (1 < length (root_nodes db))); [|done]. rewrite decide_True in Es by done.
  destruct (insertion_sort _ _ _ _ _); done.
Qed.

(** The statistic is true if all tokens are in the order *)
Lemma statistic_lemma db c : holds_content db c → is_Some (cp_order db) → (∀ n, token c n → n ∈ all_nodes (ct_order c)) →
  all_token_in_order db = true.
Proof.
  intros H [gs Egs] Ha. unfold all_token_in_order. rewrite Egs. destruct (th_some db c H) as (th & Eth & _). rewrite Eth.
  pose proof (hc_order _ _ H) as Ho. rewrite Egs in Ho. destruct Ho as [Ho _].
  assert (∀ m, m ∈ am_exact_search (cp_annos db) (Some (ak_ns tok_key)) (ak_name tok_key) VAny →
    has_outgoing_coverage th m.1 = false → gs_has_out gs m.1 = true ∨ gs_has_in gs m.1 = true) as Hm.
  { intros m Hm Hc. assert (token c m.1) as Ht.
    { apply (tok_search db c H) in Hm as [_ Hl]. split; [done|]. rewrite <- (coverage_iff db c H th m.1 Eth). by rewrite Hc. }
    apply Ha in Ht. rewrite (has_out_iff gs _ m.1 Ho), (has_in_iff gs _ m.1 Ho). 
    unfold all_nodes in Ht. apply elem_of_union in Ht as [Ht|Ht]; apply elem_of_map in Ht as ([a b] & Ea & He); simpl in Ea.
    - left. exists b. rewrite Ea. exact He.
    - right. exists a. rewrite Ea. exact He. }
  revert Hm. generalize (am_exact_search (cp_annos db) (Some (ak_ns tok_key)) (ak_name tok_key) VAny).
  intros l. assert (∀ acc, acc = true → (∀ m, m ∈ l → has_outgoing_coverage th m.1 = false → gs_has_out gs m.1 = true ∨ gs_has_in gs m.1 = true) →
    fold_left (λ (acc : bool) (m : match_), if has_outgoing_coverage th m.1 then acc else (acc && gs_has_out gs m.1) || gs_has_in gs m.1) l acc = true) as HH.
  { induction l as [|m l IH]; intros acc Hacc Hm; [done|]. cbn. apply IH.
    - destruct (has_outgoing_coverage th m.1) eqn:Ec; [done|]. destruct (Hm m ltac:(by left) Ec) as [->| ->]; subst acc; [done|].
      by rewrite orb_true_r.
    - intros m' Hm'. apply Hm. by right. }
  intros Hm. by apply HH.
Qed.
