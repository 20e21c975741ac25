From stdpp Require Import base list gmap fin_maps fin_map_dom.
From Coq Require Import NArith Lia.
From Verif Require Import GraphSpec KeySer KeySerSpec ListExtra SortedMap Types TypesProofs SymbolTable AnnoMem AnnoSpec AnnoMemProofs
  AnnoMemQueries Adjacency AdjacencySpec AdjacencyProofs CopyProofs GraphUpdate GraphApply GraphApplySpec.

Notation nmap := (gmap (N * anno_key) bytes).

Lemma keys_differ : node_name_key ≠ node_type_key.
Proof. intros E. apply (f_equal ak_name) in E. discriminate E. Qed.

Record R (st : gstate) (A : lgraph) (ι : gmap bytes N) (M : nmap) (Gs : comp → graph) : Prop := {
  r_inv : ∃ leak, inv N.compare (g_node_annos st) leak M;
  r_names : ∀ i n, M !! (i, node_name_key) = Some n ↔ ι !! n = Some i;
  r_items : ∀ i k, is_Some (M !! (i, k)) → ∃ n, ι !! n = Some i;
  r_labels : ∀ n k, lg_labels A !! (n, k) = (i ← ι !! n; M !! (i, k));
  r_comps : dom (g_comps st) = lg_comps A;
  r_gs : ∀ c, ginv (writable st c) (Gs c);
  r_edges : ∀ c a b, (c, (a, b)) ∈ lg_edges A ↔
    ∃ i j, ι !! a = Some i ∧ ι !! b = Some j ∧ Edge i j ∈ gr_edges (Gs c);
  r_dang : ∀ c i j, Edge i j ∈ gr_edges (Gs c) → ∃ a b, ι !! a = Some i ∧ ι !! b = Some j;
  r_elabels : ∀ c a b k, lg_elabels A !! (c, (a, b), k) =
    (i ← ι !! a; j ← ι !! b; gr_annos (Gs c) !! (Edge i j, k));
  r_ids : ∀ n i, ι !! n = Some i → (i < node_bound)%N
}.
Definition cache_ok (c : lru) (ι : gmap bytes N) : Prop := ∀ n r, (n, r) ∈ c → r = ι !! n.

Section facts.
Context {st A ι M Gs} (HR : R st A ι M Gs).
Lemma r_inj a b i : ι !! a = Some i → ι !! b = Some i → a = b.
Proof using HR.
  intros Ha%(r_names _ _ _ _ _ HR) Hb%(r_names _ _ _ _ _ HR). congruence.
Qed.
Lemma r_node n : is_node A n ↔ is_Some (ι !! n).
Proof using HR.
  unfold is_node. rewrite (r_labels _ _ _ _ _ HR). destruct (ι !! n) as [i|] eqn:E; cbn [mbind option_bind].
  - apply (r_names _ _ _ _ _ HR) in E. rewrite E. split; eauto.
  - by split; intros [? ?].
Qed.
Lemma r_id n : id_of st n = ι !! n.
Proof using HR.
  destruct (r_inv _ _ _ _ _ HR) as [leak I]. pose proof (node_id_lemma N.compare node_name_key _ leak M n I) as H.
  unfold id_of. destruct (am_node_id_from_name _ _ n) as [i|].
  - apply (r_names _ _ _ _ _ HR) in H. done.
  - destruct (ι !! n) as [i|] eqn:E; [|done]. apply (r_names _ _ _ _ _ HR) in E. by destruct (H i).
Qed.
Lemma r_has n : am_has_node_name node_name_key (g_node_annos st) n = true ↔ is_Some (ι !! n).
Proof using HR.
  destruct (r_inv _ _ _ _ _ HR) as [leak I]. rewrite (has_node_name_lemma N.compare node_name_key _ leak M n I).
  split; intros [i Hi]; exists i; by apply (r_names _ _ _ _ _ HR).
Qed.
Lemma put_ok cap c n : cache_ok c ι → cache_ok (lru_put cap c n (ι !! n)) ι.
Proof using.
  intros Hc m r Hin. unfold lru_put in Hin. apply elem_of_take in Hin as (k & Hin%elem_of_list_lookup_2 & _).
  apply elem_of_cons in Hin as [[= -> ->]|Hin]; [done|]. apply elem_of_list_filter in Hin as [_ Hin]. by apply Hc.
Qed.
Lemma cached_ok cap c n r c' : cache_ok c ι → cached_id cap st c n = (r, c') → r = ι !! n ∧ cache_ok c' ι.
Proof using HR.
  intros Hc. unfold cached_id, lru_get. destruct (list_find _ c) as [[k x]|] eqn:E.
  - intros [= <- <-]. apply list_find_Some in E as (Hk & Hn & _). apply elem_of_list_lookup_2 in Hk.
    destruct x as [n' v]. cbn [fst snd] in *. subst n'. split; [by apply Hc|].
    intros m v' Hin. apply elem_of_cons in Hin as [[= -> ->]|Hin]; [by apply Hc|].
    apply elem_of_list_filter in Hin as [_ Hin]. by apply Hc.
  - intros [= <- <-]. pose proof (r_id n) as Hid. unfold id_of in Hid. rewrite Hid. split; [done|]. by apply put_ok.
Qed.
End facts.

(** Changing the cache when the map of ids changes *)
Lemma put_other cap c n v ι ι' : cache_ok c ι → v = ι' !! n → (∀ m, m ≠ n → ι' !! m = ι !! m) →
  cache_ok (lru_put cap c n v) ι'.
Proof.
  intros Hc -> Ho m r Hin. unfold lru_put in Hin. apply elem_of_take in Hin as (k & Hin%elem_of_list_lookup_2 & _).
  apply elem_of_cons in Hin as [[= -> ->]|Hin]; [done|]. apply elem_of_list_filter in Hin as [Hne Hin].
  cbn [fst] in Hne. rewrite Ho by done. by apply Hc.
Qed.

Lemma R_empty : R g_empty lg_empty ∅ ∅ (λ _, empty_graph).
Proof.
  split; cbn.
  - exists 0. apply AnnoMemProofs.inv_new.
  - intros i n. by rewrite !lookup_empty.
  - intros i k [v Hv]. by rewrite lookup_empty in Hv.
  - intros n k. by rewrite !lookup_empty.
  - apply dom_empty_L.
  - intros c. unfold writable. cbn. rewrite lookup_empty. apply ginv_new.
  - intros c a b. split; [intros H%elem_of_empty; done|]. intros (i & j & Hi & _). by rewrite lookup_empty in Hi.
  - intros c i j H%elem_of_empty. done.
  - intros c a b k. by rewrite !lookup_empty.
  - intros n i Hi. by rewrite lookup_empty in Hi.
Qed.

(** ids of new nodes *)
Lemma new_id_fresh st M leak i : inv N.compare (g_node_annos st) leak M → new_id st = Some i →
  ∀ k, M !! (i, k) = None.
Proof.
  intros I Hn k. destruct (M !! (i, k)) as [v|] eqn:E; [|done]. exfalso.
  destruct (i_largest _ _ _ _ I i k ltac:(by rewrite E)) as (x & Hx & Hle).
  unfold new_id, am_largest_item in Hn. rewrite Hx in Hn. destruct (x + 1 <? 2 ^ 64)%N; [|done].
  injection Hn as <-. apply Hle. apply N.compare_gt_iff. lia.
Qed.

Lemma new_id_bound st i : new_id st = Some i → (i < node_bound)%N.
Proof.
  unfold new_id. destruct (am_largest_item _) as [x|]; [|intros [= <-]; done].
  destruct (N.ltb_spec (x + 1) (2 ^ 64)) as [Hl|Hl]; [|done]. intros [= <-]. exact Hl.
Qed.

Lemma writable_set st c g c' : writable (set_comp st c g) c' = if decide (c' = c) then g else writable st c'.
Proof.
  unfold writable, set_comp. cbn. destruct (decide (c' = c)) as [->|Hne]; [by rewrite lookup_insert|].
  by rewrite lookup_insert_ne.
Qed.

Section step.
Context (ct : bytes → option N) (cap : nat).

(** Events about nodes: the components stay the same *)
Lemma step_labels st A ι M Gs a' n i k v : R st A ι M Gs → (∃ leak, inv N.compare a' leak (<[(i, k) := v]> M)) →
  ι !! n = Some i → k ≠ node_name_key →
  R (set_annos st a') (LGraph (<[(n, k) := v]> (lg_labels A)) (lg_comps A) (lg_edges A) (lg_elabels A)) ι
    (<[(i, k) := v]> M) Gs.
Proof.
  intros HR Ha Hn Hk. split; cbn.
  - done.
  - intros j m. rewrite lookup_insert_ne by congruence. apply (r_names _ _ _ _ _ HR).
  - intros j k'. destruct (decide ((j, k') = (i, k))) as [[= -> ->]|Hne]; [by exists n|].
    rewrite lookup_insert_ne by done. apply (r_items _ _ _ _ _ HR).
  - intros m k'. destruct (decide ((m, k') = (n, k))) as [[= -> ->]|Hne].
    + rewrite lookup_insert, Hn. cbn. by rewrite lookup_insert.
    + rewrite lookup_insert_ne by done. rewrite (r_labels _ _ _ _ _ HR). destruct (ι !! m) as [j|] eqn:Em; [|done].
      cbn. rewrite lookup_insert_ne; [done|]. intros [= <- <-]. apply Hne. f_equal. by eapply (r_inj HR).
  - apply (r_comps _ _ _ _ _ HR).
  - apply (r_gs _ _ _ _ _ HR).
  - apply (r_edges _ _ _ _ _ HR).
  - apply (r_dang _ _ _ _ _ HR).
  - apply (r_elabels _ _ _ _ _ HR).
  - apply (r_ids _ _ _ _ _ HR).
Qed.
Lemma step_unlabel st A ι M Gs a' n i k : R st A ι M Gs → (∃ leak, inv N.compare a' leak (delete (i, k) M)) →
  ι !! n = Some i → k ≠ node_name_key →
  R (set_annos st a') (LGraph (delete (n, k) (lg_labels A)) (lg_comps A) (lg_edges A) (lg_elabels A)) ι
    (delete (i, k) M) Gs.
Proof.
  intros HR Ha Hn Hk. split; cbn.
  - done.
  - intros j m. rewrite lookup_delete_ne by congruence. apply (r_names _ _ _ _ _ HR).
  - intros j k'. destruct (decide ((j, k') = (i, k))) as [[= -> ->]|Hne]; [by exists n|].
    rewrite lookup_delete_ne by done. apply (r_items _ _ _ _ _ HR).
  - intros m k'. destruct (decide ((m, k') = (n, k))) as [[= -> ->]|Hne].
    + rewrite lookup_delete, Hn. cbn. by rewrite lookup_delete.
    + rewrite lookup_delete_ne by done. rewrite (r_labels _ _ _ _ _ HR). destruct (ι !! m) as [j|] eqn:Em; [|done].
      cbn. rewrite lookup_delete_ne; [done|]. intros [= <- <-]. apply Hne. f_equal. by eapply (r_inj HR).
  - apply (r_comps _ _ _ _ _ HR).
  - apply (r_gs _ _ _ _ _ HR).
  - apply (r_edges _ _ _ _ _ HR).
  - apply (r_dang _ _ _ _ _ HR).
  - apply (r_elabels _ _ _ _ _ HR).
  - apply (r_ids _ _ _ _ _ HR).
Qed.
Lemma step_new st A ι M Gs a' n t i : R st A ι M Gs → ι !! n = None → (∀ k, M !! (i, k) = None) → (i < node_bound)%N →
  (∃ leak, inv N.compare a' leak (<[(i, node_type_key) := t]> (<[(i, node_name_key) := n]> M))) →
  R (set_annos st a')
    (LGraph (<[(n, node_type_key) := t]> (<[(n, node_name_key) := n]> (lg_labels A))) (lg_comps A) (lg_edges A) (lg_elabels A))
    (<[n := i]> ι) (<[(i, node_type_key) := t]> (<[(i, node_name_key) := n]> M)) Gs.
Proof.
  intros HR Hn Hi Hb Ha. pose proof keys_differ as Hk.
  assert (∀ m j, ι !! m = Some j → j ≠ i) as Hfresh.
  { intros m j Hm ->. apply (r_names _ _ _ _ _ HR) in Hm. by rewrite Hi in Hm. }
  assert (∀ m j, ι !! m = Some j → m ≠ n) as Hfresh2 by (intros m j Hm ->; congruence).
  split; cbn.
  - done.
  - intros j m. rewrite lookup_insert_ne by congruence. destruct (decide (j = i)) as [->|Hj].
    + rewrite lookup_insert. split.
      * intros [= ->]. by rewrite lookup_insert.
      * destruct (decide (m = n)) as [->|Hm]; [done|]. rewrite lookup_insert_ne by done.
        intros Hm'. by destruct (Hfresh _ _ Hm').
    + rewrite lookup_insert_ne by congruence. rewrite (r_names _ _ _ _ _ HR).
      destruct (decide (m = n)) as [->|Hm]; [|by rewrite lookup_insert_ne].
      rewrite lookup_insert, Hn. split; [done|]. intros [= ->]. done.
  - intros j k. destruct (decide (j = i)) as [->|Hj].
    + intros _. exists n. by rewrite lookup_insert.
    + rewrite !lookup_insert_ne by congruence. intros [m Hm]%(r_items _ _ _ _ _ HR). exists m.
      rewrite lookup_insert_ne; [done|]. intros <-. congruence.
  - intros m k. destruct (decide (m = n)) as [->|Hm].
    + rewrite lookup_insert. cbn.
      destruct (decide (k = node_type_key)) as [->|Hk1]; [by rewrite !lookup_insert|].
      rewrite lookup_insert_ne by congruence. rewrite (lookup_insert_ne _ (i, node_type_key)) by congruence.
      destruct (decide (k = node_name_key)) as [->|Hk2]; [by rewrite !lookup_insert|].
      rewrite lookup_insert_ne by congruence. rewrite lookup_insert_ne by congruence.
      rewrite (r_labels _ _ _ _ _ HR), Hn, Hi. done.
    + rewrite !lookup_insert_ne by congruence. rewrite (r_labels _ _ _ _ _ HR).
      destruct (ι !! m) as [j|] eqn:Em; [|done]. cbn. pose proof (Hfresh _ _ Em).
      by rewrite !lookup_insert_ne by congruence.
  - apply (r_comps _ _ _ _ _ HR).
  - apply (r_gs _ _ _ _ _ HR).
  - intros c a b. rewrite (r_edges _ _ _ _ _ HR). split.
    + intros (x & y & Hx & Hy & He). exists x, y. pose proof (Hfresh2 _ _ Hx). pose proof (Hfresh2 _ _ Hy).
      by rewrite !lookup_insert_ne by done.
    + intros (x & y & Hx & Hy & He). exists x, y. destruct (r_dang _ _ _ _ _ HR c x y He) as (a0 & b0 & Ha' & Hb').
      pose proof (Hfresh _ _ Ha'). pose proof (Hfresh _ _ Hb').
      split; [|split; [|done]].
      * destruct (decide (a = n)) as [->|Hne]; [rewrite lookup_insert in Hx; congruence|]. by rewrite lookup_insert_ne in Hx.
      * destruct (decide (b = n)) as [->|Hne]; [rewrite lookup_insert in Hy; congruence|]. by rewrite lookup_insert_ne in Hy.
  - intros c x y He. destruct (r_dang _ _ _ _ _ HR c x y He) as (a0 & b0 & Ha' & Hb'). exists a0, b0.
    pose proof (Hfresh2 _ _ Ha'). pose proof (Hfresh2 _ _ Hb'). by rewrite !lookup_insert_ne by done.
  - intros c a b k. rewrite (r_elabels _ _ _ _ _ HR).
    assert (∀ x y, x = i ∨ y = i → gr_annos (Gs c) !! (Edge x y, k) = None) as Hnone.
    { intros x y Hxy. destruct (gr_annos (Gs c) !! (Edge x y, k)) as [v|] eqn:E; [|done]. exfalso.
      pose proof (gi_dom _ _ (r_gs _ _ _ _ _ HR c) (Edge x y) k ltac:(by rewrite E)) as He.
      destruct (r_dang _ _ _ _ _ HR c x y He) as (a0 & b0 & Ha' & Hb').
      pose proof (Hfresh _ _ Ha'). pose proof (Hfresh _ _ Hb'). tauto. }
    destruct (decide (a = n)) as [->|Hna].
    + rewrite Hn, lookup_insert. cbn. destruct (<[n := i]> ι !! b) as [y|]; [|done]. cbn. by rewrite Hnone by auto.
    + rewrite (lookup_insert_ne ι n a) by done. destruct (ι !! a) as [x|]; [|done]. cbn.
      destruct (decide (b = n)) as [->|Hnb].
      * rewrite Hn, lookup_insert. cbn. by rewrite Hnone by auto.
      * by rewrite lookup_insert_ne by done.
  - intros m j. destruct (decide (m = n)) as [->|Hm]; [rewrite lookup_insert; congruence|].
    rewrite lookup_insert_ne by done. apply (r_ids _ _ _ _ _ HR).
Qed.

(** Deleting a node *)
Lemma del_fold i l : ∀ st, NoDup l → (∀ c, c ∈ l → is_Some (g_comps st !! c)) →
  let st' := fold_left (del_node_in i) l st in
  g_node_annos st' = g_node_annos st ∧ dom (g_comps st') = dom (g_comps st) ∧
  ∀ c, writable st' c = if decide (c ∈ l) then adj_delete_node (writable st c) i else writable st c.
Proof.
  induction l as [|x l IH]; intros st Hnd Hall; cbn [fold_left].
  - cbv zeta. split_and!; [done|done|]. intros c. by rewrite decide_False by apply not_elem_of_nil.
  - apply NoDup_cons in Hnd as [Hx Hnd]. destruct (IH (del_node_in i st x) Hnd) as (E1 & E2 & E3).
    { intros c Hc. unfold del_node_in, set_comp. cbn. destruct (decide (c = x)) as [->|Hne]; [by rewrite lookup_insert|].
      rewrite lookup_insert_ne by done. apply Hall. by right. }
    split_and!.
    + by rewrite E1.
    + rewrite E2. unfold del_node_in, set_comp. cbn. rewrite dom_insert_L.
      assert (x ∈ dom (g_comps st)) by (apply elem_of_dom, Hall; by left). set_solver.
    + intros c. rewrite E3. unfold del_node_in. rewrite writable_set.
      destruct (decide (c = x)) as [->|Hne].
      * rewrite (decide_False (P := x ∈ l)) by done. by rewrite decide_True by by left.
      * destruct (decide (c ∈ l)) as [Hc|Hc].
        -- by rewrite decide_True by by right.
        -- rewrite decide_False; [done|]. rewrite elem_of_cons. tauto.
Qed.

Lemma step_delete st A ι M Gs a' n i all : R st A ι M Gs → ι !! n = Some i → NoDup all →
  (∀ c, c ∈ all → c ∈ lg_comps A) → (∀ c p, (c, p) ∈ lg_edges A → touches n p → c ∈ all) →
  (∃ leak, inv N.compare a' leak (filter (λ x, x.1.1 ≠ i) M)) →
  R (fold_left (del_node_in i) all (set_annos st a'))
    (LGraph (filter (λ x, x.1.1 ≠ n) (lg_labels A)) (lg_comps A) (filter (λ x, ¬ touches n x.2) (lg_edges A))
            (filter (λ x, ¬ touches n x.1.1.2) (lg_elabels A)))
    (delete n ι) (filter (λ x, x.1.1 ≠ i) M)
    (λ c, if decide (c ∈ all) then graph_step (Gs c) (DelNode i) true else Gs c).
Proof.
  intros HR Hn Hnd Hall Hdel Ha.
  destruct (del_fold i all (set_annos st a') Hnd) as (E1 & E2 & E3).
  { intros c Hc. cbn. apply elem_of_dom. rewrite (r_comps _ _ _ _ _ HR). by apply Hall. }
  set (Gs' := λ c, if decide (c ∈ all) then graph_step (Gs c) (DelNode i) true else Gs c).
  assert (∀ c x y, Edge x y ∈ gr_edges (Gs' c) ↔ Edge x y ∈ gr_edges (Gs c) ∧ x ≠ i ∧ y ≠ i) as HE.
  { intros c x y. unfold Gs'. destruct (decide (c ∈ all)) as [Hc|Hc].
    - cbn. rewrite elem_of_filter. cbn. tauto.
    - split; [|tauto]. intros He. split; [done|].
      destruct (r_dang _ _ _ _ _ HR c x y He) as (p & q & Hp & Hq).
      assert ((c, (p, q)) ∈ lg_edges A) as Hpq by (apply (r_edges _ _ _ _ _ HR); eauto).
      split; intros ->; apply Hc, (Hdel c (p, q) Hpq).
      + left. by apply (r_inj HR _ _ i).
      + right. by apply (r_inj HR _ _ i). }
  assert (∀ c x y k, gr_annos (Gs' c) !! (Edge x y, k) =
    if decide (x ≠ i ∧ y ≠ i) then gr_annos (Gs c) !! (Edge x y, k) else None) as HX.
  { intros c x y k. destruct (decide (x ≠ i ∧ y ≠ i)) as [Hxy|Hxy].
    - unfold Gs'. destruct (decide (c ∈ all)) as [Hc|Hc]; [|done]. cbn.
      destruct (gr_annos (Gs c) !! (Edge x y, k)) as [v|] eqn:E.
      + apply map_filter_lookup_Some. done.
      + apply map_filter_lookup_None. by left.
    - assert (∀ e k, is_Some (gr_annos (Gs' c) !! (e, k)) → e ∈ gr_edges (Gs' c)) as Hd.
      { unfold Gs'. pose proof (r_gs _ _ _ _ _ HR c) as Hg. destruct (decide (c ∈ all)); [|apply (gi_dom _ _ Hg)].
        apply (gi_dom (adj_delete_node (writable st c) i)). by apply (ginv_step _ _ (DelNode i) _ true Hg). }
      destruct (gr_annos (Gs' c) !! (Edge x y, k)) as [v|] eqn:E; [|done]. exfalso.
      specialize (Hd (Edge x y) k ltac:(by rewrite E)). apply HE in Hd. tauto. }
  assert (∀ m j, delete n ι !! m = Some j ↔ ι !! m = Some j ∧ j ≠ i) as Hdn.
  { intros m j. rewrite lookup_delete_Some. split; intros [H1 H2].
    - split; [done|]. intros ->. apply H1. by apply (r_inj HR _ _ i).
    - split; [|done]. intros <-. congruence. }
  assert (∀ j k, j ≠ i → filter (λ x : N * anno_key * bytes, x.1.1 ≠ i) M !! (j, k) = M !! (j, k)) as HM.
  { intros j k Hj. destruct (M !! (j, k)) as [v|] eqn:E.
    - apply map_filter_lookup_Some. done.
    - apply map_filter_lookup_None. by left. }
  assert (∀ k, filter (λ x : N * anno_key * bytes, x.1.1 ≠ i) M !! (i, k) = None) as HMi.
  { intros k. apply map_filter_lookup_None. right. intros v _ Hf. by apply Hf. }
  fold Gs'. split.
  - rewrite E1. done.
  - intros j m. rewrite Hdn. destruct (decide (j = i)) as [->|Hj].
    + rewrite HMi. split; [done|tauto].
    + rewrite HM by done. rewrite (r_names _ _ _ _ _ HR). tauto.
  - intros j k. destruct (decide (j = i)) as [->|Hj].
    + rewrite HMi. intros [? ?]; done.
    + rewrite HM by done. intros [m Hm]%(r_items _ _ _ _ _ HR). exists m. by apply Hdn.
  - intros m k. cbn [lg_labels]. destruct (decide (m = n)) as [->|Hm].
    + rewrite lookup_delete. cbn. apply map_filter_lookup_None. right. intros v _ Hf. by apply Hf.
    + rewrite lookup_delete_ne by done.
      assert (filter (λ x : bytes * anno_key * bytes, x.1.1 ≠ n) (lg_labels A) !! (m, k) = lg_labels A !! (m, k)) as ->.
      { destruct (lg_labels A !! (m, k)) as [v|] eqn:E.
        - apply map_filter_lookup_Some. done.
        - apply map_filter_lookup_None. by left. }
      rewrite (r_labels _ _ _ _ _ HR). destruct (ι !! m) as [j|] eqn:Em; [|done]. cbn. rewrite HM; [done|].
      intros ->. apply Hm. by apply (r_inj HR _ _ i).
  - cbn [lg_comps]. rewrite E2. apply (r_comps _ _ _ _ _ HR).
  - intros c. rewrite E3. unfold Gs'. pose proof (r_gs _ _ _ _ _ HR c) as Hg.
    destruct (decide (c ∈ all)); [|done]. by apply (ginv_step _ _ (DelNode i) _ true Hg).
  - intros c a b. cbn [lg_edges]. rewrite elem_of_filter. cbn [snd]. rewrite (r_edges _ _ _ _ _ HR). unfold touches. cbn. split.
    + intros [Ht (x & y & Hx & Hy & He)]. exists x, y. rewrite !Hdn, HE.
      assert (x ≠ i) by (intros ->; apply Ht; left; by apply (r_inj HR _ _ i)).
      assert (y ≠ i) by (intros ->; apply Ht; right; by apply (r_inj HR _ _ i)). done.
    + intros (x & y & [Hx Hxi]%Hdn & [Hy Hyi]%Hdn & [He _]%HE). split; [|by exists x, y].
      intros [-> | ->]; congruence.
  - intros c x y [He [Hx Hy]]%HE. destruct (r_dang _ _ _ _ _ HR c x y He) as (p & q & Hp & Hq).
    exists p, q. by rewrite !Hdn.
  - intros c a b k. cbn [lg_elabels].
    assert (filter (λ x : comp * (bytes * bytes) * anno_key * bytes, ¬ touches n x.1.1.2) (lg_elabels A) !! (c, (a, b), k) =
      if decide (touches n (a, b)) then None else lg_elabels A !! (c, (a, b), k)) as ->.
    { destruct (decide (touches n (a, b))) as [Ht|Ht].
      - apply map_filter_lookup_None. right. intros v _ Hf. by apply Hf.
      - destruct (lg_elabels A !! (c, (a, b), k)) as [v|] eqn:E.
        + apply map_filter_lookup_Some. done.
        + apply map_filter_lookup_None. by left. }
    destruct (decide (a = n)) as [->|Hna].
    { rewrite lookup_delete. cbn. by rewrite decide_True by by left. }
    rewrite (lookup_delete_ne _ n a) by done.
    destruct (decide (b = n)) as [->|Hnb].
    { rewrite lookup_delete. cbn. rewrite decide_True by by right. by destruct (ι !! a). }
    rewrite (lookup_delete_ne _ n b) by done. rewrite decide_False by (unfold touches; cbn; tauto).
    rewrite (r_elabels _ _ _ _ _ HR). destruct (ι !! a) as [x|] eqn:Ex; [|done]. destruct (ι !! b) as [y|] eqn:Ey; [|done].
    cbn. rewrite HX, decide_True; [done|]. split; intros ->.
    + apply Hna. by apply (r_inj HR _ _ i).
    + apply Hnb. by apply (r_inj HR _ _ i).
  - intros m j [Hm _]%Hdn. by apply (r_ids _ _ _ _ _ HR) in Hm.
Qed.

(** An update [o] of one component *)
Lemma step_comp st A ι M Gs c g o E' X' : R st A ι M Gs → adj_step (writable st c) o = (g, true) →
  (∀ c', c' ≠ c → (∀ p, (c', p) ∈ E' ↔ (c', p) ∈ lg_edges A) ∧ ∀ p k, X' !! (c', p, k) = lg_elabels A !! (c', p, k)) →
  (∀ a b, (c, (a, b)) ∈ E' ↔ ∃ i j, ι !! a = Some i ∧ ι !! b = Some j ∧ Edge i j ∈ gr_edges (graph_step (Gs c) o true)) →
  (∀ i j, Edge i j ∈ gr_edges (graph_step (Gs c) o true) → ∃ a b, ι !! a = Some i ∧ ι !! b = Some j) →
  (∀ a b k, X' !! (c, (a, b), k) = (i ← ι !! a; j ← ι !! b; gr_annos (graph_step (Gs c) o true) !! (Edge i j, k))) →
  R (set_comp st c g) (LGraph (lg_labels A) ({[c]} ∪ lg_comps A) E' X') ι M
    (λ c', if decide (c' = c) then graph_step (Gs c) o true else Gs c').
Proof.
  intros HR Hs Hother H1 H2 H3. split.
  - apply (r_inv _ _ _ _ _ HR).
  - apply (r_names _ _ _ _ _ HR).
  - apply (r_items _ _ _ _ _ HR).
  - apply (r_labels _ _ _ _ _ HR).
  - unfold set_comp. cbn. rewrite dom_insert_L. by rewrite (r_comps _ _ _ _ _ HR).
  - intros c'. rewrite writable_set. destruct (decide (c' = c)) as [->|Hne]; [|apply (r_gs _ _ _ _ _ HR)].
    apply (ginv_step _ _ o _ true (r_gs _ _ _ _ _ HR c)). done.
  - intros c' a b. cbn [lg_edges]. destruct (decide (c' = c)) as [->|Hne]; [apply H1|].
    destruct (Hother c' Hne) as [-> _]. apply (r_edges _ _ _ _ _ HR).
  - intros c' i j. destruct (decide (c' = c)) as [->|Hne]; [apply H2|]. apply (r_dang _ _ _ _ _ HR).
  - intros c' a b k. cbn [lg_elabels]. destruct (decide (c' = c)) as [->|Hne]; [apply H3|].
    destruct (Hother c' Hne) as [_ ->]. apply (r_elabels _ _ _ _ _ HR).
  - apply (r_ids _ _ _ _ _ HR).
Qed.

(** The test that comes first in every event about edges *)
Lemma on_edge_ok st A ι M Gs c s t l ty cn f (F : comp → lgraph) st' c' :
  R st A ι M Gs → cache_ok c ι → on_edge ct cap st c s t l ty cn f = Some (st', c') →
  (∀ k i j, ct ty = Some k → ι !! s = Some i → ι !! t = Some j →
    ∀ g, f (writable st (k, l, cn)) (Edge i j) = (g, true) →
    ∃ Gs', R (set_comp st (k, l, cn) g) (F (k, l, cn)) ι M Gs') →
  (∃ Gs', R st' (with_edge ct A s t l ty cn F) ι M Gs') ∧ cache_ok c' ι.
Proof.
  intros HR Hc Ho HF. revert Ho. unfold on_edge.
  destruct (cached_id cap st c s) as [i c1] eqn:E1. destruct (cached_ok HR _ _ _ _ _ Hc E1) as [-> Hc1].
  destruct (cached_id cap st c1 t) as [j c2] eqn:E2. destruct (cached_ok HR _ _ _ _ _ Hc1 E2) as [-> Hc2].
  unfold with_edge.
  destruct (ι !! s) as [i|] eqn:Ei.
  2:{ intros [= <- <-]. split; [|done]. destruct (ct ty); [|by exists Gs].
      rewrite decide_False; [by exists Gs|]. rewrite !(r_node HR), Ei. by intros [[? ?] ?]. }
  destruct (ι !! t) as [j|] eqn:Ej.
  2:{ intros [= <- <-]. split; [|done]. destruct (ct ty); [|by exists Gs].
      rewrite decide_False; [by exists Gs|]. rewrite !(r_node HR), Ej. by intros [? [? ?]]. }
  destruct (ct ty) as [k|] eqn:Ek.
  2:{ intros [= <- <-]. split; [|done]. by exists Gs. }
  destruct (f _ _) as [g ok] eqn:Ef. destruct ok; [|done]. intros [= <- <-]. split; [|done].
  rewrite decide_True by (rewrite !(r_node HR), Ei, Ej; split; eauto).
  by apply (HF k i j).
Qed.

Lemma edge_eq_iff {st A ι M Gs} (HR : R st A ι M Gs) s t i j a b x y :
  ι !! s = Some i → ι !! t = Some j → ι !! a = Some x → ι !! b = Some y → (a, b) = (s, t) ↔ Edge x y = Edge i j.
Proof.
  intros Hs Ht Ha Hb. split.
  - intros [= -> ->]. congruence.
  - intros [= -> ->]. f_equal; by eapply (r_inj HR).
Qed.

Lemma ev_step_ok all st A ι M Gs c e st' c' : R st A ι M Gs → cache_ok c ι → keeps_names e →
  NoDup all → (∀ x, x ∈ all → x ∈ lg_comps A) → delete_ok (list_to_set all) A e →
  ev_step ct cap all st c e = Some (st', c') →
  ∃ ι' M' Gs', R st' (lg_step ct A e) ι' M' Gs' ∧ cache_ok c' ι'.
Proof.
  intros HR Hc Hkeep Hnd Hall Hdel.
  assert (A = LGraph (lg_labels A) (lg_comps A) (lg_edges A) (lg_elabels A)) as EA by by destruct A.
  destruct (r_inv _ _ _ _ _ HR) as [leak I].
  destruct e as [n t|n|n ns a v|n ns a|s t l ty cn|s t l ty cn|s t l ty cn ns a v|s t l ty cn ns a]; cbn [ev_step].
  - (* AddNode *)
    assert (lg_step ct A (AddNode n t) = if decide (is_node A n) then A else
      LGraph (<[(n, node_type_key) := t]> (<[(n, node_name_key) := n]> (lg_labels A))) (lg_comps A) (lg_edges A) (lg_elabels A))
      as -> by by destruct A.
    destruct (am_has_node_name _ _ n) eqn:Eh.
    + intros [= <- <-]. apply (r_has HR) in Eh. rewrite decide_True by by apply (r_node HR). by exists ι, M, Gs.
    + assert (ι !! n = None) as Hn.
      { destruct (ι !! n) as [i|] eqn:E; [|done].
        assert (am_has_node_name node_name_key (g_node_annos st) n = true) by (apply (r_has HR); by rewrite E). congruence. }
      rewrite decide_False by (rewrite (r_node HR), Hn; by intros [? ?]).
      destruct (new_id st) as [i|] eqn:En; [|done]. cbn [mbind option_bind].
      destruct (am_insert _ (g_node_annos st) i node_name_key n) as [a1 ok1] eqn:E1. destruct ok1; [|done].
      destruct (am_insert _ a1 i node_type_key t) as [a2 ok2] eqn:E2. destruct ok2; [|done]. intros [= <- <-].
      pose proof (AnnoMemProofs.inv_insert _ _ _ _ _ _ _ _ _ I E1) as I1. cbn in I1.
      pose proof (AnnoMemProofs.inv_insert _ _ _ _ _ _ _ _ _ I1 E2) as I2. cbn in I2.
      eexists (<[n := i]> ι), _, Gs. split.
      * apply step_new; [done|done| | |by exists leak]; [by apply (new_id_fresh st M leak)|by apply (new_id_bound st)].
      * apply (put_other _ _ _ _ ι); [done|by rewrite lookup_insert|]. intros m Hm. by rewrite lookup_insert_ne.
  - (* DeleteNode *)
    assert (lg_step ct A (DeleteNode n) =
      LGraph (filter (λ x, x.1.1 ≠ n) (lg_labels A)) (lg_comps A) (filter (λ x, ¬ touches n x.2) (lg_edges A))
             (filter (λ x, ¬ touches n x.1.1.2) (lg_elabels A))) as -> by by destruct A.
    destruct (cached_id cap st c n) as [r c1] eqn:E1. destruct (cached_ok HR _ _ _ _ _ Hc E1) as [-> Hc1].
    destruct (ι !! n) as [i|] eqn:Ei.
    + destruct (am_remove_item (g_node_annos st) i) as [a' b] eqn:Er. intros [= <- <-].
      destruct (inv_remove_item _ _ _ _ _ _ _ I Er) as [I' _].
      eexists (delete n ι), _, _. split.
      * apply (step_delete st A ι M Gs _ n i all HR Ei Hnd Hall); [|by exists leak].
        intros c0 p Hp Ht. specialize (Hdel c0 p Hp Ht). by apply elem_of_list_to_set in Hdel.
      * apply (put_other _ _ _ _ ι); [done|by rewrite lookup_delete|]. intros m Hm. by rewrite lookup_delete_ne.
    + intros [= <- <-]. exists ι, M, Gs. split; [|done].
      assert (filter (λ x : bytes * anno_key * bytes, x.1.1 ≠ n) (lg_labels A) = lg_labels A) as ->.
      { apply map_filter_id. intros [m k] v Hv. cbn. intros ->. rewrite (r_labels _ _ _ _ _ HR), Ei in Hv. done. }
      assert (filter (λ x : comp * (bytes * bytes), ¬ touches n x.2) (lg_edges A) = lg_edges A) as ->.
      { apply set_eq. intros [c0 [p q]]. rewrite elem_of_filter. cbn. split; [tauto|]. intros He. split; [|done].
        apply (r_edges _ _ _ _ _ HR) in He as (x & y & Hx & Hy & _). intros [H1|H1]; cbn in H1; subst; congruence. }
      assert (filter (λ x : comp * (bytes * bytes) * anno_key * bytes, ¬ touches n x.1.1.2) (lg_elabels A) = lg_elabels A) as ->.
      { apply map_filter_id. intros [[c0 [p q]] k] v Hv. cbn. rewrite (r_elabels _ _ _ _ _ HR) in Hv.
        intros [H1|H1]; cbn in H1; subst; rewrite Ei in Hv; [done|]. by destruct (ι !! p). }
      by rewrite <- EA.
  - (* AddNodeLabel *)
    assert (lg_step ct A (AddNodeLabel n ns a v) = if decide (is_node A n) then
      LGraph (<[(n, AnnoKey a ns) := v]> (lg_labels A)) (lg_comps A) (lg_edges A) (lg_elabels A) else A) as -> by by destruct A.
    destruct (cached_id cap st c n) as [r c1] eqn:E1. destruct (cached_ok HR _ _ _ _ _ Hc E1) as [-> Hc1].
    destruct (ι !! n) as [i|] eqn:Ei.
    + destruct (am_insert _ _ i _ v) as [a' ok] eqn:Ea. destruct ok; [|done]. intros [= <- <-].
      rewrite decide_True by (rewrite (r_node HR), Ei; eauto).
      pose proof (AnnoMemProofs.inv_insert _ _ _ _ _ _ _ _ _ I Ea) as I1. cbn in I1.
      eexists ι, _, Gs. split; [|done]. apply step_labels; [done|by exists leak|done|done].
    + intros [= <- <-]. rewrite decide_False by (rewrite (r_node HR), Ei; by intros [? ?]). by exists ι, M, Gs.
  - (* DeleteNodeLabel *)
    assert (lg_step ct A (DeleteNodeLabel n ns a) =
      LGraph (delete (n, AnnoKey a ns) (lg_labels A)) (lg_comps A) (lg_edges A) (lg_elabels A)) as -> by by destruct A.
    destruct (cached_id cap st c n) as [r c1] eqn:E1. destruct (cached_ok HR _ _ _ _ _ Hc E1) as [-> Hc1].
    destruct (ι !! n) as [i|] eqn:Ei.
    + destruct (am_remove_annotation _ i _) as [a' ok] eqn:Ea. intros [= <- <-].
      destruct (inv_remove_annotation _ _ _ _ _ _ _ _ I Ea) as [I1 _].
      eexists ι, _, Gs. split; [|done]. apply step_unlabel; [done|by exists leak|done|done].
    + intros [= <- <-]. rewrite delete_notin by by rewrite (r_labels _ _ _ _ _ HR), Ei.
      rewrite <- EA. by exists ι, M, Gs.
  - (* AddEdge *)
    intros Ho. assert (lg_step ct A (GraphUpdate.AddEdge s t l ty cn) =
      with_edge ct A s t l ty cn (λ c, LGraph (lg_labels A) ({[c]} ∪ lg_comps A)
        (if decide (s = t) then lg_edges A else {[(c, (s, t))]} ∪ lg_edges A) (lg_elabels A))) as -> by by destruct A.
    destruct (on_edge_ok _ _ _ _ _ _ _ _ _ _ _ _ (λ c, LGraph (lg_labels A) ({[c]} ∪ lg_comps A)
        (if decide (s = t) then lg_edges A else {[(c, (s, t))]} ∪ lg_edges A) (lg_elabels A)) _ _ HR Hc Ho)
      as [[Gs' HR'] Hc']; [|by exists ι, M, Gs'].
    intros k i j Hk Hi Hj g [= <-]. eexists.
    apply (step_comp st A ι M Gs (k, l, cn) _ (Adjacency.AddEdge (Edge i j))); [done|done| | | |].
    + intros c0 Hne. split; [|done]. intros p. destruct (decide (s = t)); [done|]. set_solver.
    + intros a b. cbn [graph_step gr_edges source target].
      destruct (decide (s = t)) as [->|Hst].
      { rewrite decide_True by congruence. apply (r_edges _ _ _ _ _ HR). }
      rewrite decide_False by (intros ->; apply Hst; by apply (r_inj HR _ _ j)).
      rewrite elem_of_union, elem_of_singleton, (r_edges _ _ _ _ _ HR). split.
      * intros [[= -> ->]|(x & y & Hx & Hy & He)]; [exists i, j|exists x, y]; set_solver.
      * intros (x & y & Hx & Hy & He). apply elem_of_union in He as [He%elem_of_singleton|He]; [|right; by exists x, y].
        left. apply (edge_eq_iff HR s t i j a b x y) in He; [congruence|done..].
    + intros x y. cbn [graph_step gr_edges source target]. destruct (decide (i = j)); [apply (r_dang _ _ _ _ _ HR)|].
      intros [[= -> ->]%elem_of_singleton|He]%elem_of_union; [by exists s, t|by apply (r_dang _ _ _ _ _ HR) in He].
    + intros a b k'. cbn [graph_step gr_annos]. apply (r_elabels _ _ _ _ _ HR).
  - (* DeleteEdge *)
    intros Ho. assert (lg_step ct A (DeleteEdge s t l ty cn) =
      with_edge ct A s t l ty cn (λ c, LGraph (lg_labels A) ({[c]} ∪ lg_comps A) (lg_edges A ∖ {[(c, (s, t))]})
        (filter (λ x, x.1.1 ≠ (c, (s, t))) (lg_elabels A)))) as -> by by destruct A.
    destruct (on_edge_ok _ _ _ _ _ _ _ _ _ _ _ _ (λ c, LGraph (lg_labels A) ({[c]} ∪ lg_comps A) (lg_edges A ∖ {[(c, (s, t))]})
        (filter (λ x, x.1.1 ≠ (c, (s, t))) (lg_elabels A))) _ _ HR Hc Ho)
      as [[Gs' HR'] Hc']; [|by exists ι, M, Gs'].
    intros k i j Hk Hi Hj g [= <-]. eexists.
    assert (∀ c0 p k', filter (λ x : comp * (bytes * bytes) * anno_key * bytes, x.1.1 ≠ (k, l, cn, (s, t))) (lg_elabels A) !! (c0, p, k') =
      if decide ((c0, p) = (k, l, cn, (s, t))) then None else lg_elabels A !! (c0, p, k')) as HX.
    { intros c0 p k'. destruct (decide _) as [He|He].
      - apply map_filter_lookup_None. right. intros v _ Hf. by apply Hf.
      - destruct (lg_elabels A !! (c0, p, k')) as [v|] eqn:E.
        + apply map_filter_lookup_Some. done.
        + apply map_filter_lookup_None. by left. }
    apply (step_comp st A ι M Gs (k, l, cn) _ (DelEdge (Edge i j))); [done|done| | | |].
    + intros c0 Hne. split; [set_solver|]. intros p k'. rewrite HX. rewrite decide_False by congruence. done.
    + intros a b. cbn [graph_step gr_edges]. rewrite elem_of_difference, elem_of_singleton, (r_edges _ _ _ _ _ HR). split.
      * intros [(x & y & Hx & Hy & He) Hne]. exists x, y. rewrite elem_of_difference, elem_of_singleton.
        split_and!; [done|done|done|]. intros E. apply Hne. f_equal. by apply (edge_eq_iff HR s t i j a b x y).
      * intros (x & y & Hx & Hy & [He Hne]%elem_of_difference). split; [by exists x, y|].
        intros [= -> ->]. apply Hne. apply elem_of_singleton. congruence.
    + intros x y. cbn [graph_step gr_edges]. intros [He _]%elem_of_difference. by apply (r_dang _ _ _ _ _ HR) in He.
    + intros a b k'. cbn [graph_step gr_annos]. rewrite HX.
      destruct (ι !! a) as [x|] eqn:Ex.
      2:{ cbn. destruct (decide _); [done|]. by rewrite (r_elabels _ _ _ _ _ HR), Ex. }
      destruct (ι !! b) as [y|] eqn:Ey.
      2:{ cbn. destruct (decide _); [done|]. by rewrite (r_elabels _ _ _ _ _ HR), Ex, Ey. }
      cbn. destruct (decide _) as [[= -> ->]|Hne].
      * symmetry. apply map_filter_lookup_None. right. intros v _ Hf. cbn in Hf. apply Hf. congruence.
      * rewrite (r_elabels _ _ _ _ _ HR), Ex, Ey. cbn.
        destruct (gr_annos (Gs (k, l, cn)) !! (Edge x y, k')) as [v|] eqn:E; symmetry.
        -- apply map_filter_lookup_Some. split; [done|]. cbn. intros E'. apply Hne. f_equal.
           by apply (edge_eq_iff HR s t i j a b x y).
        -- apply map_filter_lookup_None. by left.
  - (* AddEdgeLabel *)
    intros Ho. set (F := λ c, LGraph (lg_labels A) ({[c]} ∪ lg_comps A) (lg_edges A)
        (if decide ((c, (s, t)) ∈ lg_edges A) then <[(c, (s, t), AnnoKey a ns) := v]> (lg_elabels A) else lg_elabels A)).
    assert (lg_step ct A (AddEdgeLabel s t l ty cn ns a v) = with_edge ct A s t l ty cn F) as -> by by destruct A.
    destruct (on_edge_ok _ _ _ _ _ _ _ _ _ _ _ _ F _ _ HR Hc Ho) as [[Gs' HR'] Hc']; [|by exists ι, M, Gs'].
    intros k i j Hk Hi Hj g Hg. cbn [source target] in Hg.
    assert ((k, l, cn, (s, t)) ∈ lg_edges A ↔ Edge i j ∈ gr_edges (Gs (k, l, cn))) as Hin.
    { rewrite (r_edges _ _ _ _ _ HR). split; [|by exists i, j]. intros (x & y & Hx & Hy & He). congruence. }
    rewrite <- (gi_out _ _ (r_gs _ _ _ _ _ HR (k, l, cn))) in Hin.
    destruct (decide (j ∈ adj_out (writable st (k, l, cn)) i)) as [Hj'|Hj'].
    + assert ((k, l, cn, (s, t)) ∈ lg_edges A) as He by by apply Hin. eexists.
      apply (step_comp st A ι M Gs (k, l, cn) _ (AddAnno (Edge i j) (AnnoKey a ns) v)); [done|done| | | |];
        rewrite ?(decide_True (P := (k, l, cn, (s, t)) ∈ lg_edges A)) by done.
      * intros c0 Hne. split; [done|]. intros p k'. by rewrite lookup_insert_ne by congruence.
      * intros a0 b. cbn [graph_step gr_edges]. apply (r_edges _ _ _ _ _ HR).
      * intros x y. cbn [graph_step gr_edges]. apply (r_dang _ _ _ _ _ HR).
      * intros a0 b k'. cbn [graph_step gr_annos andb].
        rewrite bool_decide_eq_true_2 by by apply (gi_out _ _ (r_gs _ _ _ _ _ HR (k, l, cn))).
        destruct (ι !! a0) as [x|] eqn:Ex.
        2:{ rewrite lookup_insert_ne by congruence. by rewrite (r_elabels _ _ _ _ _ HR), Ex. }
        destruct (ι !! b) as [y|] eqn:Ey.
        2:{ rewrite lookup_insert_ne by congruence. by rewrite (r_elabels _ _ _ _ _ HR), Ex, Ey. }
        cbn. destruct (decide ((a0, b) = (s, t) ∧ k' = AnnoKey a ns)) as [[[= -> ->] ->]|Hne].
        -- rewrite lookup_insert. replace x with i by congruence. replace y with j by congruence. by rewrite lookup_insert.
        -- rewrite lookup_insert_ne by (intros [= <- <- <-]; by apply Hne).
           rewrite lookup_insert_ne. { by rewrite (r_elabels _ _ _ _ _ HR), Ex, Ey. }
           intros [= E1 E2 E3]. subst. apply Hne. split; [|done].
           apply (edge_eq_iff HR s t x y a0 b x y); done.
    + injection Hg as <-. eexists.
      unfold F. rewrite (decide_False (P := (k, l, cn, (s, t)) ∈ lg_edges A)) by by rewrite Hin.
      apply (step_comp st A ι M Gs (k, l, cn) _ (AddAnno (Edge i j) (AnnoKey a ns) v)); [done| | | | |].
      * cbn. unfold adj_add_anno. cbn. by rewrite decide_False.
      * done.
      * intros a0 b. cbn [graph_step gr_edges]. apply (r_edges _ _ _ _ _ HR).
      * intros x y. cbn [graph_step gr_edges]. apply (r_dang _ _ _ _ _ HR).
      * intros a0 b k'. cbn [graph_step gr_annos andb].
        rewrite bool_decide_eq_false_2 by by rewrite <- (gi_out _ _ (r_gs _ _ _ _ _ HR (k, l, cn))).
        apply (r_elabels _ _ _ _ _ HR).
  - (* DeleteEdgeLabel *)
    intros Ho. set (F := λ c, LGraph (lg_labels A) ({[c]} ∪ lg_comps A) (lg_edges A)
        (delete (c, (s, t), AnnoKey a ns) (lg_elabels A))).
    assert (lg_step ct A (DeleteEdgeLabel s t l ty cn ns a) = with_edge ct A s t l ty cn F) as -> by by destruct A.
    destruct (on_edge_ok _ _ _ _ _ _ _ _ _ _ _ _ F _ _ HR Hc Ho) as [[Gs' HR'] Hc']; [|by exists ι, M, Gs'].
    intros k i j Hk Hi Hj g Hg. cbn [source target] in Hg.
    assert (∀ g', adj_step (writable st (k, l, cn)) (DelAnno (Edge i j) (AnnoKey a ns)) = (g', true) →
      ∃ Gs', R (set_comp st (k, l, cn) g') (F (k, l, cn)) ι M Gs') as Hmain.
    { intros g' Hg'. eexists.
      apply (step_comp st A ι M Gs (k, l, cn) _ (DelAnno (Edge i j) (AnnoKey a ns))); [done|done| | | |].
      * intros c0 Hne. split; [done|]. intros p k'. by rewrite lookup_delete_ne by congruence.
      * intros a0 b. cbn [graph_step gr_edges]. apply (r_edges _ _ _ _ _ HR).
      * intros x y. cbn [graph_step gr_edges]. apply (r_dang _ _ _ _ _ HR).
      * intros a0 b k'. cbn [graph_step gr_annos].
        destruct (ι !! a0) as [x|] eqn:Ex.
        2:{ rewrite lookup_delete_ne by congruence. by rewrite (r_elabels _ _ _ _ _ HR), Ex. }
        destruct (ι !! b) as [y|] eqn:Ey.
        2:{ rewrite lookup_delete_ne by congruence. by rewrite (r_elabels _ _ _ _ _ HR), Ex, Ey. }
        cbn. destruct (decide ((a0, b) = (s, t) ∧ k' = AnnoKey a ns)) as [[[= -> ->] ->]|Hne].
        -- rewrite lookup_delete. replace x with i by congruence. replace y with j by congruence. by rewrite lookup_delete.
        -- rewrite lookup_delete_ne by (intros [= <- <- <-]; by apply Hne).
           rewrite lookup_delete_ne. { by rewrite (r_elabels _ _ _ _ _ HR), Ex, Ey. }
           intros [= E1 E2 E3]. subst. apply Hne. split; [|done].
           apply (edge_eq_iff HR s t x y a0 b x y); done. }
    destruct (decide (j ∈ adj_out (writable st (k, l, cn)) i)) as [Hj'|Hj'].
    + injection Hg as <-. by apply Hmain.
    + injection Hg as <-.
      assert (∀ k', gr_annos (Gs (k, l, cn)) !! (Edge i j, k') = None) as Hnone.
      { intros k'. destruct (gr_annos (Gs (k, l, cn)) !! (Edge i j, k')) as [v|] eqn:E; [|done]. exfalso. apply Hj'.
        apply (gi_out _ _ (r_gs _ _ _ _ _ HR (k, l, cn))).
        apply (gi_dom _ _ (r_gs _ _ _ _ _ HR (k, l, cn)) _ k'). by rewrite E. }
      assert (F (k, l, cn) = LGraph (lg_labels A) ({[(k, l, cn)]} ∪ lg_comps A) (lg_edges A) (lg_elabels A)) as ->.
      { unfold F. rewrite delete_notin; [done|]. rewrite (r_elabels _ _ _ _ _ HR), Hi, Hj. cbn. apply Hnone. }
      eexists. apply (step_comp st A ι M Gs (k, l, cn) _ (AddAnno (Edge i j) (AnnoKey a ns) [])); [done| | | | |].
      * cbn. unfold adj_add_anno. cbn. by rewrite decide_False.
      * done.
      * intros a0 b. cbn [graph_step gr_edges]. apply (r_edges _ _ _ _ _ HR).
      * intros x y. cbn [graph_step gr_edges]. apply (r_dang _ _ _ _ _ HR).
      * intros a0 b k'. cbn [graph_step gr_annos andb].
        rewrite bool_decide_eq_false_2 by by rewrite <- (gi_out _ _ (r_gs _ _ _ _ _ HR (k, l, cn))).
        apply (r_elabels _ _ _ _ _ HR).
Qed.
End step.
