From stdpp Require Import base list gmap fin_maps fin_map_dom.
From Coq Require Import NArith Lia.
From Verif Require Import GraphSpec KeySer KeySerSpec ListExtra SortedMap Types TypesProofs SymbolTable AnnoMem AnnoSpec
  AnnoMemProofs AnnoMemQueries Dfs Adjacency AdjacencySpec AdjacencyProofs CopyProofs GraphUpdate GraphApply GraphApplySpec
  GraphApplyProofs.

Section history.
Context (ct : bytes → option N).

Lemma lg_step_comps A e : lg_comps A ⊆ lg_comps (lg_step ct A e).
Proof.
  destruct A as [L C E X]. destruct e; cbn; try done; unfold with_edge;
    repeat (case_decide || destruct (ct _)); cbn; set_solver.
Qed.
Lemma R_change st A ι M Gs id : R st A ι M Gs → R (GState (g_node_annos st) (g_comps st) id) A ι M Gs.
Proof. intros [H1 H2 H3 H4 H5 H6 H7 H8 H9 H10]. split; done. Qed.

Lemma loop_ok cap all es : ∀ st A ι M Gs c st', R st A ι M Gs → cache_ok c ι → Forall keeps_names es.*2 →
  NoDup all → (∀ x, x ∈ all → x ∈ lg_comps A) → deletes_ok ct (list_to_set all) A es.*2 →
  ev_loop ct cap all st c es = Some st' → ∃ ι' M' Gs', R st' (lg_run ct A es.*2) ι' M' Gs'.
Proof.
  induction es as [|[id e] es IH]; intros st A ι M Gs c st' HR Hc Hk Hnd Hall Hd; cbn.
  - intros [= <-]. by exists ι, M, Gs.
  - destruct (ev_step ct cap all st c e) as [[st1 c1]|] eqn:E1; [|done]. cbn [mbind option_bind]. intros Hl.
    cbn in Hk, Hd. apply Forall_cons in Hk as [Hk1 Hk]. destruct Hd as [Hd1 Hd].
    destruct (ev_step_ok ct cap all _ _ _ _ _ _ _ _ _ HR Hc Hk1 Hnd Hall Hd1 E1) as (ι1 & M1 & Gs1 & HR1 & Hc1).
    refine (IH _ _ _ _ _ _ _ (R_change _ _ _ _ _ _ HR1) Hc1 Hk Hnd _ Hd Hl).
    intros x Hx. by apply lg_step_comps, Hall.
Qed.
Lemma comps_list st : NoDup (map_to_list (g_comps st)).*1 ∧
  list_to_set (C := gset comp) (map_to_list (g_comps st)).*1 = dom (g_comps st).
Proof.
  split; [apply NoDup_fst_map_to_list|]. apply set_eq. intros c. rewrite elem_of_list_to_set, elem_of_dom, elem_of_list_fmap.
  split.
  - intros ([c0 g] & -> & Hin%elem_of_map_to_list). by exists g.
  - intros [g Hg]. exists (c, g). split; [done|]. by apply elem_of_map_to_list.
Qed.
Lemma update_ok st A ι M Gs es st' : R st A ι M Gs → Forall keeps_names es.*2 →
  deletes_ok ct (lg_comps A) A es.*2 → apply_update ct st es = Some st' →
  ∃ ι' M' Gs', R st' (lg_run ct A es.*2) ι' M' Gs'.
Proof.
  intros HR Hk Hd Hu. destruct (comps_list st) as [Hnd Hset].
  rewrite (r_comps _ _ _ _ _ HR) in Hset.
  apply (loop_ok 1000 (map_to_list (g_comps st)).*1 es st A ι M Gs []); try done.
  - intros n r H%elem_of_nil. done.
  - intros x Hx. rewrite <- Hset. by apply elem_of_list_to_set.
  - by rewrite Hset.
Qed.
Lemma history_okR us : ∀ st A ι M Gs st', R st A ι M Gs → history_ok ct A (events_of us) →
  apply_updates ct st us = Some st' → ∃ ι' M' Gs', R st' (lg_history ct A (events_of us)) ι' M' Gs'.
Proof.
  induction us as [|u us IH]; intros st A ι M Gs st' HR Hok; cbn.
  - intros [= <-]. by exists ι, M, Gs.
  - destruct (apply_update ct st u) as [st1|] eqn:E1; [|done]. cbn [mbind option_bind]. intros Hl.
    cbn in Hok. destruct Hok as (Hk & Hd & Hok).
    destruct (update_ok _ _ _ _ _ _ _ HR Hk Hd E1) as (ι1 & M1 & Gs1 & HR1).
    by apply (IH _ _ _ _ _ _ HR1).
Qed.

Lemma R_observes st A ι M Gs : R st A ι M Gs → observes st A.
Proof.
  intros HR.
  assert (∀ c i j, j ∈ adj_out (writable st c) i → is_Some (g_comps st !! c)) as Hsome.
  { intros c i j. unfold writable. destruct (g_comps st !! c); [eauto|]. cbn. intros H%elem_of_nil. done. }
  split.
  - intros n. by rewrite (r_id HR), (r_node HR).
  - intros n. by rewrite (r_has HR), (r_node HR).
  - intros n i k. rewrite (r_id HR). intros Hi. destruct (r_inv _ _ _ _ _ HR) as [leak I].
    rewrite (get_value_lemma N.compare _ _ _ _ _ I). by rewrite (r_labels _ _ _ _ _ HR), Hi.
  - apply (r_comps _ _ _ _ _ HR).
  - intros c a b. rewrite (r_edges _ _ _ _ _ HR). split.
    + intros (i & j & Hi & Hj & He). pose proof (proj2 (gi_out _ _ (r_gs _ _ _ _ _ HR c) i j) He) as Ho.
      destruct (Hsome _ _ _ Ho) as [g Hg]. exists g, i, j. rewrite !(r_id HR). unfold writable in Ho. rewrite Hg in Ho. done.
    + intros (g & i & j & Hg & Hi & Hj & Ho). exists i, j. rewrite !(r_id HR) in *. split_and!; [done..|].
      apply (gi_out _ _ (r_gs _ _ _ _ _ HR c)). unfold writable. by rewrite Hg.
  - intros c g i j Hg. pose proof (r_gs _ _ _ _ _ HR c) as I. unfold writable in I. rewrite Hg in I. cbn in I.
    by rewrite (gi_in _ _ I), (gi_out _ _ I).
  - intros c g i j Hg Ho. pose proof (r_gs _ _ _ _ _ HR c) as I. unfold writable in I. rewrite Hg in I. cbn in I.
    apply (gi_out _ _ I) in Ho. setoid_rewrite (r_id HR). by apply (r_dang _ _ _ _ _ HR c).
  - intros c g a b i j k Hg. rewrite !(r_id HR). intros Hi Hj.
    pose proof (r_gs _ _ _ _ _ HR c) as I. unfold writable in I. rewrite Hg in I. cbn in I.
    destruct (gi_annos _ _ I) as [leak Ia]. rewrite (get_value_lemma edge_compare _ _ _ _ _ Ia).
    by rewrite (r_elabels _ _ _ _ _ HR), Hi, Hj.
Qed.

(** The test for an edge *)
Lemma edge_test st A ι M Gs c i j : R st A ι M Gs →
  ∃ f0, ∀ f, f0 ≤ f → is_connected f (adj_out (writable st c)) i j 1 (Included 1%N) =
    Some (bool_decide (j ∈ adj_out (writable st c) i)).
Proof.
  intros HR. pose proof (r_gs _ _ _ _ _ HR c) as I.
  assert (ids_ok (gr_edges (Gs c))) as Hids.
  { intros a b He. destruct (r_dang _ _ _ _ _ HR c a b He) as (p & q & Hp & Hq).
    split; by eapply (r_ids _ _ _ _ _ HR). }
  destruct (adj_is_connected _ _ I Hids i j 1 (Included 1%N) ltac:(done)) as [f0 Hf].
  exists f0. intros f Hle. destruct (Hf f Hle) as (b & -> & Hb). f_equal.
  apply eq_true_iff_eq. rewrite Hb, bool_decide_eq_true, (gi_out _ _ I). split.
  - intros (p & [Hw _] & Hd). unfold in_distance in Hd. destruct p as [|x [|y p]]; cbn in Hd; [lia| |lia].
    cbn in Hw. destruct Hw as [Hw ->]. exact Hw.
  - intros He. exists [j]. split; [split|].
    + by split.
    + apply NoDup_cons. split; [|apply NoDup_singleton]. intros ->%elem_of_list_singleton. by apply (gi_loop _ _ I j).
    + cbn. split; cbn; lia.
Qed.

(** Without restrictions on the history: what holds for the node annotations *)
Definition N0 (st : gstate) : Prop := ∃ leak M, inv N.compare (g_node_annos st) leak M.
Lemma fold_del_annos i l : ∀ st, g_node_annos (fold_left (del_node_in i) l st) = g_node_annos st.
Proof. induction l as [|c l IH]; intros st; [done|]. cbn. by rewrite IH. Qed.
Lemma on_edge_annos cap st c s t l ty cn f st' c' :
  on_edge ct cap st c s t l ty cn f = Some (st', c') → g_node_annos st' = g_node_annos st.
Proof.
  unfold on_edge. destruct (cached_id cap st c s) as [i c1]. destruct (cached_id cap st c1 t) as [j c2].
  destruct i as [i|]; [|by intros [= <- <-]]. destruct j as [j|]; [|by intros [= <- <-]].
  destruct (ct ty) as [k|]; [|by intros [= <- <-]].
  destruct (f _ _) as [g []]; [|done]. by intros [= <- <-].
Qed.
Lemma step_N0 cap all st c e st' c' : N0 st → ev_step ct cap all st c e = Some (st', c') → N0 st'.
Proof.
  intros (leak & M & I).
  destruct e as [n t|n|n ns a v|n ns a|s t l ty cn|s t l ty cn|s t l ty cn ns a v|s t l ty cn ns a]; cbn [ev_step];
    try (intros Ho; apply on_edge_annos in Ho; exists leak, M; by rewrite Ho).
  - destruct (am_has_node_name _ _ n); [intros [= <- <-]; by exists leak, M|].
    destruct (new_id st) as [i|]; [|done]. cbn [mbind option_bind].
    destruct (am_insert _ (g_node_annos st) i node_name_key n) as [a1 ok1] eqn:E1. destruct ok1; [|done].
    destruct (am_insert _ a1 i node_type_key t) as [a2 ok2] eqn:E2. destruct ok2; [|done]. intros [= <- <-].
    eexists leak, _. exact (AnnoMemProofs.inv_insert _ _ _ _ _ _ _ _ _ (AnnoMemProofs.inv_insert _ _ _ _ _ _ _ _ _ I E1) E2).
  - destruct (cached_id cap st c n) as [[i|] c1]; [|intros [= <- <-]; by exists leak, M].
    destruct (am_remove_item (g_node_annos st) i) as [a' b] eqn:Er. intros [= <- <-].
    destruct (inv_remove_item _ _ _ _ _ _ _ I Er) as [I' _].
    unfold N0. rewrite fold_del_annos. eexists leak, _. exact I'.
  - destruct (cached_id cap st c n) as [[i|] c1]; [|intros [= <- <-]; by exists leak, M].
    destruct (am_insert _ _ i _ v) as [a' ok] eqn:Ea. destruct ok; [|done]. intros [= <- <-].
    eexists leak, _. exact (AnnoMemProofs.inv_insert _ _ _ _ _ _ _ _ _ I Ea).
  - destruct (cached_id cap st c n) as [[i|] c1]; [|intros [= <- <-]; by exists leak, M].
    destruct (am_remove_annotation _ i _) as [a' ok] eqn:Ea. intros [= <- <-].
    destruct (inv_remove_annotation _ _ _ _ _ _ _ _ I Ea) as [I1 _]. eexists leak, _. exact I1.
Qed.
Lemma loop_N0 cap all es : ∀ st c st', N0 st → ev_loop ct cap all st c es = Some st' → N0 st'.
Proof.
  induction es as [|[id e] es IH]; intros st c st' H; cbn; [by intros [= <-]|].
  destruct (ev_step ct cap all st c e) as [[st1 c1]|] eqn:E1; [|done]. cbn [mbind option_bind].
  apply IH. pose proof (step_N0 _ _ _ _ _ _ _ H E1) as H1. exact H1.
Qed.
Lemma history_N0 us : ∀ st st', N0 st → apply_updates ct st us = Some st' → N0 st'.
Proof.
  induction us as [|u us IH]; intros st st' H; cbn; [by intros [= <-]|].
  destruct (apply_update ct st u) as [st1|] eqn:E1; [|done]. cbn [mbind option_bind]. apply IH.
  by apply (loop_N0 _ _ _ _ _ _ H E1).
Qed.
Lemma N0_empty : N0 g_empty.
Proof. exists 0, ∅. apply AnnoMemProofs.inv_new. Qed.
Lemma N0_inj st a b i : N0 st → id_of st a = Some i → id_of st b = Some i → a = b.
Proof.
  intros (leak & M & I). unfold id_of.
  pose proof (node_id_lemma N.compare node_name_key _ leak M a I) as Ha.
  pose proof (node_id_lemma N.compare node_name_key _ leak M b I) as Hb.
  intros Ea Eb. rewrite Ea in Ha. rewrite Eb in Hb. congruence.
Qed.
(** The id of a new node had no label before *)
Lemma N0_add cap all st c n t st' c' : N0 st → ev_step ct cap all st c (AddNode n t) = Some (st', c') →
  am_has_node_name node_name_key (g_node_annos st) n = false →
  ∃ i, id_of st' n = Some i ∧ (i < node_bound)%N ∧ (∀ m, id_of st m ≠ Some i) ∧
    (∀ k, am_get_value (g_node_annos st) i k = None) ∧
    am_get_value (g_node_annos st') i node_type_key = Some t ∧
    ∀ j k, j ≠ i → am_get_value (g_node_annos st') j k = am_get_value (g_node_annos st) j k.
Proof.
  intros (leak & M & I) Hs Hn. cbn in Hs. rewrite Hn in Hs.
  destruct (new_id st) as [i|] eqn:En; [|done]. cbn [mbind option_bind] in Hs.
  destruct (am_insert _ (g_node_annos st) i node_name_key n) as [a1 ok1] eqn:E1. destruct ok1; [|done].
  destruct (am_insert _ a1 i node_type_key t) as [a2 ok2] eqn:E2. destruct ok2; [|done]. injection Hs as <- <-.
  pose proof (AnnoMemProofs.inv_insert _ _ _ _ _ _ _ _ _ I E1) as I1. cbn in I1.
  pose proof (AnnoMemProofs.inv_insert _ _ _ _ _ _ _ _ _ I1 E2) as I2. cbn in I2.
  pose proof (new_id_fresh st M leak i I En) as Hf. exists i.
  assert (∀ m, m ≠ i → M !! (m, node_name_key) ≠ Some n) as Hno.
  { intros m _ Hm. assert (am_has_node_name node_name_key (g_node_annos st) n = true); [|congruence].
    apply (has_node_name_lemma N.compare node_name_key _ leak M n I). eauto. }
  pose proof keys_differ as Hkd. split_and!.
  - unfold id_of. cbn [g_node_annos set_annos]. pose proof (node_id_lemma N.compare node_name_key _ leak _ n I2) as Hid.
    destruct (am_node_id_from_name _ a2 n) as [j|].
    + rewrite lookup_insert_ne in Hid by congruence. destruct (decide (j = i)) as [->|Hj]; [done|].
      rewrite lookup_insert_ne in Hid by congruence. by destruct (Hno j Hj).
    + destruct (Hid i). rewrite lookup_insert_ne by congruence. by rewrite lookup_insert.
  - by apply (new_id_bound st).
  - intros m Hm. pose proof (node_id_lemma N.compare node_name_key _ leak M m I) as Hid. unfold id_of in Hm.
    rewrite Hm in Hid. by rewrite Hf in Hid.
  - intros k. rewrite (get_value_lemma N.compare _ _ _ _ _ I). apply Hf.
  - cbn. rewrite (get_value_lemma N.compare _ _ _ _ _ I2). by rewrite lookup_insert.
  - intros j k Hj. cbn. rewrite (get_value_lemma N.compare _ _ _ _ _ I2), (get_value_lemma N.compare _ _ _ _ _ I).
    by rewrite !lookup_insert_ne by congruence.
Qed.

(** Size: an update cannot fail as long as the total number of events is small *)
Record bnd (st : gstate) (n : nat) : Prop := {
  b_keys : length (by_id (anno_keys (g_node_annos st))) ≤ n;
  b_vals : length (by_id (anno_values (g_node_annos st))) ≤ n;
  b_gs : ∀ c, small (writable st c) n;
  b_max : ∀ i, largest_item (g_node_annos st) = Some i → (i < N.of_nat n)%N
}.
Lemma bnd_mono st n m : bnd st n → n ≤ m → bnd st m.
Proof.
  intros [H1 H2 H3 H4] Hle. split; [lia|lia| |].
  - intros c. destruct (H3 c). split; lia.
  - intros i Hi. specialize (H4 i Hi). lia.
Qed.
Lemma insert_max (a : am N) i k v a' b x : am_insert N.compare a i k v = (a', b) → largest_item a' = Some x →
  largest_item a = Some x ∨ x = i.
Proof.
  unfold am_insert. destruct (st_insert (anno_keys a) k) as [ks [ksym|]]; [|intros [= <- <-]; cbn; by left].
  destruct (st_insert (anno_values a) v) as [vs [vsym|]]; [|intros [= <- <-]; cbn; by left].
  destruct (al_get _ _ _) as [v0|]; [destruct (decide _)|]; intros [= <- <-]; cbn; [by left|by left|].
  unfold grow_largest. destruct (largest_item a) as [y|]; [|intros [= ->]; by right].
  destruct (y ?= i)%N; intros [= ->]; auto.
Qed.
Lemma remove_item_max (a : am N) i : largest_item (am_remove_item a i).1 = largest_item a.
Proof.
  unfold am_remove_item. destruct (by_container a !! i) as [l|]; [|done]. cbn [fst].
  match goal with |- context [fold_left _ l ?x] => set (s0 := x) end.
  change (largest_item a) with (largest_item s0). clearbody s0.
  revert s0. induction l as [|x l IH]; intros s; simpl; [done|]. rewrite IH. unfold remove_item_step.
  destruct (st_get_value (anno_keys s) x.1); [|done]. by destruct (decrease_key _ _ _ _ _) as [[? ?] ?].
Qed.
Lemma remove_anno_max (a : am N) i k : largest_item (am_remove_annotation a i k).1 = largest_item a.
Proof.
  unfold am_remove_annotation. destruct (st_get_symbol _ _); [|done]. destruct (by_container a !! i); [|done].
  destruct (al_get _ _ _); [|done]. by destruct (decrease_key _ _ _ _ _) as [[? ?] ?].
Qed.
Lemma on_edge_bnd cap st c s t l ty cn f n : bnd st n → (N.of_nat n < usize_max)%N →
  (∀ g e, small g n → ∃ g', f g e = (g', true) ∧ small g' (S n)) →
  ∃ st' c', on_edge ct cap st c s t l ty cn f = Some (st', c') ∧ bnd st' (S n).
Proof.
  intros Hb Hn Hf. unfold on_edge. destruct (cached_id cap st c s) as [i c1]. destruct (cached_id cap st c1 t) as [j c2].
  pose proof (bnd_mono _ _ (S n) Hb ltac:(lia)) as Hb'.
  destruct i as [i|]; [|by exists st, c2]. destruct j as [j|]; [|by exists st, c2]. destruct (ct ty) as [k|]; [|by exists st, c2].
  destruct (Hf (writable st (k, l, cn)) (Edge i j) (b_gs _ _ Hb _)) as (g' & -> & Hg').
  eexists _, _. split; [done|]. split; [apply (b_keys _ _ Hb')|apply (b_vals _ _ Hb')| |apply (b_max _ _ Hb')].
  intros c0. rewrite writable_set. destruct (decide _); [done|]. apply (b_gs _ _ Hb').
Qed.
Lemma insert_bnd (a : am N) i k v n : length (by_id (anno_keys a)) ≤ n → length (by_id (anno_values a)) ≤ n →
  (N.of_nat n < usize_max)%N →
  ∃ a', am_insert N.compare a i k v = (a', true) ∧ length (by_id (anno_keys a')) ≤ S n ∧ length (by_id (anno_values a')) ≤ S n.
Proof.
  intros H1 H2 Hn. destruct (am_insert N.compare a i k v) as [a' r] eqn:E. exists a'.
  destruct (step_len N.compare a (AmInsert i k v) a' (if r then AmOk else AmErr) n) as (L1 & L2 & L3); [cbn; by rewrite E|done|done|].
  destruct r; [done|]. by destruct (L3 Hn).
Qed.
Lemma step_total cap all st A ι M Gs c e n : R st A ι M Gs → cache_ok c ι → bnd st n → (N.of_nat n + 2 <= usize_max)%N →
  ∃ st' c', ev_step ct cap all st c e = Some (st', c') ∧ bnd st' (n + 2).
Proof.
  intros HR Hc Hb Hn. pose proof (bnd_mono _ _ (n + 2) Hb ltac:(lia)) as Hb'.
  assert (∀ s t l ty cn f, (∀ g e, small g n → ∃ g', f g e = (g', true) ∧ small g' (S n)) →
    ∃ st' c', on_edge ct cap st c s t l ty cn f = Some (st', c') ∧ bnd st' (n + 2)) as Hedge.
  { intros s t l ty cn f Hf. destruct (on_edge_bnd cap st c s t l ty cn f n Hb ltac:(lia) Hf) as (st' & c' & E & Hb1).
    exists st', c'. split; [done|]. apply (bnd_mono _ _ _ Hb1). lia. }
  destruct (r_inv _ _ _ _ _ HR) as [leak I].
  destruct e as [m t|m|m ns a v|m ns a|s t l ty cn|s t l ty cn|s t l ty cn ns a v|s t l ty cn ns a]; cbn [ev_step].
  - destruct (am_has_node_name _ _ m); [by eexists _, _|].
    assert (∃ i, new_id st = Some i ∧ (i < N.of_nat (n + 2))%N) as (i & Hi & Hlt).
    { unfold new_id, am_largest_item. pose proof (b_max _ _ Hb) as Hmax. destruct (largest_item (g_node_annos st)) as [x|].
      - specialize (Hmax x eq_refl). change (2 ^ 64)%N with 18446744073709551616%N.
        change usize_max with 18446744073709551615%N in Hn.
        destruct (N.ltb_spec (x + 1) 18446744073709551616) as [Hl|Hl]; [|lia]. eexists. split; [done|]. lia.
      - exists 0%N. split; [done|]. lia. }
    rewrite Hi. cbn [mbind option_bind].
    destruct (insert_bnd (g_node_annos st) i node_name_key m n (b_keys _ _ Hb) (b_vals _ _ Hb) ltac:(lia)) as (a1 & E1 & L1 & L2).
    destruct (insert_bnd a1 i node_type_key t (S n) L1 L2 ltac:(lia)) as (a2 & E2 & L3 & L4).
    rewrite E1, E2. eexists _, _. split; [done|]. split; [cbn; lia|cbn; lia|apply (b_gs _ _ Hb')|].
    cbn. intros x Hx. destruct (insert_max _ _ _ _ _ _ _ E2 Hx) as [Hx1| ->]; [|done].
    destruct (insert_max _ _ _ _ _ _ _ E1 Hx1) as [Hx2| ->]; [|done]. by apply (b_max _ _ Hb').
  - destruct (cached_id cap st c m) as [[i|] c1]; [|by eexists _, _]. eexists _, _. split; [done|].
    generalize all. intros l.
    assert (bnd (set_annos st (am_remove_item (g_node_annos st) i).1) n) as H0.
    { assert (length (by_id (anno_keys (am_remove_item (g_node_annos st) i).1)) = length (by_id (anno_keys (g_node_annos st))) ∧
        length (by_id (anno_values (am_remove_item (g_node_annos st) i).1)) = length (by_id (anno_values (g_node_annos st)))) as [L1 L2].
      { unfold am_remove_item. destruct (by_container (g_node_annos st) !! i) as [l0|]; [|done]. cbn [fst].
        match goal with |- context [fold_left _ l0 ?x] => set (s0 := x) end.
        change (anno_keys (g_node_annos st)) with (anno_keys s0). change (anno_values (g_node_annos st)) with (anno_values s0).
        clearbody s0. revert s0. induction l0 as [|x l0 IH]; intros s; simpl; [done|].
        destruct (IH (remove_item_step i s x)) as [-> ->]. apply remove_item_step_len. }
      split; cbn; [rewrite L1; apply (b_keys _ _ Hb)|rewrite L2; apply (b_vals _ _ Hb)|apply (b_gs _ _ Hb)|].
      rewrite remove_item_max. apply (b_max _ _ Hb). }
    assert (∀ s, bnd s n → bnd (fold_left (del_node_in i) l s) n) as Hfold.
    { induction l as [|c0 l IH]; intros s Hs; [done|]. cbn. apply IH.
      split; [apply (b_keys _ _ Hs)|apply (b_vals _ _ Hs)| |apply (b_max _ _ Hs)].
      intros c2. unfold del_node_in. rewrite writable_set. destruct (decide _); [|apply (b_gs _ _ Hs)].
      unfold adj_delete_node. match goal with |- context [fold_left _ ?x _] => generalize x end. intros el.
      pose proof (b_gs _ _ Hs c0) as Hsm. revert Hsm. generalize (writable s c0).
      induction el as [|e1 el IHl]; intros g Hg; [done|]. cbn. apply IHl. by apply small_del_edge. }
    apply (bnd_mono _ n); [|lia]. by apply Hfold.
  - destruct (cached_id cap st c m) as [r c1] eqn:E1. destruct (cached_ok HR _ _ _ _ _ Hc E1) as [-> Hc1].
    destruct (ι !! m) as [i|] eqn:Ei; [|by eexists _, _].
    destruct (insert_bnd (g_node_annos st) i (AnnoKey a ns) v n (b_keys _ _ Hb) (b_vals _ _ Hb) ltac:(lia)) as (a1 & E2 & L1 & L2).
    rewrite E2. eexists _, _. split; [done|]. split; [cbn; lia|cbn; lia|apply (b_gs _ _ Hb')|].
    cbn. intros x Hx. destruct (insert_max _ _ _ _ _ _ _ E2 Hx) as [Hx1| ->]; [by apply (b_max _ _ Hb')|].
    apply (r_names _ _ _ _ _ HR) in Ei. destruct (i_largest _ _ _ _ I i node_name_key ltac:(by rewrite Ei)) as (y & Hy & Hle).
    pose proof (b_max _ _ Hb' y Hy). assert (i <= y)%N by (by apply N.compare_le_iff). lia.
  - destruct (cached_id cap st c m) as [[i|] c1]; [|by eexists _, _]. eexists _, _. split; [done|].
    destruct (step_len N.compare (g_node_annos st) (AmRemove i (AnnoKey a ns)) (am_remove_annotation (g_node_annos st) i (AnnoKey a ns)).1
        (AmVal (am_remove_annotation (g_node_annos st) i (AnnoKey a ns)).2) n) as (L1 & L2 & _); [|apply (b_keys _ _ Hb)|apply (b_vals _ _ Hb)|].
    { simpl. by destruct (am_remove_annotation _ _ _). }
    split; [cbn; lia|cbn; lia|apply (b_gs _ _ Hb')|]. cbn. rewrite remove_anno_max. apply (b_max _ _ Hb').
  - apply Hedge. intros g e0 Hg. eexists. split; [done|].
    by destruct (small_step g (Adjacency.AddEdge e0) n _ true Hg eq_refl).
  - apply Hedge. intros g e0 Hg. eexists. split; [done|]. by destruct (small_step g (DelEdge e0) n _ true Hg eq_refl).
  - apply Hedge. intros g e0 Hg. destruct (decide _).
    + destruct (adj_add_anno g e0 (AnnoKey a ns) v) as [g' r] eqn:Er. exists g'.
      destruct (small_step g (AddAnno e0 (AnnoKey a ns) v) n g' r Hg Er) as [Hs Ho]. by rewrite (Ho ltac:(lia)).
    + exists g. split; [done|]. destruct Hg. split; lia.
  - apply Hedge. intros g e0 Hg. destruct (decide _).
    + eexists. split; [done|]. by destruct (small_step g (DelAnno e0 (AnnoKey a ns)) n _ true Hg eq_refl).
    + exists g. split; [done|]. destruct Hg. split; lia.
Qed.
Lemma loop_total cap all es : ∀ st A ι M Gs c n, R st A ι M Gs → cache_ok c ι → Forall keeps_names es.*2 →
  NoDup all → (∀ x, x ∈ all → x ∈ lg_comps A) → deletes_ok ct (list_to_set all) A es.*2 →
  bnd st n → (N.of_nat (n + 2 * length es) <= usize_max)%N →
  ∃ st', ev_loop ct cap all st c es = Some st' ∧ bnd st' (n + 2 * length es).
Proof.
  induction es as [|[id e] es IH]; intros st A ι M Gs c n HR Hc Hk Hnd Hall Hd Hb Hn; cbn [ev_loop].
  - exists st. split; [done|]. apply (bnd_mono _ _ _ Hb). lia.
  - cbn in Hk, Hd. apply Forall_cons in Hk as [Hk1 Hk]. destruct Hd as [Hd1 Hd]. cbn [length] in Hn |- *.
    destruct (step_total cap all st A ι M Gs c e n HR Hc Hb ltac:(lia)) as (st1 & c1 & E1 & Hb1). rewrite E1.
    cbn [mbind option_bind].
    destruct (ev_step_ok ct cap all _ _ _ _ _ _ _ _ _ HR Hc Hk1 Hnd Hall Hd1 E1) as (ι1 & M1 & Gs1 & HR1 & Hc1).
    destruct (IH _ _ _ _ _ c1 (n + 2) (R_change _ _ _ _ _ id HR1) Hc1 Hk Hnd) as (st' & E' & Hb'); [|done| |lia|].
    + intros x Hx. by apply lg_step_comps, Hall.
    + destruct Hb1 as [B1 B2 B3 B4]. split; done.
    + exists st'. split; [done|]. apply (bnd_mono _ _ _ Hb'). lia.
Qed.
Lemma history_total us : ∀ st A ι M Gs n, R st A ι M Gs → history_ok ct A (events_of us) → bnd st n →
  (N.of_nat (n + 2 * length (concat us)) <= usize_max)%N → ∃ st', apply_updates ct st us = Some st'.
Proof.
  induction us as [|u us IH]; intros st A ι M Gs n HR Hok Hb Hn; cbn; [by exists st|].
  cbn in Hok. destruct Hok as (Hk & Hd & Hok). cbn [concat] in Hn. rewrite app_length in Hn.
  destruct (comps_list st) as [Hnd Hset]. rewrite (r_comps _ _ _ _ _ HR) in Hset.
  destruct (loop_total 1000 (map_to_list (g_comps st)).*1 u st A ι M Gs [] n) as (st1 & E1 & Hb1); try done.
  - intros m r H%elem_of_nil. done.
  - intros x Hx. rewrite <- Hset. by apply elem_of_list_to_set.
  - by rewrite Hset.
  - lia.
  - fold (apply_update ct st u) in E1. rewrite E1. cbn [mbind option_bind].
    destruct (update_ok _ _ _ _ _ _ _ HR Hk Hd E1) as (ι1 & M1 & Gs1 & HR1).
    apply (IH st1 _ _ _ _ _ HR1 Hok Hb1). lia.
Qed.
Lemma bnd_empty : bnd g_empty 0.
Proof. split; cbn; [lia|lia| |done]. intros c. unfold writable. cbn. rewrite lookup_empty. split; cbn; lia. Qed.
End history.
