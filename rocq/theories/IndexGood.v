(** Well-formed graphs: events and the statistics keep them well-formed. *)
From stdpp Require Import base list gmap fin_maps.
From Coq Require Import NArith Lia.
From Verif Require Import KeySer KeySerSpec SortedMap Types SymbolTable AnnoMem AnnoMemProofs AnnoMemQueries GraphSpec Adjacency AdjacencySpec AdjacencyProofs
  GraphUpdate GraphApply GraphApplyProofs Index IndexSpec.

Notation nmap := (gmap (N * anno_key) bytes).
Record good (st : gstate) (M : nmap) (Gs : comp → graph) : Prop := {
  gd_inv : ∃ leak, inv N.compare (g_node_annos st) leak M;
  gd_gs : ∀ c, ginv (writable st c) (Gs c);
  gd_ids : ∀ c, ids_ok (gr_edges (Gs c));
  gd_items : ∀ i k, is_Some (M !! (i, k)) → (i < node_bound)%N;
  gd_stats : ∀ c s, g_stats (writable st c) = Some s → s_nodes s = 0 → gr_edges (Gs c) = ∅
}.
Definition bounded_cache (c : lru) : Prop := ∀ n i, (n, Some i) ∈ c → (i < node_bound)%N.

Lemma edge_in_w st c x y : edge_in st c x y ↔ y ∈ adj_out (writable st c) x.
Proof.
  unfold edge_in, writable. destruct (g_comps st !! c) as [g|]; cbn; [naive_solver|]. split; [naive_solver|].
  unfold adj_out, adj_list. cbn. rewrite lookup_empty. by intros ?%elem_of_nil.
Qed.
Lemma edge_in_g st M Gs c x y : good st M Gs → edge_in st c x y ↔ Edge x y ∈ gr_edges (Gs c).
Proof. intros H. rewrite edge_in_w. apply (gi_out _ _ (gd_gs _ _ _ H c)). Qed.
Lemma has_label_iff st M Gs n k : good st M Gs → has_label st n k ↔ is_Some (M !! (n, k)).
Proof. intros H. destruct (gd_inv _ _ _ H) as [leak I]. unfold has_label. by rewrite (get_value_lemma N.compare _ leak M n k I). Qed.

Lemma stats_del_edge s e : g_stats (adj_delete_edge s e) = g_stats s.
Proof. done. Qed.
Lemma stats_del_edges l : ∀ s, g_stats (fold_left adj_delete_edge l s) = g_stats s.
Proof. induction l as [|e l IH]; intros s; [done|]. cbn. by rewrite IH. Qed.
Lemma good_step_comp st M Gs c o g ok : good st M Gs → adj_step (writable st c) o = (g, ok) → op_ids_ok o →
  good (set_comp st c g) M (λ c', if decide (c' = c) then graph_step (Gs c) o ok else Gs c').
Proof.
  intros H Hs Ho. split.
  - exact (gd_inv _ _ _ H).
  - intros c'. rewrite writable_set. destruct (decide (c' = c)) as [->|]; [|apply H]. eapply ginv_step; [apply H|done].
  - intros c'. destruct (decide (c' = c)) as [->|]; [|apply H]. intros a b Hab. pose proof (gd_ids _ _ _ H c) as Hi.
    assert (ids_ok (gr_edges (graph_run (Gs c) [o] [ok]))) as Hr by (apply ids_run; [by constructor|done]). exact (Hr a b Hab).
  - exact (gd_items _ _ _ H).
  - intros c' s. rewrite writable_set. destruct (decide (c' = c)) as [->|]; [|apply H]. intros Eg Hn.
    pose proof (gd_stats _ _ _ H c) as H0. destruct o as [e|e k v|e|e k|x| |]; cbn in Hs; cbn [graph_step gr_edges].
    + injection Hs as <- <-. unfold adj_add_edge in Eg. destruct (decide (source e = target e)); [by eapply H0|done].
    + apply (H0 s); [|done]. unfold adj_add_anno in Hs. destruct (decide _); [|by injection Hs as <- <-].
      destruct (am_insert _ _ _ _ _) as [a r]. by injection Hs as <- <-.
    + injection Hs as <- <-. rewrite (H0 s Eg Hn). set_solver.
    + injection Hs as <- <-. by apply (H0 s).
    + injection Hs as <- <-. unfold adj_delete_node in Eg. rewrite stats_del_edges in Eg. rewrite (H0 s Eg Hn). set_solver.
    + done.
    + injection Hs as <- <-. by apply (H0 s).
Qed.
Lemma good_annos st M M' Gs a : good st M Gs → (∃ leak, inv N.compare a leak M') → (∀ i k, is_Some (M' !! (i, k)) → (i < node_bound)%N) →
  good (set_annos st a) M' Gs.
Proof. intros H Hi Hb. split; [done|exact (gd_gs _ _ _ H)|exact (gd_ids _ _ _ H)|done|exact (gd_stats _ _ _ H)]. Qed.
Lemma good_change st M Gs i : good st M Gs → good (GState (g_node_annos st) (g_comps st) i) M Gs.
Proof. intros H. split; [exact (gd_inv _ _ _ H)|exact (gd_gs _ _ _ H)|exact (gd_ids _ _ _ H)|exact (gd_items _ _ _ H)|exact (gd_stats _ _ _ H)]. Qed.

Lemma lru_put_in cap c n v m r : (m, r) ∈ lru_put cap c n v → (m, r) = (n, v) ∨ (m, r) ∈ c.
Proof.
  unfold lru_put. intros Hin. apply elem_of_take in Hin as (k & Hin%elem_of_list_lookup_2 & _).
  apply elem_of_cons in Hin as [->|Hin]; [by left|right]. by apply elem_of_list_filter in Hin as [_ Hin].
Qed.
Lemma bounded_put cap c n v : bounded_cache c → (∀ i, v = Some i → (i < node_bound)%N) → bounded_cache (lru_put cap c n v).
Proof. intros Hc Hv m i [[= Em Ei]|Hin]%lru_put_in; [by apply Hv|by eapply Hc]. Qed.
Lemma bounded_cached cap st M Gs c n r c' : good st M Gs → bounded_cache c → cached_id cap st c n = (r, c') →
  (∀ i, r = Some i → (i < node_bound)%N) ∧ bounded_cache c'.
Proof.
  intros H Hc. unfold cached_id, lru_get. destruct (list_find _ c) as [[k x]|] eqn:E.
  - intros [= <- <-]. apply list_find_Some in E as (Hk & Hn & _). apply elem_of_list_lookup_2 in Hk. split.
    + intros i Hi. destruct x as [m r]. cbn in Hi. rewrite Hi in Hk. by eapply Hc.
    + intros m i [Ex|Hin]%elem_of_cons; [rewrite <- Ex in Hk; by eapply Hc|]. apply elem_of_list_filter in Hin as [_ Hin]. by eapply Hc.
  - intros [= <- <-]. destruct (gd_inv _ _ _ H) as [leak I].
    assert (∀ i, am_node_id_from_name node_name_key (g_node_annos st) n = Some i → (i < node_bound)%N) as Hb.
    { intros i Hi. pose proof (node_id_lemma N.compare node_name_key _ leak M n I) as HN. rewrite Hi in HN.
      apply (gd_items _ _ _ H i node_name_key). by rewrite HN. }
    split; [done|]. by apply bounded_put.
Qed.

Lemma del_fold_good i all : ∀ st M Gs, good st M Gs → ∃ Gs', good (fold_left (del_node_in i) all st) M Gs'.
Proof.
  induction all as [|c all IH]; intros st M Gs H; cbn [fold_left]; [by eexists|].
  eapply IH. unfold del_node_in. exact (good_step_comp st M Gs c (DelNode i) _ true H eq_refl I).
Qed.
Lemma good_event ct cap all st M Gs c e st' c' : good st M Gs → bounded_cache c → ev_step ct cap all st c e = Some (st', c') →
  ∃ M' Gs', good st' M' Gs' ∧ bounded_cache c'.
Proof.
  intros H Hc. destruct (gd_inv _ _ _ H) as [leak I].
  assert (∀ s t l ty cn f, on_edge ct cap st c s t l ty cn f = Some (st', c') →
    (∀ g i j r, f g (Edge i j) = r → (i < node_bound)%N → (j < node_bound)%N → ∃ o, op_ids_ok o ∧ adj_step g o = r) →
    ∃ M' Gs', good st' M' Gs' ∧ bounded_cache c') as Hedge.
  { intros s t l ty cn f. unfold on_edge. destruct (cached_id cap st c s) as [r1 c1] eqn:E1.
    destruct (bounded_cached _ _ _ _ _ _ _ _ H Hc E1) as [B1 Hc1]. destruct (cached_id cap st c1 t) as [r2 c2] eqn:E2.
    destruct (bounded_cached _ _ _ _ _ _ _ _ H Hc1 E2) as [B2 Hc2]. intros Hr Hf.
    assert (Some (st, c2) = Some (st', c') → ∃ M' Gs', good st' M' Gs' ∧ bounded_cache c') as Hsame by (intros [= <- <-]; by exists M, Gs).
    destruct r1 as [i|]; [|by apply Hsame]. destruct r2 as [j|]; [|by apply Hsame]. destruct (ct ty) as [k|]; [|by apply Hsame].
    destruct (f (writable st (k, l, cn)) (Edge i j)) as [g ok] eqn:Ef. destruct ok; [|done]. injection Hr as <- <-.
    destruct (Hf _ _ _ _ Ef (B1 i eq_refl) (B2 j eq_refl)) as (o & Ho & Hs).
    eexists M, _. split; [|done]. exact (good_step_comp st M Gs _ o g true H Hs Ho). }
  destruct e as [n t|n|n ns a v|n ns a|s t l ty cn|s t l ty cn|s t l ty cn ns a v|s t l ty cn ns a]; cbn [ev_step].
  - destruct (am_has_node_name _ _ n); [intros [= <- <-]; by exists M, Gs|]. destruct (new_id st) as [i|] eqn:En; [|done]. cbn [mbind option_bind].
    destruct (am_insert _ (g_node_annos st) i node_name_key n) as [a1 ok1] eqn:E1. destruct ok1; [|done].
    destruct (am_insert _ a1 i node_type_key t) as [a2 ok2] eqn:E2. destruct ok2; [|done]. intros [= <- <-].
    pose proof (AnnoMemProofs.inv_insert _ _ _ _ _ _ _ _ _ I E1) as I1. cbn in I1.
    pose proof (AnnoMemProofs.inv_insert _ _ _ _ _ _ _ _ _ I1 E2) as I2. cbn in I2. apply new_id_bound in En.
    eexists _, Gs. split.
    + apply (good_annos st M); [done|by exists leak|]. intros j k Hj.
      destruct (decide (j = i)) as [->|Hne]; [done|]. rewrite !lookup_insert_ne in Hj by congruence. by apply (gd_items _ _ _ H j k).
    + apply bounded_put; [done|]. by intros ? [= <-].
  - destruct (cached_id cap st c n) as [r c1] eqn:E1. destruct (bounded_cached _ _ _ _ _ _ _ _ H Hc E1) as [B1 Hc1].
    destruct r as [i|]; [|intros [= <- <-]; by exists M, Gs].
    destruct (am_remove_item (g_node_annos st) i) as [a' b] eqn:Er. intros [= <- <-].
    destruct (inv_remove_item _ _ _ _ _ _ _ I Er) as [I' _].
    assert (good (set_annos st a') (filter (λ x, x.1.1 ≠ i) M) Gs) as Ha.
    { apply (good_annos st M); [done|by exists leak|]. intros j k [v [Hv _]%map_filter_lookup_Some]. by apply (gd_items _ _ _ H j k). }
    destruct (del_fold_good i all _ _ _ Ha) as [Gs' HG]. eexists _, Gs'. split; [exact HG|]. by apply bounded_put.
  - destruct (cached_id cap st c n) as [r c1] eqn:E1. destruct (bounded_cached _ _ _ _ _ _ _ _ H Hc E1) as [B1 Hc1].
    destruct r as [i|]; [|intros [= <- <-]; by exists M, Gs].
    destruct (am_insert _ _ i _ v) as [a' ok] eqn:Ea. destruct ok; [|done]. intros [= <- <-].
    pose proof (AnnoMemProofs.inv_insert _ _ _ _ _ _ _ _ _ I Ea) as I1. cbn in I1.
    eexists _, Gs. split; [|done]. apply (good_annos st M); [done|by exists leak|]. intros j k Hj.
    destruct (decide (j = i)) as [->|Hne]; [by apply B1|]. rewrite lookup_insert_ne in Hj by congruence. by apply (gd_items _ _ _ H j k).
  - destruct (cached_id cap st c n) as [r c1] eqn:E1. destruct (bounded_cached _ _ _ _ _ _ _ _ H Hc E1) as [B1 Hc1].
    destruct r as [i|]; [|intros [= <- <-]; by exists M, Gs].
    destruct (am_remove_annotation _ i _) as [a' ok] eqn:Ea. intros [= <- <-].
    destruct (inv_remove_annotation _ _ _ _ _ _ _ _ I Ea) as [I1 _].
    eexists _, Gs. split; [|done]. apply (good_annos st M); [done|by exists leak|]. intros j k [v [_ Hv]%lookup_delete_Some].
    apply (gd_items _ _ _ H j k). by rewrite Hv.
  - intros Hr. apply (Hedge _ _ _ _ _ _ Hr). intros g i j r <- Hi Hj. by exists (Adjacency.AddEdge (Edge i j)).
  - intros Hr. apply (Hedge _ _ _ _ _ _ Hr). intros g i j r <- Hi Hj. by exists (DelEdge (Edge i j)).
  - intros Hr. apply (Hedge _ _ _ _ _ _ Hr). intros g i j r <- Hi Hj. exists (AddAnno (Edge i j) (AnnoKey a ns) v). split; [done|].
    cbn. unfold adj_add_anno. cbn. by destruct (decide _).
  - intros Hr. apply (Hedge _ _ _ _ _ _ Hr). intros g i j r <- Hi Hj. cbn [source target]. destruct (decide _) as [Hd|Hd].
    + by exists (DelAnno (Edge i j) (AnnoKey a ns)).
    + exists (AddAnno (Edge i j) (AnnoKey a ns) []). split; [done|]. cbn. unfold adj_add_anno. cbn. by rewrite decide_False.
Qed.

(** Statistics *)
Lemma calc_empty f g s : calc_stats f g = Some s → s_nodes s = 0 → ∀ x, adj_out g x = [].
Proof.
  intros Hs H0 x. unfold calc_stats, stats_of in Hs.
  destruct (if decide _ then _ else _) as [[[v d] c]|]; [|done]. cbn [mbind option_bind] in Hs. injection Hs as <-. cbn [s_nodes] in H0.
  apply size_empty_inv in H0. unfold adj_out, adj_list. destruct (g_edges g !! x) as [l|] eqn:E; [|done].
  exfalso. assert (x ∈ (∅ : gset N)) as Hx; [|by apply elem_of_empty in Hx]. apply H0. apply elem_of_union_l, elem_of_list_to_set.
  apply elem_of_list_fmap. exists (x, l). split; [done|]. by apply elem_of_map_to_list.
Qed.
Lemma writable_stats fuel st c : ∃ s, writable (with_stats fuel st) c =
  Adj (g_edges (writable st c)) (g_inverse (writable st c)) (g_annos (writable st c)) s ∧ (∀ s', s = Some s' → calc_stats fuel (writable st c) = Some s').
Proof.
  unfold writable, with_stats. cbn. rewrite lookup_fmap. destruct (g_comps st !! c) as [g|]; cbn; eexists; split; naive_solver.
Qed.
Lemma ginv_stats g G s : ginv g G → ginv (Adj (g_edges g) (g_inverse g) (g_annos g) s) G.
Proof. intros [? ? ? ? ? ? ?]. by split. Qed.
Lemma good_with_stats fuel st M Gs : good st M Gs → good (with_stats fuel st) M Gs.
Proof.
  intros H. split.
  - exact (gd_inv _ _ _ H).
  - intros c. destruct (writable_stats fuel st c) as (s & -> & _). apply ginv_stats, H.
  - exact (gd_ids _ _ _ H).
  - exact (gd_items _ _ _ H).
  - intros c s. destruct (writable_stats fuel st c) as (s' & -> & Hs'). cbn. intros -> Hn. pose proof (calc_empty _ _ _ (Hs' _ eq_refl) Hn) as He.
    apply set_eq. intros [x y]. rewrite <- (gi_out _ _ (gd_gs _ _ _ H c)), He. by rewrite elem_of_nil, elem_of_empty.
Qed.
Lemma good_new st : (∀ c g, g_comps st !! c = Some g → g = adj_new) → g_node_annos st = am_new → good st ∅ (λ _, empty_graph).
Proof.
  intros Hc Ha. assert (∀ c, writable st c = adj_new) as Hw.
  { intros c. unfold writable. destruct (g_comps st !! c) as [g|] eqn:E; [cbn; by eapply Hc|done]. }
  split.
  - exists 0. rewrite Ha. apply AnnoMemProofs.inv_new.
  - intros c. rewrite Hw. apply ginv_new.
  - intros c a b Hab. unfold edge_rel in Hab. cbn in Hab. by apply elem_of_empty in Hab.
  - intros i k [v Hv]. by rewrite lookup_empty in Hv.
  - done.
Qed.
Lemma good_default : good g_default ∅ (λ _, empty_graph).
Proof.
  apply good_new; [|done]. intros c g Hg. cbn [g_default g_comps] in Hg. apply elem_of_list_to_map_2 in Hg.
  apply elem_of_list_fmap in Hg as (c' & [= -> ->] & _). done.
Qed.
