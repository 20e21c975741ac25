From stdpp Require Import base list gmap.
From Coq Require Import NArith Lia.
From Verif Require Import KeySer SortedMap Types SymbolTable AnnoMem AnnoSpec GraphSpec Adjacency AdjacencySpec AdjacencyProofs StatsProofs Storage StorageSpec GraphApply TokenHelper
  SortMatches QuickSort QuickSortSpec TokenSearch TokenSearchSpec TokenSearchProofs CorpusSize CorpusSizeSpec.

Lemma count_fold {A} (f : A → bool) l : ∀ n, fold_left (λ acc m, if f m then acc else S acc) l n = n + length (filter (λ m, f m = false) l).
Proof.
  induction l as [|m l IH]; intros n; cbn [fold_left]; [cbn; lia|]. rewrite IH, filter_cons. destruct (f m); [by rewrite decide_False|].
  rewrite decide_True by done. cbn [length]. lia.
Qed.
Lemma token_count db c th : holds_content db c → th_new db = Some th → is_Some (cp_order db) →
  ∃ l, NoDup l ∧ (∀ n, n ∈ l ↔ token c n) ∧ length l = base_token_count db th.
Proof.
  intros H Hth [gs Eo]. unfold base_token_count. rewrite Eo. rewrite (count_fold (λ m : match_, has_outgoing_coverage th m.1)).
  set (l := am_exact_search _ _ _ _). exists ((filter (λ m, has_outgoing_coverage th m.1 = false) l).*1).
  assert (∀ m, m ∈ l ↔ m.2 = tok_key ∧ is_Some (ct_labels c !! (m.1, tok_key))) as Hl by (intros m; apply (tok_search db c H)).
  split_and!.
  - apply NoDup_fmap_2_strong.
    + intros [n k] [n' k'] [_ Hx%Hl]%elem_of_list_filter [_ Hy%Hl]%elem_of_list_filter. cbn in *. intros ->. destruct Hx as [-> _], Hy as [-> _]. done.
    + apply NoDup_filter. apply (tok_search_nodup db c H).
  - intros n. unfold token. rewrite elem_of_list_fmap. setoid_rewrite elem_of_list_filter. split.
    + intros ([m k] & -> & Hc & [_ Hs]%Hl). cbn in *. split; [done|]. rewrite <- (coverage_iff db c H th m Hth). by rewrite Hc.
    + intros [Hs Hc]. exists (n, tok_key). split; [done|]. cbn. split; [|by apply Hl].
      rewrite <- (coverage_iff db c H th n Hth) in Hc. by destruct (has_outgoing_coverage th n).
  - by rewrite fmap_length.
Qed.
Lemma counts_unique {A} (P : A → Prop) n m : counts P n → counts P m → n = m.
Proof.
  intros (l & Hl & Hi & <-) (l' & Hl' & Hi' & <-). apply Permutation_length, NoDup_Permutation; [done..|]. intros x. by rewrite Hi, Hi'.
Qed.

Lemma by_name_app l e : by_name (l ++ [e]) = <[e.1.2 := e.2]> (by_name l).
Proof. unfold by_name. by rewrite fold_left_app. Qed.
Lemma by_name_sound l s n : by_name l !! s = Some n → ∃ layer, ((layer, s), n) ∈ l.
Proof.
  induction l as [|e l IH] using rev_ind; [done|]. rewrite by_name_app. destruct e as [[layer s'] n']. cbn.
  destruct (decide (s' = s)) as [->|Hne].
  - rewrite lookup_insert. intros [= ->]. exists layer. apply elem_of_app. right. by left.
  - rewrite lookup_insert_ne by done. intros [ly Hl]%IH. exists ly. apply elem_of_app. by left.
Qed.
Lemma by_name_complete l layer s n : ((layer, s), n) ∈ l → is_Some (by_name l !! s).
Proof.
  induction l as [|e l IH] using rev_ind; [by intros ?%elem_of_nil|]. rewrite by_name_app. destruct e as [[layer' s'] n']. cbn.
  intros [Hl| [= <- <- <-]%elem_of_list_singleton]%elem_of_app; [|by rewrite lookup_insert].
  destruct (decide (s' = s)) as [->|]; [by rewrite lookup_insert|]. rewrite lookup_insert_ne by done. by apply IH.
Qed.
Lemma entries_spec orders layer s n : ((layer, s), n) ∈ seg_entries orders ↔ s ≠ [] ∧ ∃ gs, ((layer, s), gs) ∈ orders ∧ gs_nodes gs = Some n.
Proof.
  unfold seg_entries. rewrite elem_of_list_omap. split.
  - intros ([[ly s'] gs] & Hin & E). cbn in E. destruct s' as [|b s']; [done|]. destruct (gs_nodes gs) as [k|] eqn:Ek; [|done].
    injection E as <- <- <-. split; [done|]. by exists gs.
  - intros (Hs & gs & Hin & E). exists ((layer, s), gs). split; [done|]. cbn. destruct s; [done|]. by rewrite E.
Qed.
Lemma segmentation_count db orders st s : is_statistics db orders st → s ≠ [] →
  ∃ tokens segs, gl_size st = Tokens_counted tokens segs ∧
    (∀ n, segs !! s = Some n → ∃ layer gs, ((layer, s), gs) ∈ orders ∧ gs_nodes gs = Some n) ∧
    (segs !! s = None → ∀ layer gs, ((layer, s), gs) ∈ orders → gs_nodes gs = None).
Proof.
  intros (l & Hl & E) Hs. unfold global_statistics in E. destruct (th_new db); [|done]. cbn in E. injection E as <-. cbn.
  eexists _, _. split; [done|]. split.
  - intros n Hn. apply by_name_sound in Hn as [ly Hin]. rewrite Hl in Hin. apply entries_spec in Hin as (_ & gs & ? & ?). by exists ly, gs.
  - intros Hn layer gs Hin. destruct (gs_nodes gs) as [k|] eqn:Ek; [|done]. exfalso. revert Hn. apply not_eq_None_Some.
    apply (by_name_complete l layer s k). rewrite Hl. apply entries_spec. split; [done|]. by exists gs.
Qed.

(** The number of nodes in the statistics *)
Definition no_empty (s : adj) : Prop := ∀ x l, g_edges s !! x = Some l → l ≠ [].
Lemma bs_insert_not_nil x l : bs_insert x l ≠ [].
Proof. destruct l as [|y l]; cbn; [done|]. repeat case_match; done. Qed.
Lemma no_empty_step s o : no_empty s → (match o with DelEdge _ | DelNode _ => False | _ => True end) → no_empty (adj_step s o).1.
Proof.
  intros H Ho. destruct o as [e|e k v|e|e k|x| |]; cbn in *; try done.
  - unfold adj_add_edge. destruct (decide _); [done|]. intros x l. cbn. destruct (decide (source e = x)) as [->|].
    + rewrite lookup_insert. intros [= <-]. apply bs_insert_not_nil.
    + rewrite lookup_insert_ne by done. apply H.
  - unfold adj_add_anno. destruct (decide _); [|done]. destruct (am_insert _ _ _ _ _). done.
Qed.
Lemma no_empty_run ops : ∀ s s' oks, no_empty s → adds_only ops → adj_run s ops = (s', oks) → no_empty s'.
Proof.
  induction ops as [|o ops IH]; intros s s' oks H Ha E; cbn in E; [by injection E as <- _|]. apply List.Forall_cons_iff in Ha as [Ho Ha].
  pose proof (no_empty_step s o H Ho) as H1. destruct (adj_step s o) as [s1 r]. cbn in H1. destruct (adj_run s1 ops) as [s2 rs] eqn:E2.
  injection E as <- _. by apply (IH s1 s2 rs).
Qed.
Lemma stats_nodes fuel s st : calc_stats fuel s = Some st →
  s_nodes st = size (list_to_set (map_to_list (g_edges s)).*1 ∪ list_to_set ((map_to_list (g_edges s)).*2 ≫= id) : gset N).
Proof.
  unfold calc_stats, stats_of. set (r := if decide _ then _ else _). destruct r as [[[v d] cy]|]; [|done]. cbn. by intros [= <-].
Qed.
Lemma nodes_exact s g fuel st : ginv s g → no_empty s → calc_stats fuel s = Some st → s_nodes st = size (all_nodes (gr_edges g)).
Proof.
  intros I H E. rewrite (stats_nodes _ _ _ E). f_equal. apply set_eq. intros x.
  unfold all_nodes. rewrite !elem_of_union, !elem_of_map, !elem_of_list_to_set. rewrite elem_of_list_fmap, elem_of_list_bind. split.
  - intros [([k l] & -> & Hk%elem_of_map_to_list)|(l & Hx & ([k l'] & -> & Hk%elem_of_map_to_list)%elem_of_list_fmap)]; cbn in *.
    + left. destruct l as [|y l]; [by destruct (H k [] Hk)|]. exists (Edge k y). split; [done|]. apply (gi_out _ _ I).
      unfold adj_out, adj_list. rewrite Hk. by left.
    + right. exists (Edge k x). split; [done|]. apply (gi_out _ _ I). unfold adj_out, adj_list. by rewrite Hk.
  - intros [([a b] & -> & He)|([a b] & -> & He)]; apply (gi_out _ _ I) in He; unfold adj_out, adj_list in He;
      (destruct (g_edges s !! a) as [l|] eqn:El; [|by apply elem_of_nil in He]).
    + left. exists (a, l). split; [done|]. by apply elem_of_map_to_list.
    + right. exists l. split; [done|]. apply elem_of_list_fmap. exists (a, l). split; [done|]. by apply elem_of_map_to_list.
Qed.
Lemma nodes_at_least s g fuel st : ginv s g → calc_stats fuel s = Some st → size (all_nodes (gr_edges g)) ≤ s_nodes st.
Proof.
  intros I E. rewrite (stats_nodes _ _ _ E). apply subseteq_size. intros x.
  unfold all_nodes. rewrite !elem_of_union, !elem_of_map, !elem_of_list_to_set. rewrite elem_of_list_fmap, elem_of_list_bind.
  intros [([a b] & -> & He)|([a b] & -> & He)]; apply (gi_out _ _ I) in He; unfold adj_out, adj_list in He;
      (destruct (g_edges s !! a) as [l|] eqn:El; [|by apply elem_of_nil in He]).
  - left. exists (a, l). split; [done|]. by apply elem_of_map_to_list.
  - right. exists l. split; [done|]. apply elem_of_list_fmap. exists (a, l). split; [done|]. by apply elem_of_map_to_list.
Qed.
Lemma counts_nodes G : counts (λ x, x ∈ all_nodes G) (size (all_nodes G)).
Proof.
  exists (elements (all_nodes G)). split; [apply NoDup_elements|]. split; [intros x; apply elem_of_elements|].
  reflexivity.
Qed.

(** * The statements *)
Lemma tokens_counted db c orders st : holds_content db c → is_Some (cp_order db) → is_statistics db orders st →
  ∃ n segs, gl_size st = Tokens_counted n segs ∧ counts (token c) n.
Proof.
  intros H Ho (l & _ & E). unfold global_statistics in E. destruct (th_new db) as [th|] eqn:Eth; [|done]. cbn in E. injection E as <-.
  eexists _, _. split; [done|]. exact (token_count db c th H Eth Ho).
Qed.
Lemma statistics_exist db c orders : holds_content db c → ∃ st, is_statistics db orders st.
Proof.
  intros H. destruct (th_some db c H) as (th & E & _). eexists. exists (seg_entries orders). split; [done|]. unfold global_statistics. by rewrite E.
Qed.
Lemma nodes_of ops s oks fuel st : Forall op_ids_ok ops → adj_run adj_new ops = (s, oks) → calc_stats fuel s = Some st →
  let G := gr_edges (graph_run empty_graph ops oks) in
  (adds_only ops → s_nodes st = size (all_nodes G)) ∧ size (all_nodes G) ≤ s_nodes st.
Proof.
  intros Hi Hr E G. assert (ginv s (graph_run empty_graph ops oks)) as I by (by apply ginv_run_new). split.
  - intros Ha. apply (nodes_exact s _ fuel st I); [|done]. apply (no_empty_run ops adj_new s oks); [|done|done]. by intros x l ?.
  - by apply (nodes_at_least s _ fuel).
Qed.
Lemma segmentation_counted db orders st layer s gs ops oks : is_statistics db orders st → s ≠ [] →
  ((layer, s), gs) ∈ orders → (∀ layer' gs', ((layer', s), gs') ∈ orders → gs' = gs) → segmentation gs ops oks →
  ∃ tokens segs n, gl_size st = Tokens_counted tokens segs ∧ segs !! s = Some n ∧
    (adds_only ops → counts (λ x, x ∈ all_nodes (gr_edges (graph_run empty_graph ops oks))) n) ∧
    ∀ k, counts (λ x, x ∈ all_nodes (gr_edges (graph_run empty_graph ops oks))) k → k ≤ n.
Proof.
  intros Hst Hs Hin Hu (a & fuel & stt & Hi & Hr & Hc & Hn). destruct (segmentation_count db orders st s Hst Hs) as (t & segs & Eg & H1 & H2).
  destruct (segs !! s) as [n|] eqn:Es.
  - exists t, segs, n. split; [done|]. split; [done|]. destruct (H1 n eq_refl) as (ly & gs' & Hin' & Hn'). rewrite (Hu ly gs' Hin') in Hn'.
    rewrite Hn in Hn'. injection Hn' as <-. destruct (nodes_of ops a oks fuel stt Hi Hr Hc) as [Hx Hy]. split.
    + intros Ha. rewrite (Hx Ha). apply counts_nodes.
    + intros k Hk. rewrite (counts_unique _ _ _ Hk (counts_nodes _)). done.
  - rewrite (H2 eq_refl layer gs Hin) in Hn. done.
Qed.
Lemma search_agrees db c orders st fuel rnd l : holds_content db c → texts_ok c → is_Some (cp_order db) → (∀ n, token c n → n ∈ all_nodes (ct_order c)) →
  is_statistics db orders st → token_search fuel rnd db = Done l → ∃ segs, gl_size st = Tokens_counted (length l) segs.
Proof.
  intros H T Ho Ha Hst E. destruct (tokens_counted db c orders st H Ho Hst) as (n & segs & Eg & Hn).
  assert (∀ gs n, cp_order db = Some gs → token c n → n ∉ all_nodes (ct_order c) → gs_connected gs n 0 Unbounded = [n]) as Hl.
  { intros gs x _ Hx Hno. by destruct (Hno (Ha x Hx)). }
  destruct (tokens_lemma db c H T (λ _ _, Ha) Hl fuel rnd l E) as (ns & -> & Hnd & Hin & _). exists segs. rewrite Eg. f_equal.
  apply (counts_unique (token c)); [done|]. exists ns. split; [done|]. split; [done|]. by rewrite fmap_length.
Qed.
Lemma update_size cfg st tokens segs cfg' changed : gl_size st = Tokens_counted tokens segs →
  update_corpus_size_info cfg (Some st) = (cfg', changed) →
  changed = true ∧ sc_base_text cfg' = sc_base_text cfg ∧
  let u := match sc_size cfg, sc_base_text cfg with
           | Some i, _ => si_unit i
           | None, Some s => Segmentation s
           | None, None => Tokens
           end in
  sc_size cfg' = match size_in tokens (λ s, segs !! s) u with Some q => Some (SizeInfo q u) | None => None end.
Proof.
  destruct st as [a sz]. cbn. intros -> [= <- <-]. split; [done|]. split; [done|]. unfold chosen_unit. cbn.
  destruct (sc_size cfg) as [[q u]|]; cbn; [|destruct (sc_base_text cfg) as [s|]; cbn; [|done]].
  - destruct u as [|s]; cbn; [done|]. by destruct (segs !! s).
  - by destruct (segs !! s).
Qed.
Lemma unit_kept cfg st tokens segs i : gl_size st = Tokens_counted tokens segs → sc_size cfg = Some i →
  is_Some (size_in tokens (λ s, segs !! s) (si_unit i)) →
  let cfg' := (update_corpus_size_info cfg (Some st)).1 in
  (∃ q, sc_size cfg' = Some (SizeInfo q (si_unit i)) ∧ size_in tokens (λ s, segs !! s) (si_unit i) = Some q) ∧
  (update_corpus_size_info cfg' (Some st)).1 = cfg'.
Proof.
  destruct st as [a sz]. cbn. intros -> Hi [q Hq]. cbn. unfold chosen_unit. rewrite Hi. cbn. destruct (si_unit i) as [|s]; cbn in *.
  - split; [|done]. eexists. split; [done|]. done.
  - rewrite Hq. cbn. split; [|by rewrite Hq]. eexists. done.
Qed.
