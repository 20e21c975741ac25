(** Storages for given edges, used by the examples: an adjacency list with any edges and a linear storage with any chains. *)
From stdpp Require Import base list gmap fin_maps.
From Coq Require Import NArith Lia.
From Verif Require Import KeySer KeySerSpec SortedMap Types SymbolTable AnnoMem Dfs DfsProofs GraphSpec Adjacency AdjacencySpec AdjacencyProofs
  Linear LinearSpec LinearProofs LinearQueries CopyProofs Storage StorageSpec StorageProofs ContextSpec.

(** ** Adjacency lists *)
Definition edge_ops (es : list edge) : list adj_op := AddEdge <$> es.
Definition edges_ok (es : list edge) : bool :=
  forallb (λ e, (source e <? node_bound)%N && (target e <? node_bound)%N && negb (source e =? target e)%N) es.
Definition graph_of (es : list edge) : graph := graph_run empty_graph (edge_ops es) (adj_run adj_new (edge_ops es)).2.
Lemma graph_of_edges es : edges_ok es = true → gr_edges (graph_of es) = list_to_set es.
Proof.
  intros Hok. unfold graph_of.
  assert (∀ es s g, edges_ok es = true →
    gr_edges (graph_run g (edge_ops es) (adj_run s (edge_ops es)).2) = list_to_set es ∪ gr_edges g) as Hg.
  { clear. induction es as [|e es IH]; intros s g Hok.
    - cbn. set_solver.
    - apply andb_true_iff in Hok as [He Hok]. unfold edge_ops. rewrite fmap_cons. fold (edge_ops es). cbn [adj_run].
      destruct (adj_step s (AddEdge e)) as [s1 r]. pose proof (IH s1 (graph_step g (AddEdge e) r) Hok) as H1.
      destruct (adj_run s1 (edge_ops es)) as [s2 rs]. cbn [snd graph_run] in *. rewrite H1. cbn [graph_step gr_edges list_to_set].
      rewrite decide_False; [|apply andb_true_iff in He as [_ He]; apply negb_true_iff, N.eqb_neq in He; done].
      rewrite (comm_L (∪) {[e]} (list_to_set es)). by rewrite <- (assoc_L (∪)). }
  rewrite Hg by done. cbn. set_solver.
Qed.
Lemma graph_of_ids es : edges_ok es = true → ids_ok (gr_edges (graph_of es)).
Proof.
  intros Hok a b He. unfold edge_rel in He. rewrite graph_of_edges in He by done. apply elem_of_list_to_set in He.
  unfold edges_ok in Hok. rewrite forallb_forall in Hok. specialize (Hok _ (proj1 (elem_of_list_In _ _) He)).
  apply andb_true_iff in Hok as [Hok _]. apply andb_true_iff in Hok as [H1 H2]. apply N.ltb_lt in H1, H2. done.
Qed.
Lemma graph_of_ginv es : ginv (adj_run adj_new (edge_ops es)).1 (graph_of es).
Proof. apply (ginv_run_new (edge_ops es)). apply surjective_pairing. Qed.
Definition adj_of (es : list edge) (H : edges_ok es = true) : storage :=
  adj_storage (adj_run adj_new (edge_ops es)).1 (graph_of es) (graph_of_ginv es) (graph_of_ids es H).
Lemma adj_of_stats es : g_stats (adj_run adj_new (edge_ops es)).1 = None.
Proof.
  assert (∀ es s, g_stats s = None → g_stats (adj_run s (edge_ops es)).1 = None) as Hs; [|by apply Hs].
  clear. induction es as [|e es IH]; intros s Hs; [done|]. unfold edge_ops. rewrite fmap_cons. fold (edge_ops es). cbn [adj_run].
  destruct (adj_step s (AddEdge e)) as [s1 r] eqn:E. specialize (IH s1). destruct (adj_run s1 (edge_ops es)) as [s2 rs]. apply IH.
  cbn in E. unfold adj_add_edge in E. repeat case_match; simplify_eq; cbn; done.
Qed.
Lemma adj_of_implements es H : implements (adj_of es H) (list_to_set es).
Proof.
  rewrite <- (graph_of_edges es H). apply adj_implements. intros st E. by rewrite adj_of_stats in E.
Qed.
Lemma adj_of_self es H : at_most_itself (adj_of es H) (list_to_set es).
Proof.
  intros x y _ [Hy|Hy].
  - apply (adj_connected_spec (adj_run adj_new (edge_ops es)).1 (graph_of es) (graph_of_ginv es) (graph_of_ids es H) x 0 (Included 0%N)) in Hy; [|done].
    destruct Hy as (p & [Hw _] & [_ Hd]). destruct p; [by simpl in Hw|simpl in Hd; lia].
  - apply (adj_inverse_spec (adj_run adj_new (edge_ops es)).1 (graph_of es) (graph_of_ginv es) (graph_of_ids es H) x 0 (Included 0%N)) in Hy; [|done].
    destruct Hy as (p & [Hw _] & [_ Hd]). destruct p; [by simpl in Hw|simpl in Hd; lia].
Qed.

(** ** Chains *)
Definition pairs (l : list N) : list edge := zip_with Edge l (tail l).
Definition chain_edges (cs : list (list N)) : list edge := mjoin (pairs <$> cs).
Lemma pairs_lookup l a b : Edge a b ∈ pairs l → ∃ i, l !! i = Some a ∧ l !! S i = Some b.
Proof.
  induction l as [|x l IH]; [intros H; by apply elem_of_nil in H|]. destruct l as [|y l]; [intros H; by apply elem_of_nil in H|].
  change (pairs (x :: y :: l)) with (Edge x y :: pairs (y :: l)). intros [[= -> ->]|Hin]%elem_of_cons; [by exists 0|].
  destruct (IH Hin) as (i & Ha & Hb). by exists (S i).
Qed.
Lemma chain_edges_lookup cs a b : Edge a b ∈ chain_edges cs → ∃ i, mjoin cs !! i = Some a ∧ mjoin cs !! S i = Some b.
Proof.
  unfold chain_edges. induction cs as [|l cs IH]; [intros H; by apply elem_of_nil in H|].
  rewrite fmap_cons. cbn [mjoin list_join]. intros [Hin|Hin]%elem_of_app.
  - destruct (pairs_lookup l a b Hin) as (i & Ha & Hb). exists i. split; by apply lookup_app_l_Some.
  - destruct (IH Hin) as (i & Ha & Hb). exists (length l + i). rewrite <- Nat.add_succ_r. split; (rewrite lookup_app_r by lia);
      [replace (length l + i - length l) with i by lia|replace (length l + S i - length l) with (S i) by lia]; done.
Qed.
Section Chains.
Context (cs : list (list N)) (Hnd : NoDup (mjoin cs)) (Hlen : length (mjoin cs) ≤ 250).
Notation G := (list_to_set (C := gset edge) (chain_edges cs)).
Lemma chain_walk_pos p : ∀ a b i, walk (edge_rel G) a p b → mjoin cs !! i = Some a → mjoin cs !! (i + length p) = Some b.
Proof using Hnd. clear Hlen.
  induction p as [|x p IH]; intros a b i Hw Hi; simpl.
  - simpl in Hw. subst. by rewrite Nat.add_0_r.
  - destruct Hw as [He Hw]. apply elem_of_list_to_set, chain_edges_lookup in He as (j & Ha & Hb).
    rewrite (NoDup_lookup _ _ _ _ Hnd Hi Ha). replace (j + S (length p)) with (S j + length p) by lia. by apply (IH x).
Qed.
Lemma chain_walk_short a p b : walk (edge_rel G) a p b → p ≠ [] → ∃ i, mjoin cs !! i = Some a ∧ mjoin cs !! (i + length p) = Some b.
Proof using Hnd. clear Hlen.
  intros Hw Hp. destruct p as [|x p]; [done|]. destruct (id Hw) as [He _]. apply elem_of_list_to_set, chain_edges_lookup in He as (j & Ha & _).
  exists j. split; [done|]. by apply (chain_walk_pos _ a b).
Qed.
Lemma chain_edges_chains : chains G.
Proof using Hnd. clear Hlen.
  split; [|split].
  - intros x a b Ha Hb. apply elem_of_list_to_set, chain_edges_lookup in Ha as (i & Hx & Ha).
    apply elem_of_list_to_set, chain_edges_lookup in Hb as (j & Hx' & Hb). rewrite (NoDup_lookup _ _ _ _ Hnd Hx Hx') in Ha. congruence.
  - intros a b x Ha Hb. apply elem_of_list_to_set, chain_edges_lookup in Ha as (i & Ha & Hx).
    apply elem_of_list_to_set, chain_edges_lookup in Hb as (j & Hb & Hx'). pose proof (NoDup_lookup _ _ _ _ Hnd Hx Hx'). simplify_eq. congruence.
  - intros x (p & Hp & Hw). destruct (chain_walk_short x p x Hw Hp) as (i & Hi & Hj). pose proof (NoDup_lookup _ _ _ _ Hnd Hi Hj) as He.
    destruct p; [done|]. simpl in He. lia.
Qed.
Lemma chain_all_nodes x : x ∈ all_nodes G → x ∈ mjoin cs.
Proof using.
  clear Hnd Hlen. unfold all_nodes. rewrite elem_of_union, !elem_of_map.
  intros [([a b] & -> & He)|([a b] & -> & He)]; apply elem_of_list_to_set, chain_edges_lookup in He as (i & Ha & Hb); by eapply elem_of_list_lookup_2.
Qed.
Lemma chain_size : size (all_nodes G) ≤ 250.
Proof using Hnd Hlen.
  etrans; [|exact Hlen]. etrans; [apply (subseteq_size _ (list_to_set (mjoin cs))); intros x Hx%chain_all_nodes; by apply elem_of_list_to_set|].
  rewrite size_list_to_set by done. done.
Qed.
Lemma chain_fits : fits_linear 255 G.
Proof using Hnd Hlen.
  split_and!; [apply chain_edges_chains| |].
  - pose proof chain_size. etrans; [apply (N.le_trans _ 250); [lia|]|reflexivity]. by apply N.leb_le.
  - intros a p b Hw. destruct p as [|x p]; [done|]. destruct (chain_walk_short a _ b Hw ltac:(done)) as (i & Hi & Hj).
    apply lookup_lt_Some in Hj. lia.
Qed.
(** The linear storage with these chains *)
Definition chain_copy : option (lin * bool) :=
  let s := (adj_run adj_new (edge_ops (chain_edges cs))).1 in
  lin_copy 255 250 lin_new (adj_roots s) (adj_out s) (am_get_annotations (g_annos s)) None.
Definition lin_of : storage := lin_storage 255 (match chain_copy with Some (s, _) => s | None => lin_new end).
Context (Hok : edges_ok (chain_edges cs) = true) (Hcopy : snd <$> chain_copy = Some true).
Lemma lin_of_ok : ∃ s, lin_of = lin_storage 255 s ∧ lin_ok s G ∧ l_stats s = None.
Proof using All.
  unfold lin_of. destruct chain_copy as [[s ok]|] eqn:E; [|done]. exists s. split; [done|].
  assert (linear_copy_of 255 (graph_of (chain_edges cs)) None s true) as HC.
  { unfold chain_copy in E. set (a := (adj_run adj_new (edge_ops (chain_edges cs))).1) in *.
    exists 250, (adj_sources a), (adj_roots a), (adj_out a), (am_get_annotations (g_annos a)).
    pose proof (graph_of_ginv (chain_edges cs)) as I. destruct (sources_spec _ _ I) as (_ & _ & H1 & H2).
    split_and!; [by apply adj_holds|done|done|]. rewrite E. simpl in Hcopy. injection Hcopy as ->. done. }
  pose proof chain_fits as F. rewrite <- (graph_of_edges _ Hok) in F |- *. by destruct (linear_copy_ok _ _ _ _ _ F HC) as (L & Hs & _).
Qed.
Lemma lin_of_implements : implements lin_of G.
Proof using All.
  destruct lin_of_ok as (s & -> & L & Hs). apply (lin_implements 255 G s L chain_fits). intros st E. congruence.
Qed.
Lemma lin_of_order : chain_order lin_of G.
Proof using All. destruct lin_of_ok as (s & -> & L & Hs). apply (lin_chain_order 255 G s L chain_fits). Qed.
Lemma lin_of_self : at_most_itself lin_of G.
Proof using All.
  destruct lin_of_ok as (s & -> & L & Hs). intros x y Hx Hy. cbn in Hy.
  rewrite (lin_missing_connected G s L), (lin_missing_inverse G s L) in Hy by done. by destruct Hy as [Hy|Hy]; apply elem_of_nil in Hy.
Qed.
End Chains.
