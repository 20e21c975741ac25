(** C81: the files of components, with files of older versions. *)
From Coq Require Import NArith String.
From stdpp Require Import base list gmap.
From Verif Require Import KeySer Types CompPath AnnoMem Adjacency Dense Linear PrePost ComponentFiles ComponentFilesSpec ComponentFilesProofs.

(** ** A saved component is loaded again as it was, in any directory without leftovers of older versions
    (missing: directories with such files, see below) *)
Theorem C81_load_saved_partial :
  (∀ d g, no_old_files d (g_stats g) → load_adj (save_adj d g) = Some g) ∧
  (∀ d g, no_old_files d (da_stats g) → load_dense (save_dense d g) = Some g) ∧
  (∀ d g, no_old_files d (l_stats g) → load_linear (save_linear d g) = Some g) ∧
  (∀ d g, no_old_files d (p_stats g) → load_prepost (save_prepost d g) = Some g).
Proof.
  split_and!; intros d g H.
  - unfold load_adj, save_adj. rewrite load_saved by done. by destruct g.
  - unfold load_dense, save_dense. rewrite load_saved by done. by destruct g.
  - unfold load_linear, save_linear. rewrite load_saved by done. by destruct g.
  - unfold load_prepost, save_prepost. rewrite load_saved by done. by destruct g.
Qed.
Print Assumptions C81_load_saved_partial.
(** An update saves to a new directory, so that the component is loaded as it was saved *)
Theorem C81_new_directory :
  (∀ g, load_adj (save_adj ∅ g) = Some g) ∧ (∀ g, load_dense (save_dense ∅ g) = Some g) ∧ (∀ g, load_linear (save_linear ∅ g) = Some g) ∧ (∀ g, load_prepost (save_prepost ∅ g) = Some g).
Proof. destruct C81_load_saved_partial as (H1 & H2 & H3 & H4). split_and!; intros g; [apply H1|apply H2|apply H3|apply H4]; by split. Qed.
Print Assumptions C81_new_directory.
(** Later saves replace earlier ones *)
Theorem C81_saved_again : ∀ g g' : adj, load_adj (save_adj (save_adj ∅ g) g') = Some g'.
Proof.
  intros g g'. apply C81_load_saved_partial. split; [|intros _]; unfold save_adj, save_to, save_statistics; cbn [st_stats]; destruct (g_stats g);
    rewrite ?lookup_insert_ne, ?lookup_delete_ne, ?lookup_insert_ne by done; by rewrite ?lookup_insert_ne by done.
Qed.
Print Assumptions C81_saved_again.

(** ** Components of older versions keep their edges and annotations, and all statistics but the number of roots *)
Theorem C81_old_component :
  (∀ d e i x st, d !! str "component.bin" = Some (FOld e i x (as_old <$> st)) → ∃ st', load_adj d = Some (Adj e i x st') ∧ same_stats st' st) ∧
  (∀ d e i x st, d !! str "component.bin" = Some (FOld e i x (as_old <$> st)) → ∃ st', load_dense d = Some (DA e i x st') ∧ same_stats st' st) ∧
  (∀ d e i x st, d !! str "component.bin" = Some (FOld e i x (as_old <$> st)) → ∃ st', load_linear d = Some (Lin e i x st') ∧ same_stats st' st) ∧
  (∀ d e i x st, d !! str "component.bin" = Some (FOld e i x (as_old <$> st)) → ∃ st', load_prepost d = Some (PP e i x st') ∧ same_stats st' st).
Proof.
  assert (∀ st, same_stats (from_v1 <$> (as_old <$> st)) st) as Hs by (intros [st|]; [exact (old_same st)|done]).
  split_and!; intros d e i x st E; exists (from_v1 <$> (as_old <$> st)); (split; [|apply Hs]).
  - unfold load_adj. by rewrite (load_old _ _ _ _ _ _ _ E).
  - unfold load_dense. by rewrite (load_old _ _ _ _ _ _ _ E).
  - unfold load_linear. by rewrite (load_old _ _ _ _ _ _ _ E).
  - unfold load_prepost. by rewrite (load_old _ _ _ _ _ _ _ E).
Qed.
Print Assumptions C81_old_component.
(** Old statistics beside new fields *)
Theorem C81_old_statistics : ∀ d e i x st, d !! str "component.bin" = None → d !! str "stats.toml" = None → d !! str "edge_stats.bin" = Some (FOldStats (as_old <$> st)) →
  d !! str "edges.bin" = Some (FFirst e) → d !! str "inverse_edges.bin" = Some (FSecond i) → d !! str "annos.bin" = Some (FAnnos x) →
  ∃ st', load_adj d = Some (Adj e i x st') ∧ same_stats st' st.
Proof.
  intros d e i x st E1 E2 E3 E4 E5 E6. exists (from_v1 <$> (as_old <$> st)). split; [|destruct st as [st|]; [exact (old_same st)|done]].
  unfold load_adj. by rewrite (load_old_statistics "edges" "inverse_edges" d e i x _ E1 E2 E3 E4 E5 E6).
Qed.
Print Assumptions C81_old_statistics.
(** The number of roots is right exactly if there is one root, or no node *)
Theorem C81_roots_partial : ∀ s, from_v1 (as_old s) = s ↔ s_root_nodes s = if decide (0 < s_nodes s) then 1 else 0.
Proof. exact old_exact. Qed.
Print Assumptions C81_roots_partial.
Theorem C81_roots_refuted : ∃ s, s_rooted_tree s = true ∧ s_root_nodes s = 2 ∧ s_root_nodes (from_v1 (as_old s)) = 1.
Proof. by exists (Stats false true 4 2 1 1 1 1 4 2). Qed.
Print Assumptions C81_roots_refuted.

(** ** What is loaded stands in the files *)
Theorem C81_origin : ∀ d g, load_adj d = Some g →
  (∃ v, d !! str "component.bin" = Some (FOld (g_edges g) (g_inverse g) (g_annos g) v)) ∨
  (d !! str "edges.bin" = Some (FFirst (g_edges g)) ∧ d !! str "inverse_edges.bin" = Some (FSecond (g_inverse g)) ∧ d !! str "annos.bin" = Some (FAnnos (g_annos g))).
Proof. intros d g. unfold load_adj. intros (s & E & ->)%fmap_Some. exact (load_origin _ _ _ _ E). Qed.
Print Assumptions C81_origin.

(** ** Saving to a directory with a component of an older version has no effect: the old component is loaded, for all graphs *)
Theorem C81_saved_over_old : ∀ d g, d !! str "component.bin" ≠ None → load_adj (save_adj d g) = load_adj d.
Proof. intros d g H. unfold load_adj, save_adj. by rewrite old_wins by done. Qed.
Print Assumptions C81_saved_over_old.
Definition old_dir : dir (gmap N (list N)) (gmap N (list N)) := {[ str "component.bin" := FOld ∅ ∅ am_new None ]}.
Definition new_graph : adj := Adj {[ 1%N := [2%N] ]} {[ 2%N := [1%N] ]} am_new None.
Theorem C81_saved_over_old_refuted : load_adj (save_adj old_dir new_graph) = Some (Adj ∅ ∅ am_new None) ∧ g_edges new_graph !! 1%N = Some [2%N].
Proof. split; [rewrite C81_saved_over_old|]; [|by unfold old_dir; rewrite lookup_singleton|by unfold new_graph; cbn; rewrite lookup_singleton]. 
  unfold load_adj. by rewrite (load_old "edges" "inverse_edges" old_dir ∅ ∅ am_new None) by (unfold old_dir; by rewrite lookup_singleton). Qed.
Print Assumptions C81_saved_over_old_refuted.
(** Old statistics come back if a component is saved without statistics *)
Definition old_statistics : dir (gmap N (list N)) (gmap N (list N)) := {[ str "edge_stats.bin" := FOldStats (Some (StatsV1 false true 9 1 1 1 1 9 8)) ]}.
Theorem C81_statistics_refuted : g_stats new_graph = None ∧ ∃ g, load_adj (save_adj old_statistics new_graph) = Some g ∧ g_stats g = Some (Stats false true 9 1 1 1 1 1 9 8).
Proof. split; [done|]. eexists. split; vm_compute; reflexivity. Qed.
Print Assumptions C81_statistics_refuted.

(** ** Concrete cases *)
Example no_old_example : no_old_files (save_adj ∅ new_graph) (g_stats new_graph) ∧ no_old_files old_statistics (Some (Stats false true 2 1 1 1 1 1 2 1)).
Proof. split; (split; [vm_compute; reflexivity|intros Hx; try discriminate Hx; vm_compute; reflexivity]). Qed.
Example old_example : old_dir !! str "component.bin" = Some (FOld ∅ ∅ am_new (as_old <$> None)).
Proof. vm_compute. reflexivity. Qed.
