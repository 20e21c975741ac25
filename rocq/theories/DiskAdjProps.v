(** C12-C15 and C19 for the adjacency list on disk. [ops] is an arbitrary history of updates,
    [graph_run empty_graph ops oks] the set of edges and annotations it describes (AdjacencySpec.v), where
    [oks] tells which updates reported an error. Paths are defined in GraphSpec.v. *)
From stdpp Require Import base list gmap fin_maps fin_sets sorting.
From Coq Require Import NArith Lia.
From Verif Require Import KeySer KeySerSpec SortedMap Types SymbolTable AnnoMem Dfs DfsQueries GraphSpec Adjacency
  AdjacencySpec AnnoMemProofs AdjacencyProofs StatsProofs CopyProofs AnnoMemQueries Search DiskAdj DiskAdjSpec DiskAdjProofs.

Local Lemma run_disk ops d oks : Forall op_disk_ids_ok ops → dk_run dk_new ops = (d, oks) →
  ∃ s, adj_run adj_new ops = (s, oks) ∧ sim d s (gr_edges (graph_run empty_graph ops oks)) ∧
       ginv s (graph_run empty_graph ops oks) ∧ small_ids (gr_edges (graph_run empty_graph ops oks)).
Proof.
  intros Ho Hr. destruct (sim_run ops dk_new adj_new empty_graph d oks Ho sim_new ginv_new) as (s & Es & S); [|done|].
  { intros a b ?%elem_of_empty. done. }
  exists s. split_and!; [done|done|by apply ginv_run_new|].
  clear -Ho. assert (small_ids (gr_edges empty_graph)) as H0 by (intros a b ?%elem_of_empty; done). revert H0.
  generalize empty_graph. revert oks. induction ops as [|o ops IH]; intros oks g H0; [done|].
  destruct oks as [|ok oks]; [done|]. simpl. apply Forall_cons in Ho as [Ho1 Ho]. apply IH; [done|]. by apply small_step.
Qed.
Local Lemma small_ids_ok G : small_ids G → ids_ok G.
Proof. intros B a b He. destruct (B a b He). unfold node_bound, max_id in *. lia. Qed.

(** The storage holds exactly the edges of the specification. *)
Theorem C14_disk_edges_read_back :
  ∀ ops d oks, Forall op_disk_ids_ok ops → dk_run dk_new ops = (d, oks) →
  let g := graph_run empty_graph ops oks in
  (∀ x, NoDup (dk_out d x) ∧ ∀ y, y ∈ dk_out d x ↔ Edge x y ∈ gr_edges g) ∧
  (∀ y, NoDup (dk_in d y) ∧ ∀ x, x ∈ dk_in d y ↔ Edge x y ∈ gr_edges g) ∧
  (∀ x, dk_has_out d x = true ↔ is_source (gr_edges g) x) ∧
  (∀ x, dk_has_in d x = true ↔ is_target (gr_edges g) x) ∧
  (NoDup (dk_sources d) ∧ ∀ x, x ∈ dk_sources d ↔ is_source (gr_edges g) x) ∧
  (NoDup (dk_roots d) ∧ ∀ x, x ∈ dk_roots d ↔ is_root (gr_edges g) x).
Proof.
  intros ops d oks Ho Hr g. destruct (run_disk _ _ _ Ho Hr) as (s & _ & S & I & B). fold g in S, I, B. split_and!.
  - exact (dk_out_lemma d s g S I B).
  - exact (dk_in_lemma d s g S I B).
  - intros x. destruct (dk_out_lemma d s g S I B x) as [_ Hin]. unfold dk_has_out, is_source, edge_rel. destruct (dk_out d x) as [|y l].
    + split; [done|]. intros [y Hy]. apply Hin in Hy. by apply elem_of_nil in Hy.
    + split; [|done]. intros _. exists y. apply Hin. left.
  - intros x. destruct (dk_in_lemma d s g S I B x) as [_ Hin]. unfold dk_has_in, is_target, edge_rel. destruct (dk_in d x) as [|y l].
    + split; [done|]. intros [y Hy]. apply Hin in Hy. by apply elem_of_nil in Hy.
    + split; [|done]. intros _. exists y. apply Hin. left.
  - apply (dk_sources_lemma d s g S).
  - apply (dk_sources_lemma d s g S).
  - apply (dk_roots_lemma d s g S I B).
  - apply (dk_roots_lemma d s g S I B).
Qed.
Print Assumptions C14_disk_edges_read_back.

Theorem C14_disk_annotations_read_back :
  ∀ ops d oks, Forall op_disk_ids_ok ops → dk_run dk_new ops = (d, oks) →
  let g := graph_run empty_graph ops oks in
  (∀ e k, am_get_value (k_annos d) e k = gr_annos g !! (e, k)) ∧
  (∀ e, NoDup (am_get_annotations (k_annos d) e).*1 ∧
        ∀ k v, (k, v) ∈ am_get_annotations (k_annos d) e ↔ gr_annos g !! (e, k) = Some v) ∧
  (∀ e k, is_Some (am_get_value (k_annos d) e k) → e ∈ gr_edges g).
Proof.
  intros ops d oks Ho Hr g. destruct (run_disk _ _ _ Ho Hr) as (s & _ & S & I & B). fold g in S, I, B.
  rewrite (sim_annos _ _ _ S). destruct (gi_annos _ _ I) as [leak Ia]. split_and!.
  - intros e k. exact (get_value_lemma edge_compare _ leak _ e k Ia).
  - intros e. exact (get_annotations_lemma edge_compare _ leak _ e Ia).
  - intros e k. rewrite (get_value_lemma edge_compare _ leak _ e k Ia). apply I.
Qed.
Print Assumptions C14_disk_annotations_read_back.

Theorem C14_disk_no_update_error :
  ∀ ops d oks, Forall op_disk_ids_ok ops → dk_run dk_new ops = (d, oks) → (N.of_nat (length ops) <= usize_max)%N →
  Forall (λ b, b = true) oks.
Proof.
  intros ops d oks Ho Hr Hn. destruct (run_disk _ _ _ Ho Hr) as (s & Es & _).
  exact (run_no_error ops adj_new 0 s oks Es (conj (le_n 0) (le_n 0)) Hn).
Qed.
Print Assumptions C14_disk_no_update_error.

(** Copying a storage into any disk-based one keeps edges, annotations and statistics of the first; those of the second are replaced. *)
Theorem C14_disk_copy :
  ∀ ops0 d0 oks0 sources out annos g st d ok, Forall op_disk_ids_ok ops0 → dk_run dk_new ops0 = (d0, oks0) → holds sources out annos g → disk_ids_ok (gr_edges g) →
  dk_copy d0 sources out annos st = (d, ok) →
  ((N.of_nat (sum_list_with (λ e, length (annos e)) (sources ≫= λ x, (λ y, Edge x y) <$> out x)) <= usize_max)%N → ok = true) ∧
  (ok = true → k_stats d = st ∧ (∀ x y, y ∈ dk_out d x ↔ Edge x y ∈ gr_edges g) ∧ (∀ x y, x ∈ dk_in d y ↔ Edge x y ∈ gr_edges g) ∧
     holds (dk_sources d) (dk_out d) (am_get_annotations (k_annos d)) g).
Proof.
  intros ops0 d0 oks0 sources out annos g st d ok Ho0 Hr0 H B Hc. destruct (run_disk _ _ _ Ho0 Hr0) as (s0 & Es0 & S0 & I0 & _). split.
  - intros Hn. destruct (dk_copy_sim _ _ _ _ _ _ _ _ _ S0 I0 Hc) as (s & g' & Es & _). unfold adj_copy in Es.
    destruct (fold_left _ _ _) as [s1 ok1] eqn:E. injection Es as <- <-.
    exact (copy_no_error annos _ (adj_clear s0) 0 s1 ok1 (conj (le_n 0) (le_n 0)) Hn E).
  - intros ->. destruct (dk_copy_lemma _ _ _ _ _ _ _ _ _ S0 I0 H Hc) as (s & S & I & Hst).
    split_and!; [done| | |exact (dk_holds d s g S I B)].
    + intros x. apply (dk_out_lemma d s g S I B).
    + intros x y. apply (dk_in_lemma d s g S I B).
Qed.
Print Assumptions C14_disk_copy.

(** Searches *)
Theorem C12_disk_find_connected :
  ∀ ops d oks, Forall op_disk_ids_ok ops → dk_run dk_new ops = (d, oks) →
  let G := gr_edges (graph_run empty_graph ops oks) in
  ∀ n min max, max ≠ Excluded 0%N →
  ∃ f0, ∀ f, f0 ≤ f → ∃ l, find_connected f (dk_out d) n min max = Some l ∧ NoDup l ∧
    ∀ m, m ∈ l ↔ ∃ p, simple_path (edge_rel G) n p m ∧ in_distance min max (length p).
Proof.
  intros ops d oks Ho Hr G n min max Hm. destruct (run_disk _ _ _ Ho Hr) as (s & _ & S & I & B).
  apply search_find; [intros x; apply (dk_out_lemma d s _ S I B)|by apply small_ids_ok|done].
Qed.
Print Assumptions C12_disk_find_connected.

Theorem C12_disk_is_connected :
  ∀ ops d oks, Forall op_disk_ids_ok ops → dk_run dk_new ops = (d, oks) →
  let G := gr_edges (graph_run empty_graph ops oks) in
  ∀ n t min max, max ≠ Excluded 0%N →
  ∃ f0, ∀ f, f0 ≤ f → ∃ b, is_connected f (dk_out d) n t min max = Some b ∧
    (b = true ↔ ∃ p, simple_path (edge_rel G) n p t ∧ in_distance min max (length p)).
Proof.
  intros ops d oks Ho Hr G n t min max Hm. destruct (run_disk _ _ _ Ho Hr) as (s & _ & S & I & B).
  apply search_is_connected; [intros x; apply (dk_out_lemma d s _ S I B)|by apply small_ids_ok|done].
Qed.
Print Assumptions C12_disk_is_connected.

Theorem C13_disk_find_connected_inverse :
  ∀ ops d oks, Forall op_disk_ids_ok ops → dk_run dk_new ops = (d, oks) →
  let G := gr_edges (graph_run empty_graph ops oks) in
  ∀ n min max, max ≠ Excluded 0%N →
  ∃ f0, ∀ f, f0 ≤ f → ∃ l, find_connected_inverse f (dk_in d) n min max = Some l ∧ NoDup l ∧
    ∀ m, m ∈ l ↔ ∃ p, simple_path (edge_rel G) m p n ∧ in_distance min max (length p).
Proof.
  intros ops d oks Ho Hr G n min max Hm. destruct (run_disk _ _ _ Ho Hr) as (s & _ & S & I & B).
  apply search_find_inverse; [intros x y; apply (dk_in_lemma d s _ S I B)|by apply small_ids_ok|done].
Qed.
Print Assumptions C13_disk_find_connected_inverse.

Theorem C15_disk_distance_partial :
  ∀ ops d oks, Forall op_disk_ids_ok ops → dk_run dk_new ops = (d, oks) →
  let G := gr_edges (graph_run empty_graph ops oks) in
  ∀ n t, ∃ f0, ∀ f, f0 ≤ f → ∃ r, distance f (dk_out d) n t = Some r ∧
    match r with
    | Some d => ∃ p, simple_path (edge_rel G) n p t ∧ length p = d
    | None => ¬ reachable (edge_rel G) n t
    end.
Proof.
  intros ops d oks Ho Hr G n t. destruct (run_disk _ _ _ Ho Hr) as (s & _ & S & I & B).
  apply search_distance; [intros x; apply (dk_out_lemma d s _ S I B)|by apply small_ids_ok].
Qed.
Print Assumptions C15_disk_distance_partial.

(** calculate_statistics *)
Theorem C19_disk_statistics_partial :
  ∀ ops d oks, Forall op_disk_ids_ok ops → dk_run dk_new ops = (d, oks) →
  let G := gr_edges (graph_run empty_graph ops oks) in
  let E := edge_rel G in
  (N.of_nat (size (all_nodes G)) <= usize_max)%N →
  ∃ f0, ∀ f, f0 ≤ f → ∃ st, dk_calc_stats f d = Some st ∧
    (s_cyclic st = true → ∃ x, on_cycle E x) ∧
    (s_cyclic st = false → ∀ r x, is_root G r → reachable E r x → ¬ on_cycle E x) ∧
    (s_rooted_tree st = true ↔ s_cyclic st = false ∧ one_parent G) ∧
    size (all_nodes G) ≤ s_nodes st ∧
    (∀ x, fan_out G x ≤ s_max_fan_out st) ∧ (s_max_fan_out st = 0 ∨ ∃ x, fan_out G x = s_max_fan_out st) ∧
    (s_cyclic st = false →
       (∀ r p x, is_root G r → simple_path E r p x → length p ≤ s_max_depth st) ∧
       (s_max_depth st = 1 ∨ ∃ r p x, is_root G r ∧ simple_path E r p x ∧ length p = s_max_depth st)).
Proof.
  intros ops d oks Ho Hr G E Hsize. destruct (run_disk _ _ _ Ho Hr) as (s & _ & S & I & B).
  exact (dk_stats_lemma d s _ S I B Hsize).
Qed.
Print Assumptions C19_disk_statistics_partial.

(** The id 2^64-1 is not visible as a target, so that the in-memory and the disk storage differ. *)
Theorem C14_disk_largest_id_refuted :
  ∃ ops d oks, Forall op_ids_ok ops ∧ dk_run dk_new ops = (d, oks) ∧ Forall (λ b, b = true) oks ∧
  ∃ y, Edge 1 y ∈ gr_edges (graph_run empty_graph ops oks) ∧ dk_out d 1 = [].
Proof.
  set (ops := [AddEdge (Edge 1 18446744073709551615)]).
  exists ops, (dk_run dk_new ops).1, (dk_run dk_new ops).2. split_and!.
  - apply Forall_cons_2; [split; vm_compute; reflexivity|apply Forall_nil_2].
  - apply surjective_pairing.
  - vm_compute. repeat constructor.
  - exists 18446744073709551615%N. split; [|vm_compute; reflexivity].
    apply (bool_decide_eq_true _). vm_compute. reflexivity.
Qed.
Print Assumptions C14_disk_largest_id_refuted.

Example disk_adjacency_example :
  let ops := [AddEdge (Edge 1 2); AddEdge (Edge 2 3); AddEdge (Edge 3 1); AddEdge (Edge 3 3);
              AddEdge (Edge 2 4); AddAnno (Edge 2 4) (AnnoKey [97%N] []) [120%N];
              AddEdge (Edge 9 1); DelNode 9; DelEdge (Edge 8 7); ReloadEdges] in
  let r := dk_run dk_new ops in
  let s := r.1 in
  r.2 = repeat true 10 ∧ Forall op_disk_ids_ok ops ∧
  find_connected 50 (dk_out s) 1 1 Unbounded = Some [2; 4; 3]%N ∧
  find_connected_inverse 50 (dk_in s) 4 1 Unbounded = Some [2; 1; 3]%N ∧
  distance 50 (dk_out s) 3 4 = Some (Some 3) ∧
  dk_sources s = [1; 2; 3]%N ∧ dk_roots s = [] ∧
  am_get_value (k_annos s) (Edge 2 4) (AnnoKey [97%N] []) = Some [120%N] ∧
  s_cyclic <$> dk_calc_stats 50 (dk_run dk_new (ops ++ [AddEdge (Edge 0 1)])).1 = Some true.
Proof.
  cbv zeta. split_and!; [vm_compute; reflexivity| |vm_compute; reflexivity..].
  repeat (apply Forall_cons_2; [first [done|by split]|]); apply Forall_nil_2.
Qed.
