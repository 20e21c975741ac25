(** C12-C15 and C19: the adjacency list storage. [ops] is an arbitrary history of updates,
    [graph_run empty_graph ops oks] the set of edges and annotations it describes (AdjacencySpec.v), where
    [oks] tells which updates reported an error. Paths, reachability and cycles are defined in GraphSpec.v.
    The search loops have a fuel argument; every theorem says that all sufficiently large amounts of fuel
    give the answer (so the loop terminates). *)
From stdpp Require Import base list gmap fin_maps sorting.
From Coq Require Import NArith Lia.
From Verif Require Import KeySer KeySerSpec SortedMap Types SymbolTable AnnoMem Dfs DfsQueries GraphSpec Adjacency
  AdjacencySpec AnnoMemProofs AdjacencyProofs StatsProofs CopyProofs AnnoMemQueries.

Local Ltac ids_tac := repeat (apply Forall_cons_2; [first [done|by split]|]); apply Forall_nil_2.
Local Lemma run_graph ops s oks : Forall op_ids_ok ops → adj_run adj_new ops = (s, oks) →
  ginv s (graph_run empty_graph ops oks) ∧ ids_ok (gr_edges (graph_run empty_graph ops oks)).
Proof.
  intros Ho Hr. split; [by apply ginv_run_new|]. apply ids_run; [done|]. intros a b Hab. unfold edge_rel in Hab. simpl in Hab. by apply elem_of_empty in Hab.
Qed.

(** C12: find_connected terminates and returns exactly the nodes reached by a cycle-free path with a length
    in the range, once. *)
Theorem C12_find_connected :
  ∀ ops s oks, Forall op_ids_ok ops → adj_run adj_new ops = (s, oks) →
  let G := gr_edges (graph_run empty_graph ops oks) in
  ∀ n min max, max ≠ Excluded 0%N →
  ∃ f0, ∀ f, f0 ≤ f → ∃ l, find_connected f (adj_out s) n min max = Some l ∧ NoDup l ∧
    ∀ m, m ∈ l ↔ ∃ p, simple_path (edge_rel G) n p m ∧ in_distance min max (length p).
Proof.
  intros ops s oks Ho Hr G n min max Hm. destruct (run_graph _ _ _ Ho Hr) as [I Hids].
  exact (adj_find_connected s _ I Hids n min max Hm).
Qed.
Print Assumptions C12_find_connected.

(** C12: is_connected is membership in that set. *)
Theorem C12_is_connected :
  ∀ ops s oks, Forall op_ids_ok ops → adj_run adj_new ops = (s, oks) →
  let G := gr_edges (graph_run empty_graph ops oks) in
  ∀ n t min max, max ≠ Excluded 0%N →
  ∃ f0, ∀ f, f0 ≤ f → ∃ b, is_connected f (adj_out s) n t min max = Some b ∧
    (b = true ↔ ∃ p, simple_path (edge_rel G) n p t ∧ in_distance min max (length p)).
Proof.
  intros ops s oks Ho Hr G n t min max Hm. destruct (run_graph _ _ _ Ho Hr) as [I Hids].
  exact (adj_is_connected s _ I Hids n t min max Hm).
Qed.
Print Assumptions C12_is_connected.

(** C12: with the unlimited range the result is the set of all reachable nodes. *)
Theorem C12_find_all_reachable :
  ∀ ops s oks, Forall op_ids_ok ops → adj_run adj_new ops = (s, oks) →
  let G := gr_edges (graph_run empty_graph ops oks) in
  ∀ n, ∃ f0, ∀ f, f0 ≤ f → ∃ l, find_connected f (adj_out s) n 0 Unbounded = Some l ∧ NoDup l ∧
    ∀ m, m ∈ l ↔ reachable (edge_rel G) n m.
Proof.
  intros ops s oks Ho Hr G n. destruct (run_graph _ _ _ Ho Hr) as [I Hids].
  destruct (adj_find_connected s _ I Hids n 0 Unbounded ltac:(done)) as (f0 & Hf). exists f0. intros f Hf0.
  destruct (Hf f Hf0) as (l & El & Hnd & Hl). exists l. split_and!; [done|done|]. intros m. rewrite Hl. split.
  - intros (p & [Hw _] & _). by exists p.
  - intros (p & Hp)%DfsProofs.reachable_simple. exists p. split; [done|]. split; [lia|done].
Qed.
Print Assumptions C12_find_all_reachable.

(** C12 is not true for the empty range ..0 (exclusive): the subtraction "max - 1" underflows, whatever the
    graph is. *)
Theorem C12_excluded_zero_refuted :
  ∃ ops s oks, Forall op_ids_ok ops ∧ adj_run adj_new ops = (s, oks) ∧
    ∀ f n min, find_connected f (adj_out s) n min (Excluded 0%N) = None.
Proof. by exists [], adj_new, []. Qed.
Print Assumptions C12_excluded_zero_refuted.

(** C13: forward and backward search mirror each other. *)
Theorem C13_forward_backward :
  ∀ ops s oks, Forall op_ids_ok ops → adj_run adj_new ops = (s, oks) →
  ∀ n m min max, max ≠ Excluded 0%N →
  ∃ f0, ∀ f, f0 ≤ f → ∃ fwd bwd,
    find_connected f (adj_out s) n min max = Some fwd ∧
    find_connected_inverse f (adj_in s) m min max = Some bwd ∧
    (m ∈ fwd ↔ n ∈ bwd).
Proof.
  intros ops s oks Ho Hr n m min max Hm. destruct (run_graph _ _ _ Ho Hr) as [I Hids].
  destruct (adj_find_connected s _ I Hids n min max Hm) as (f1 & H1).
  destruct (adj_find_connected_inverse s _ I Hids m min max Hm) as (f2 & H2).
  exists (f1 `max` f2). intros f Hf. destruct (H1 f ltac:(lia)) as (l1 & E1 & _ & L1).
  destruct (H2 f ltac:(lia)) as (l2 & E2 & _ & L2). exists l1, l2. split_and!; [done|done|]. by rewrite L1, L2.
Qed.
Print Assumptions C13_forward_backward.

(** C13: what the backward search returns. *)
Theorem C13_find_connected_inverse :
  ∀ ops s oks, Forall op_ids_ok ops → adj_run adj_new ops = (s, oks) →
  let G := gr_edges (graph_run empty_graph ops oks) in
  ∀ n min max, max ≠ Excluded 0%N →
  ∃ f0, ∀ f, f0 ≤ f → ∃ l, find_connected_inverse f (adj_in s) n min max = Some l ∧ NoDup l ∧
    ∀ m, m ∈ l ↔ ∃ p, simple_path (edge_rel G) m p n ∧ in_distance min max (length p).
Proof.
  intros ops s oks Ho Hr G n min max Hm. destruct (run_graph _ _ _ Ho Hr) as [I Hids].
  exact (adj_find_connected_inverse s _ I Hids n min max Hm).
Qed.
Print Assumptions C13_find_connected_inverse.

(** C14: the storage holds exactly the edges and annotations of the specification. *)
Theorem C14_edges_read_back :
  ∀ ops s oks, adj_run adj_new ops = (s, oks) →
  let g := graph_run empty_graph ops oks in
  (∀ x, NoDup (adj_out s x) ∧ ∀ y, y ∈ adj_out s x ↔ Edge x y ∈ gr_edges g) ∧
  (∀ y, NoDup (adj_in s y) ∧ ∀ x, x ∈ adj_in s y ↔ Edge x y ∈ gr_edges g) ∧
  (∀ x, adj_has_out s x = true ↔ is_source (gr_edges g) x) ∧
  (∀ x, adj_has_in s x = true ↔ is_target (gr_edges g) x) ∧
  (NoDup (adj_sources s) ∧ ∀ x, x ∈ adj_sources s ↔ is_source (gr_edges g) x) ∧
  (NoDup (adj_roots s) ∧ ∀ x, x ∈ adj_roots s ↔ is_root (gr_edges g) x) ∧
  (∀ x, Edge x x ∉ gr_edges g).
Proof.
  intros ops s oks Hr g. pose proof (ginv_run_new _ _ _ Hr) as I. fold g in I.
  destruct (sources_spec s g I) as (H1 & H2 & H3 & H4). split_and!; try done.
  - intros x. split; [apply nsorted_NoDup, I|apply I].
  - intros x. split; [apply nsorted_NoDup, I|intros y; apply I].
  - intros x. unfold adj_has_out, is_source, edge_rel. destruct (adj_out s x) as [|y l] eqn:El; simpl.
    + split; [done|]. intros [y Hy%(gi_out _ _ I)]. rewrite El in Hy. by apply elem_of_nil in Hy.
    + split; [|done]. intros _. exists y. apply (gi_out _ _ I). rewrite El. by left.
  - intros x. unfold adj_has_in, is_target, edge_rel. destruct (adj_in s x) as [|y l] eqn:El; simpl.
    + split; [done|]. intros [y Hy%(gi_in _ _ I)]. rewrite El in Hy. by apply elem_of_nil in Hy.
    + split; [|done]. intros _. exists y. apply (gi_in _ _ I). rewrite El. by left.
  - apply I.
Qed.
Print Assumptions C14_edges_read_back.

Theorem C14_edge_annotations_read_back :
  ∀ ops s oks, adj_run adj_new ops = (s, oks) →
  let g := graph_run empty_graph ops oks in
  (∀ e k, am_get_value (g_annos s) e k = gr_annos g !! (e, k)) ∧
  (∀ e, NoDup (am_get_annotations (g_annos s) e).*1 ∧
        ∀ k v, (k, v) ∈ am_get_annotations (g_annos s) e ↔ gr_annos g !! (e, k) = Some v) ∧
  (∀ e k, is_Some (am_get_value (g_annos s) e k) → e ∈ gr_edges g).
Proof.
  intros ops s oks Hr g. pose proof (ginv_run_new _ _ _ Hr) as I. fold g in I.
  destruct (gi_annos _ _ I) as [leak Ia]. split_and!.
  - intros e k. exact (get_value_lemma edge_compare _ leak _ e k Ia).
  - intros e. exact (get_annotations_lemma edge_compare _ leak _ e Ia).
  - intros e k. rewrite (get_value_lemma edge_compare _ leak _ e k Ia). apply I.
Qed.
Print Assumptions C14_edge_annotations_read_back.

(** C14: no update reports an error unless there were about 2^64 of them. *)
Theorem C14_no_update_error :
  ∀ ops s oks, adj_run adj_new ops = (s, oks) → (N.of_nat (length ops) <= usize_max)%N →
  Forall (λ b, b = true) oks.
Proof.
  intros ops s oks Hr Hn. exact (run_no_error ops adj_new 0 s oks Hr (conj (le_n 0) (le_n 0)) Hn).
Qed.
Print Assumptions C14_no_update_error.

(** C14: copying a storage into any adjacency list keeps edges, annotations and statistics; it can
    only fail if the symbol tables are full. *)
Theorem C14_copy :
  ∀ ops0 s0 oks0 sources out annos g st s ok, adj_run adj_new ops0 = (s0, oks0) →
  holds sources out annos g → adj_copy s0 sources out annos st = (s, ok) →
  ((N.of_nat (sum_list_with (λ e, length (annos e)) (sources ≫= λ x, (λ y, Edge x y) <$> out x)) <= usize_max)%N → ok = true) ∧
  (ok = true → g_stats s = st ∧ (∀ x y, y ∈ adj_out s x ↔ Edge x y ∈ gr_edges g) ∧ (∀ x y, x ∈ adj_in s y ↔ Edge x y ∈ gr_edges g) ∧
     holds (adj_sources s) (adj_out s) (am_get_annotations (g_annos s)) g).
Proof.
  intros ops0 s0 oks0 sources out annos g st s ok H0 H Hc. split.
  - intros Hn. unfold adj_copy in Hc. destruct (fold_left _ _ _) as [s1 ok1] eqn:E. injection Hc as <- <-.
    exact (copy_no_error annos _ (adj_clear s0) 0 s1 ok1 (conj (le_n 0) (le_n 0)) Hn E).
  - intros ->. destruct (copy_lemma _ _ _ _ H s0 _ st s (ginv_run_new _ _ _ H0) Hc) as [I Hst].
    split_and!; [done|apply I|apply I|by apply adj_holds].
Qed.
Print Assumptions C14_copy.

(** C14: an adjacency list itself is such a storage. *)
Theorem C14_copy_source_exists :
  ∀ ops s oks, adj_run adj_new ops = (s, oks) →
  holds (adj_sources s) (adj_out s) (am_get_annotations (g_annos s)) (graph_run empty_graph ops oks).
Proof. intros ops s oks Hr. exact (adj_holds s _ (ginv_run_new _ _ _ Hr)). Qed.
Print Assumptions C14_copy_source_exists.

(** C15: distance returns the length of some cycle-free path, and nothing only if there is no path. It is
    not the shortest one, see below; in a graph where every node has at most one parent it is. *)
Theorem C15_distance_partial :
  ∀ ops s oks, Forall op_ids_ok ops → adj_run adj_new ops = (s, oks) →
  let G := gr_edges (graph_run empty_graph ops oks) in
  ∀ n t, ∃ f0, ∀ f, f0 ≤ f → ∃ r, distance f (adj_out s) n t = Some r ∧
    (is_Some r ↔ reachable (edge_rel G) n t) ∧
    (∀ d, r = Some d → ∃ p, simple_path (edge_rel G) n p t ∧ length p = d) ∧
    (one_parent G → ∀ d, r = Some d → shortest (edge_rel G) n t d).
Proof.
  intros ops s oks Ho Hr G n t. destruct (run_graph _ _ _ Ho Hr) as [I Hids].
  destruct (adj_distance s _ I Hids n t) as (f0 & Hf). exists f0. intros f Hf0.
  destruct (Hf f Hf0) as (r & Er & Hd). exists r. split; [done|]. destruct r as [d|].
  - destruct Hd as (p & Hp & <-). split_and!.
    + split; [|done]. intros _. exists p. apply Hp.
    + intros d [= <-]. by exists p.
    + intros H1 d [= <-]. by apply shortest_one_parent.
  - split_and!; [|done|done]. split; [by intros [? ?]|done].
Qed.
Print Assumptions C15_distance_partial.

(** 0→1, 0→2, 2→1: the depth-first search enters the last neighbour first and reports 2. *)
Theorem C15_distance_not_shortest_refuted :
  ∃ ops s oks, Forall op_ids_ok ops ∧ adj_run adj_new ops = (s, oks) ∧
  let G := gr_edges (graph_run empty_graph ops oks) in
  (∀ f, 10 ≤ f → distance f (adj_out s) 0%N 1%N = Some (Some 2)) ∧ shortest (edge_rel G) 0%N 1%N 1.
Proof.
  set (ops := [AddEdge (Edge 0 1); AddEdge (Edge 0 2); AddEdge (Edge 2 1)]).
  exists ops, (adj_run adj_new ops).1, (adj_run adj_new ops).2.
  cbv zeta. split_and!; [ids_tac|apply surjective_pairing| |].
  - intros f Hf. replace f with (10 + (f - 10)) by lia. generalize (f - 10). intros k. vm_compute. reflexivity.
  - split.
    + exists [1%N]. split; [|done]. cbn [walk]. split; [|done]. unfold edge_rel. apply (bool_decide_eq_true _). vm_compute. reflexivity.
    + intros p Hp. destruct p; [|simpl; lia]. simpl in Hp. done.
Qed.
Print Assumptions C15_distance_not_shortest_refuted.

(** C19: calculate_statistics. *)
Theorem C19_statistics_partial :
  ∀ ops s oks, Forall op_ids_ok ops → adj_run adj_new ops = (s, oks) →
  let G := gr_edges (graph_run empty_graph ops oks) in
  let E := edge_rel G in
  (N.of_nat (size (all_nodes G)) <= usize_max)%N →
  ∃ f0, ∀ f, f0 ≤ f → ∃ st, calc_stats f s = Some st ∧
    (s_cyclic st = true → ∃ x, on_cycle E x) ∧
    (s_cyclic st = false → ∀ r x, is_root G r → reachable E r x → ¬ on_cycle E x) ∧
    (s_rooted_tree st = true ↔ s_cyclic st = false ∧ one_parent G) ∧
    size (all_nodes G) ≤ s_nodes st ∧
    (∀ x, fan_out G x ≤ s_max_fan_out st) ∧ (s_max_fan_out st = 0 ∨ ∃ x, fan_out G x = s_max_fan_out st) ∧
    (s_cyclic st = false →
       (∀ r p x, is_root G r → simple_path E r p x → length p ≤ s_max_depth st) ∧
       (s_max_depth st = 1 ∨ ∃ r p x, is_root G r ∧ simple_path E r p x ∧ length p = s_max_depth st)).
Proof.
  intros ops s oks Ho Hr G E Hsize. destruct (run_graph _ _ _ Ho Hr) as [I Hids].
  exact (calc_stats_lemma s _ I Hsize).
Qed.
Print Assumptions C19_statistics_partial.

(** C19: if every source node is reachable from a root node, "not cyclic" means that there is no cycle. *)
Theorem C19_acyclic_when_rooted :
  ∀ ops s oks, Forall op_ids_ok ops → adj_run adj_new ops = (s, oks) →
  let G := gr_edges (graph_run empty_graph ops oks) in
  let E := edge_rel G in
  (N.of_nat (size (all_nodes G)) <= usize_max)%N →
  (∀ x, is_source G x → ∃ r, is_root G r ∧ reachable E r x) →
  ∃ f0, ∀ f, f0 ≤ f → ∃ st, calc_stats f s = Some st ∧ (s_cyclic st = false ↔ acyclic E) ∧
    (s_rooted_tree st = true ↔ acyclic E ∧ one_parent G).
Proof.
  intros ops s oks Ho Hr G E Hsize Hroot. destruct (run_graph _ _ _ Ho Hr) as [I Hids].
  destruct (calc_stats_lemma s _ I Hsize) as (f0 & Hf). exists f0. intros f Hf0.
  destruct (Hf f Hf0) as (st & Est & Hc1 & Hc2 & Ht & _). exists st.
  assert (s_cyclic st = false ↔ acyclic E) as Hc.
  { split.
    - intros Hfalse x Hx. pose proof Hx as (p & Hp & Hw). destruct p as [|y p]; [done|].
      destruct (Hroot x) as (r & Hr1 & Hr2); [exists y; apply Hw|]. by apply (Hc2 Hfalse r x).
    - intros Ha. destruct (s_cyclic st); [|done]. destruct (Hc1 eq_refl) as [x Hx]. by destruct (Ha x). }
  split_and!; [done|done|]. rewrite Ht. by rewrite Hc.
Qed.
Print Assumptions C19_acyclic_when_rooted.

(** C19 is not true in general: the cycle 1→2→1 is not reachable from the only root 3 of 3→4→5, and the
    component is reported as acyclic and as a tree. *)
Theorem C19_cycle_without_root_refuted :
  ∃ ops s oks, Forall op_ids_ok ops ∧ adj_run adj_new ops = (s, oks) ∧
  let G := gr_edges (graph_run empty_graph ops oks) in
  on_cycle (edge_rel G) 1%N ∧
  ∃ st, calc_stats 20 s = Some st ∧ s_cyclic st = false ∧ s_rooted_tree st = true.
Proof.
  set (ops := [AddEdge (Edge 3 4); AddEdge (Edge 4 5); AddEdge (Edge 1 2); AddEdge (Edge 2 1)]).
  exists ops, (adj_run adj_new ops).1, (adj_run adj_new ops).2.
  cbv zeta. split_and!; [ids_tac|apply surjective_pairing| |].
  - exists [2; 1]%N. split; [done|]. cbn [walk]. split_and!; [| |done].
    all: unfold edge_rel; apply (bool_decide_eq_true _); vm_compute; reflexivity.
  - eexists. split; [vm_compute; reflexivity|]. done.
Qed.
Print Assumptions C19_cycle_without_root_refuted.

(** A cyclic graph with a self-loop attempt, deletions and annotations. *)
Example adjacency_example :
  let ops := [AddEdge (Edge 1 2); AddEdge (Edge 2 3); AddEdge (Edge 3 1); AddEdge (Edge 3 3);
              AddEdge (Edge 2 4); AddAnno (Edge 2 4) (AnnoKey [97%N] []) [120%N];
              AddEdge (Edge 9 1); DelNode 9; DelEdge (Edge 8 7); ReloadEdges] in
  let r := adj_run adj_new ops in
  let s := r.1 in
  r.2 = repeat true 10 ∧ Forall op_ids_ok ops ∧
  find_connected 50 (adj_out s) 1 1 Unbounded = Some [2; 4; 3]%N ∧
  find_connected 50 (adj_out s) 1 2 (Included 2%N) = Some [4; 3]%N ∧
  find_connected_inverse 50 (adj_in s) 4 1 Unbounded = Some [2; 1; 3]%N ∧
  distance 50 (adj_out s) 3 4 = Some (Some 3) ∧
  distance 50 (adj_out s) 4 3 = Some None ∧
  sort_list N.compare (adj_sources s) = [1; 2; 3]%N ∧ adj_roots s = [] ∧
  am_get_value (g_annos s) (Edge 2 4) (AnnoKey [97%N] []) = Some [120%N] ∧
  s_cyclic <$> calc_stats 50 (adj_run adj_new (ops ++ [AddEdge (Edge 0 1)])).1 = Some true.
Proof.
  cbv zeta. split_and!; [vm_compute; reflexivity|ids_tac|vm_compute; reflexivity..].
Qed.
