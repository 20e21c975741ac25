(** C16: the linear storage. [linear_copy_of pmax g st s ok] (LinearSpec.v): [s] is the result of copying a
    storage with the edges and annotations [g] and statistics [st]; [fits_linear pmax G]: the edges [G] are
    disjoint chains, shorter than the largest value [pmax] of the position type. *)
From stdpp Require Import base list gmap fin_maps sorting.
From Coq Require Import NArith Lia.
From Verif Require Import KeySer KeySerSpec SortedMap Types SymbolTable AnnoMem Dfs GraphSpec Adjacency AdjacencySpec
  AnnoMemProofs AnnoMemQueries AdjacencyProofs CopyProofs Linear LinearSpec LinearProofs LinearQueries.

(** Copying succeeds (an error is only possible if the symbol tables for annotations are full). *)
Theorem C16_copy_succeeds :
  ∀ pmax g sources roots out annos st, fits_linear pmax (gr_edges g) → holds sources out annos g →
  NoDup roots → (∀ r, r ∈ roots ↔ is_root (gr_edges g) r) →
  ∃ f0, ∀ f, f0 ≤ f → ∃ s ok, lin_copy pmax f lin_new roots out annos st = Some (s, ok) ∧
    ((N.of_nat (sum_list_with (λ e, length (annos e)) (elements (gr_edges g))) <= usize_max)%N → ok = true).
Proof. exact linear_copy_total. Qed.
Print Assumptions C16_copy_succeeds.

(** Edges in both directions, source and root nodes, statistics. *)
Theorem C16_edges :
  ∀ pmax g st s ok, fits_linear pmax (gr_edges g) → linear_copy_of pmax g st s ok →
  (∀ x, NoDup (lin_out pmax s x) ∧ ∀ y, y ∈ lin_out pmax s x ↔ Edge x y ∈ gr_edges g) ∧
  (∀ x, NoDup (lin_in s x) ∧ ∀ y, y ∈ lin_in s x ↔ Edge y x ∈ gr_edges g) ∧
  (∀ x, lin_has_in s x = true ↔ is_target (gr_edges g) x) ∧
  (NoDup (lin_sources s) ∧ ∀ x, x ∈ lin_sources s ↔ is_source (gr_edges g) x) ∧
  (NoDup (lin_roots s) ∧ ∀ x, x ∈ lin_roots s ↔ is_root (gr_edges g) x) ∧
  l_stats s = st.
Proof.
  intros pmax g st s ok F C. destruct (linear_copy_ok _ _ _ _ _ F C) as (L & Hst & _). split_and!.
  - exact (lin_out_lemma pmax _ s L F).
  - exact (lin_in_lemma pmax _ s L F).
  - exact (lin_has_in_lemma pmax _ s L F).
  - apply (lin_sources_lemma pmax _ s L F).
  - apply (lin_sources_lemma pmax _ s L F).
  - apply (lin_roots_lemma pmax _ s L F).
  - apply (lin_roots_lemma pmax _ s L F).
  - done.
Qed.
Print Assumptions C16_edges.

Theorem C16_annotations :
  ∀ pmax g st s, fits_linear pmax (gr_edges g) → linear_copy_of pmax g st s true →
  (∀ e k, am_get_value (l_annos s) e k = gr_annos g !! (e, k)) ∧
  (∀ e, NoDup (am_get_annotations (l_annos s) e).*1 ∧
        ∀ k v, (k, v) ∈ am_get_annotations (l_annos s) e ↔ gr_annos g !! (e, k) = Some v).
Proof.
  intros pmax g st s F C. destruct (linear_copy_ok _ _ _ _ _ F C) as (_ & _ & Ha). destruct (Ha eq_refl) as [leak Ia]. split.
  - intros e k. exact (get_value_lemma edge_compare _ leak _ e k Ia).
  - intros e. exact (get_annotations_lemma edge_compare _ leak _ e Ia).
Qed.
Print Assumptions C16_annotations.

(** distance is the length of the shortest path. *)
Theorem C16_distance :
  ∀ pmax g st s ok, fits_linear pmax (gr_edges g) → linear_copy_of pmax g st s ok →
  ∀ x y, match lin_distance s x y with
         | Some d => shortest (edge_rel (gr_edges g)) x y (N.to_nat d)
         | None => ¬ reachable (edge_rel (gr_edges g)) x y
         end.
Proof.
  intros pmax g st s ok F C. destruct (linear_copy_ok _ _ _ _ _ F C) as (L & _). exact (lin_distance_lemma pmax _ s L F).
Qed.
Print Assumptions C16_distance.

(** is_connected, for nodes of the component or if the minimal distance is not 0. *)
Theorem C16_is_connected_partial :
  ∀ pmax g st s ok, fits_linear pmax (gr_edges g) → linear_copy_of pmax g st s ok →
  ∀ x y min max, x ∈ all_nodes (gr_edges g) ∨ (1 <= min)%N →
  lin_is_connected s x y min max = true ↔
  ∃ p, simple_path (edge_rel (gr_edges g)) x p y ∧ in_distance min max (length p).
Proof.
  intros pmax g st s ok F C. destruct (linear_copy_ok _ _ _ _ _ F C) as (L & _). exact (lin_is_connected_lemma pmax _ s L F).
Qed.
Print Assumptions C16_is_connected_partial.

(** find_connected, under the same condition and if adding the upper bound to a position does not overflow. *)
Theorem C16_find_connected_partial :
  ∀ pmax g st s ok, fits_linear pmax (gr_edges g) → linear_copy_of pmax g st s ok →
  ∀ x min max, x ∈ all_nodes (gr_edges g) ∨ (1 <= min)%N →
  (match max with
   | Unbounded => True
   | Included m | Excluded m => (m + N.of_nat (size (all_nodes (gr_edges g))) <= usize_max)%N
   end) →
  NoDup (lin_find_connected s x min max) ∧
  ∀ y, y ∈ lin_find_connected s x min max ↔
    ∃ p, simple_path (edge_rel (gr_edges g)) x p y ∧ in_distance min max (length p).
Proof.
  intros pmax g st s ok F C. destruct (linear_copy_ok _ _ _ _ _ F C) as (L & _). exact (lin_find_connected_lemma pmax _ s L F).
Qed.
Print Assumptions C16_find_connected_partial.

(** find_connected_inverse, under the same condition, for nonempty ranges without exclusive upper bound. *)
Theorem C16_find_connected_inverse_partial :
  ∀ pmax g st s ok, fits_linear pmax (gr_edges g) → linear_copy_of pmax g st s ok →
  ∀ x min max, x ∈ all_nodes (gr_edges g) ∨ (1 <= min)%N →
  (match max with Unbounded => True | Included m => (min <= m)%N | Excluded _ => False end) →
  NoDup (lin_find_connected_inverse s x min max) ∧
  ∀ y, y ∈ lin_find_connected_inverse s x min max ↔
    ∃ p, simple_path (edge_rel (gr_edges g)) y p x ∧ in_distance min max (length p).
Proof.
  intros pmax g st s ok F C. destruct (linear_copy_ok _ _ _ _ _ F C) as (L & _).
  exact (lin_find_connected_inverse_lemma pmax _ s L F).
Qed.
Print Assumptions C16_find_connected_inverse_partial.

(** A concrete component: the chains 5→3→8→1 and 20→21, copied from an adjacency list. *)
Definition example_ops : list adj_op :=
  [AddEdge (Edge 3 8); AddEdge (Edge 5 3); AddEdge (Edge 8 1); AddEdge (Edge 20 21);
   AddAnno (Edge 8 1) (AnnoKey [97%N] []) [120%N]].
Definition example_adj : adj := (adj_run adj_new example_ops).1.
Definition example_graph : graph := graph_run empty_graph example_ops (adj_run adj_new example_ops).2.
Definition example_lin : lin :=
  match lin_copy 255 20 lin_new (adj_roots example_adj) (adj_out example_adj)
          (am_get_annotations (g_annos example_adj)) None with
  | Some (s, _) => s
  | None => lin_new
  end.

Lemma example_edges : elements (gr_edges example_graph) ≡ₚ [Edge 3 8; Edge 5 3; Edge 8 1; Edge 20 21].
Proof. apply (bool_decide_eq_true _). vm_compute. reflexivity. Qed.
Lemma example_rel a b : edge_rel (gr_edges example_graph) a b ↔
  (a, b) = (3, 8)%N ∨ (a, b) = (5, 3)%N ∨ (a, b) = (8, 1)%N ∨ (a, b) = (20, 21)%N.
Proof.
  unfold edge_rel. rewrite <- elem_of_elements, example_edges, !elem_of_cons, elem_of_nil. naive_solver.
Qed.
Lemma example_walk : ∀ p a b, walk (edge_rel (gr_edges example_graph)) a p b → p ≠ [] →
  length p ≤ 3 ∧ a ≠ b.
Proof.
  set (rank := λ x : N, if (x =? 3)%N then 1 else if (x =? 8)%N then 2 else if (x =? 1)%N then 3 else if (x =? 21)%N then 1 else 0).
  assert (∀ p a b, walk (edge_rel (gr_edges example_graph)) a p b → rank b = rank a + length p ∧ rank b ≤ 3) as H.
  { induction p as [|c p IH]; intros a b; simpl.
    - intros ->. split; [lia|]. unfold rank. repeat (destruct (_ =? _)%N; [lia|]). lia.
    - intros [He Hw]. destruct (IH _ _ Hw) as [H1 H2]. split; [|done]. rewrite H1.
      apply example_rel in He as [[= -> ->]|[[= -> ->]|[[= -> ->]|[= -> ->]]]]; vm_compute rank; simpl; lia. }
  intros p a b Hw Hp. destruct (H p a b Hw) as [H1 H2]. split; [lia|]. intros ->. destruct p; [done|]. simpl in H1. lia.
Qed.
Lemma example_fits : fits_linear 255 (gr_edges example_graph).
Proof.
  split_and!.
  - split; [|split].
    + intros x a b Ha%example_rel Hb%example_rel. naive_solver.
    + intros a b x Ha%example_rel Hb%example_rel. naive_solver.
    + intros x (p & Hp & Hw). by destruct (example_walk p x x Hw Hp).
  - etrans; [|by apply (N.leb_le 20)]. vm_compute. discriminate.
  - intros a p b Hw. destruct p; [done|]. destruct (example_walk _ a b Hw ltac:(done)). lia.
Qed.
Lemma example_copy : linear_copy_of 255 example_graph None example_lin true.
Proof.
  exists 20, (adj_sources example_adj), (adj_roots example_adj), (adj_out example_adj), (am_get_annotations (g_annos example_adj)).
  assert (ginv example_adj example_graph) as I by (apply (ginv_run_new example_ops); apply surjective_pairing).
  destruct (sources_spec _ _ I) as (_ & _ & H1 & H2). split_and!; [by apply adj_holds|done|done|].
  unfold example_lin. destruct (lin_copy _ _ _ _ _ _ _) as [[s ok]|] eqn:E.
  - f_equal. f_equal.
    assert (snd <$> lin_copy 255 20 lin_new (adj_roots example_adj) (adj_out example_adj) (am_get_annotations (g_annos example_adj)) None = Some true)
      as Ht by (vm_compute; reflexivity). rewrite E in Ht. by injection Ht.
  - exfalso.
    assert (snd <$> lin_copy 255 20 lin_new (adj_roots example_adj) (adj_out example_adj) (am_get_annotations (g_annos example_adj)) None = Some true)
      as Ht by (vm_compute; reflexivity). by rewrite E in Ht.
Qed.
Example linear_example :
  lin_find_connected example_lin 5 1 Unbounded = [3; 8; 1]%N ∧
  lin_find_connected example_lin 5 1 (Included 2%N) = [3; 8]%N ∧
  lin_find_connected_inverse example_lin 1 1 (Included 2%N) = [3; 8]%N ∧
  lin_distance example_lin 5 1 = Some 3%N ∧ lin_distance example_lin 1 5 = None ∧
  lin_is_connected example_lin 5 8 2 (Excluded 3%N) = true ∧
  lin_out 255 example_lin 1 = [] ∧ lin_in example_lin 21 = [20%N].
Proof. split_and!; vm_compute; reflexivity. Qed.

(** C16 is not true without the restrictions. Node 7 is not part of the component: the adjacency list finds 7
    itself at distance 0, the linear storage finds nothing. *)
Theorem C16_self_query_refuted :
  fits_linear 255 (gr_edges example_graph) ∧ linear_copy_of 255 example_graph None example_lin true ∧
  lin_find_connected example_lin 7 0 Unbounded = [] ∧ lin_is_connected example_lin 7 7 0 Unbounded = false ∧
  find_connected 20 (adj_out example_adj) 7 0 Unbounded = Some [7%N] ∧
  simple_path (edge_rel (gr_edges example_graph)) 7%N [] 7%N ∧ in_distance 0 Unbounded 0.
Proof.
  split_and!; [exact example_fits|exact example_copy|vm_compute; reflexivity..|split; [done|apply NoDup_singleton]|split; [lia|done]].
Qed.
Print Assumptions C16_self_query_refuted.

(** An exclusive upper bound: distance < 2 from node 1 backwards is only node 8, but 3 and 5 are returned
    as well. *)
Theorem C16_inverse_excluded_refuted :
  fits_linear 255 (gr_edges example_graph) ∧ linear_copy_of 255 example_graph None example_lin true ∧
  lin_find_connected_inverse example_lin 1 1 (Excluded 2%N) = [5; 3; 8]%N ∧
  find_connected_inverse 20 (adj_in example_adj) 1 1 (Excluded 2%N) = Some [8%N].
Proof. split_and!; [exact example_fits|exact example_copy|vm_compute; reflexivity..]. Qed.
Print Assumptions C16_inverse_excluded_refuted.

(** An empty range (minimum larger than maximum) returns nodes, even ones in the wrong direction: backwards
    from 8 it returns 8 and its successor 1. *)
Theorem C16_inverse_empty_range_refuted :
  fits_linear 255 (gr_edges example_graph) ∧ linear_copy_of 255 example_graph None example_lin true ∧
  lin_find_connected_inverse example_lin 8 1 (Included 0%N) = [8; 1]%N ∧
  find_connected_inverse 20 (adj_in example_adj) 8 1 (Included 0%N) = Some [].
Proof. split_and!; [exact example_fits|exact example_copy|vm_compute; reflexivity..]. Qed.
Print Assumptions C16_inverse_empty_range_refuted.

(** The largest possible upper bound overflows (to 0): nothing is found. *)
Theorem C16_overflow_refuted :
  fits_linear 255 (gr_edges example_graph) ∧ linear_copy_of 255 example_graph None example_lin true ∧
  lin_find_connected example_lin 5 1 (Included usize_max) = [] ∧
  lin_find_connected example_lin 5 1 Unbounded = [3; 8; 1]%N.
Proof. split_and!; [exact example_fits|exact example_copy|vm_compute; reflexivity..]. Qed.
Print Assumptions C16_overflow_refuted.
