(** C17: the pre/post-order storage. [prepost_copy_of omax lmax g st s ok] (PrePostSpec.v): [s] is the result of
    copying a storage with the edges and annotations [g] and statistics [st]; [fits_prepost omax lmax G]: the edges
    [G] have no cycle and the order and level types with the largest values [omax] and [lmax] can count their paths
    and depths. Trees and forests are included, but also all directed acyclic graphs. *)
From stdpp Require Import base list gmap fin_maps sorting.
From Coq Require Import NArith Lia.
From Verif Require Import DfsProofs KeySer KeySerSpec SortedMap Types SymbolTable AnnoMem Dfs GraphSpec Adjacency AdjacencySpec
  AnnoMemProofs AnnoMemQueries AdjacencyProofs CopyProofs LinearProofs PrePost PrePostSpec PrePostNum PrePostProofs PrePostQueries.

(** Copying succeeds (an error is only possible if the symbol tables for annotations are full). *)
Theorem C17_copy_succeeds :
  ∀ omax lmax g sources roots out annos st, fits_prepost omax lmax (gr_edges g) → holds sources out annos g →
  NoDup roots → (∀ r, r ∈ roots ↔ is_root (gr_edges g) r) →
  ∃ f0, ∀ f, f0 ≤ f → ∃ s ok, pp_copy omax lmax f pp_new roots out annos st = Some (s, ok) ∧
    ((N.of_nat (sum_list_with (λ e, length (annos e)) (elements (gr_edges g))) <= usize_max)%N → ok = true).
Proof. exact prepost_copy_total. Qed.
Print Assumptions C17_copy_succeeds.

(** Edges in both directions, source and root nodes, statistics. *)
Theorem C17_edges :
  ∀ omax lmax g st s ok, fits_prepost omax lmax (gr_edges g) → prepost_copy_of omax lmax g st s ok →
  (∀ x, NoDup (pp_out s x) ∧ ∀ y, y ∈ pp_out s x ↔ Edge x y ∈ gr_edges g) ∧
  (∀ x, NoDup (pp_in s x) ∧ ∀ y, y ∈ pp_in s x ↔ Edge y x ∈ gr_edges g) ∧
  (NoDup (pp_sources s) ∧ ∀ x, x ∈ pp_sources s ↔ is_source (gr_edges g) x) ∧
  (NoDup (pp_roots s) ∧ ∀ x, x ∈ pp_roots s ↔ is_root (gr_edges g) x) ∧
  p_stats s = st.
Proof.
  intros omax lmax g st s ok F C. destruct (prepost_copy_ok _ _ _ _ _ _ F C) as (L & Hst & _). split_and!.
  - exact (pp_out_lemma omax lmax _ s L F).
  - exact (pp_in_lemma omax lmax _ s L F).
  - apply (pp_sources_lemma omax lmax _ s L F).
  - apply (pp_sources_lemma omax lmax _ s L F).
  - apply (pp_roots_spec omax lmax _ s L F).
  - apply (pp_roots_spec omax lmax _ s L F).
  - done.
Qed.
Print Assumptions C17_edges.

Theorem C17_annotations :
  ∀ omax lmax g st s, fits_prepost omax lmax (gr_edges g) → prepost_copy_of omax lmax g st s true →
  (∀ e k, am_get_value (p_annos s) e k = gr_annos g !! (e, k)) ∧
  (∀ e, NoDup (am_get_annotations (p_annos s) e).*1 ∧
        ∀ k v, (k, v) ∈ am_get_annotations (p_annos s) e ↔ gr_annos g !! (e, k) = Some v).
Proof.
  intros omax lmax g st s F C. destruct (prepost_copy_ok _ _ _ _ _ _ F C) as (_ & _ & Ha). destruct (Ha eq_refl) as [leak Ia]. split.
  - intros e k. exact (get_value_lemma edge_compare _ leak _ e k Ia).
  - intros e. exact (get_annotations_lemma edge_compare _ leak _ e Ia).
Qed.
Print Assumptions C17_annotations.

(** distance is the length of the shortest path, even if there are several paths. *)
Theorem C17_distance :
  ∀ omax lmax g st s ok, fits_prepost omax lmax (gr_edges g) → prepost_copy_of omax lmax g st s ok →
  ∀ x y, match pp_distance s x y with
         | Some d => shortest (edge_rel (gr_edges g)) x y (N.to_nat d)
         | None => ¬ reachable (edge_rel (gr_edges g)) x y
         end.
Proof.
  intros omax lmax g st s ok F C. destruct (prepost_copy_ok _ _ _ _ _ _ F C) as (L & _). exact (pp_distance_lemma omax lmax _ s L F).
Qed.
Print Assumptions C17_distance.

(** find_connected in both directions, for nodes of the component or if the minimal distance is not 0. The upper
    bound must not be Excluded(0), which underflows. *)
Theorem C17_find_connected_partial :
  ∀ omax lmax g st s ok, fits_prepost omax lmax (gr_edges g) → prepost_copy_of omax lmax g st s ok →
  ∀ x min max, x ∈ all_nodes (gr_edges g) ∨ (1 <= min)%N → max ≠ Excluded 0%N →
  ∃ l, pp_find_connected s x min max = Some l ∧ NoDup l ∧
    ∀ y, y ∈ l ↔ ∃ p, simple_path (edge_rel (gr_edges g)) x p y ∧ in_distance min max (length p).
Proof.
  intros omax lmax g st s ok F C. destruct (prepost_copy_ok _ _ _ _ _ _ F C) as (L & _). exact (pp_find_connected_lemma omax lmax _ s L F).
Qed.
Print Assumptions C17_find_connected_partial.

Theorem C17_find_connected_inverse_partial :
  ∀ omax lmax g st s ok, fits_prepost omax lmax (gr_edges g) → prepost_copy_of omax lmax g st s ok →
  ∀ x min max, x ∈ all_nodes (gr_edges g) ∨ (1 <= min)%N → max ≠ Excluded 0%N →
  ∃ l, pp_find_connected_inverse s x min max = Some l ∧ NoDup l ∧
    ∀ y, y ∈ l ↔ ∃ p, simple_path (edge_rel (gr_edges g)) y p x ∧ in_distance min max (length p).
Proof.
  intros omax lmax g st s ok F C. destruct (prepost_copy_ok _ _ _ _ _ _ F C) as (L & _).
  exact (pp_find_connected_inverse_lemma omax lmax _ s L F).
Qed.
Print Assumptions C17_find_connected_inverse_partial.

(** is_connected in a forest *)
Theorem C17_is_connected_forest_partial :
  ∀ omax lmax g st s ok, fits_prepost omax lmax (gr_edges g) → forest (gr_edges g) → prepost_copy_of omax lmax g st s ok →
  ∀ x y min max, x ∈ all_nodes (gr_edges g) ∨ (1 <= min)%N → max ≠ Excluded 0%N →
  ∃ b, pp_is_connected s x y min max = Some b ∧
    (b = true ↔ ∃ p, simple_path (edge_rel (gr_edges g)) x p y ∧ in_distance min max (length p)).
Proof.
  intros omax lmax g st s ok F [Hop _] C x y min max. destruct (prepost_copy_ok _ _ _ _ _ _ F C) as (L & _).
  exact (pp_is_connected_forest omax lmax _ s L F x y min max Hop).
Qed.
Print Assumptions C17_is_connected_forest_partial.

(** is_connected in any acyclic graph: "true" is always right, and it is returned if the lengths of all paths
    between the nodes are in the range. If only some are, see below. *)
Theorem C17_is_connected_dag_partial :
  ∀ omax lmax g st s ok, fits_prepost omax lmax (gr_edges g) → prepost_copy_of omax lmax g st s ok →
  ∀ x y min max, x ∈ all_nodes (gr_edges g) ∨ (1 <= min)%N → max ≠ Excluded 0%N →
  ∃ b, pp_is_connected s x y min max = Some b ∧
    (b = true → ∃ p, simple_path (edge_rel (gr_edges g)) x p y ∧ in_distance min max (length p)) ∧
    ((∃ p, simple_path (edge_rel (gr_edges g)) x p y) →
     (∀ p, simple_path (edge_rel (gr_edges g)) x p y → in_distance min max (length p)) → b = true).
Proof.
  intros omax lmax g st s ok F C. destruct (prepost_copy_ok _ _ _ _ _ _ F C) as (L & _). exact (pp_is_connected_lemma omax lmax _ s L F).
Qed.
Print Assumptions C17_is_connected_dag_partial.

(** A concrete component: 1→2→3→4 with the shortcut 1→3, and 20→21, copied from an adjacency list. *)
Definition example_ops : list adj_op :=
  [AddEdge (Edge 1 2); AddEdge (Edge 2 3); AddEdge (Edge 1 3); AddEdge (Edge 3 4); AddEdge (Edge 20 21);
   AddAnno (Edge 3 4) (AnnoKey [97%N] []) [120%N]].
Definition example_adj : adj := (adj_run adj_new example_ops).1.
Definition example_graph : graph := graph_run empty_graph example_ops (adj_run adj_new example_ops).2.
Definition example_pp : pp :=
  match pp_copy 255 255 20 pp_new (adj_roots example_adj) (adj_out example_adj)
          (am_get_annotations (g_annos example_adj)) None with
  | Some (s, _) => s
  | None => pp_new
  end.

Lemma example_edges : elements (gr_edges example_graph) ≡ₚ [Edge 1 2; Edge 2 3; Edge 1 3; Edge 3 4; Edge 20 21].
Proof. apply (bool_decide_eq_true _). vm_compute. reflexivity. Qed.
Lemma example_rel a b : edge_rel (gr_edges example_graph) a b ↔
  (a, b) ∈ [(1, 2); (2, 3); (1, 3); (3, 4); (20, 21)]%N.
Proof.
  unfold edge_rel. rewrite <- elem_of_elements, example_edges, !elem_of_cons, !elem_of_nil. naive_solver.
Qed.
Lemma example_walk : ∀ p a b, walk (edge_rel (gr_edges example_graph)) a p b → p ≠ [] → length p ≤ 3 ∧ a ≠ b.
Proof.
  set (rank := λ x : N, if (x =? 2)%N then 1 else if (x =? 3)%N then 2 else if (x =? 4)%N then 3 else if (x =? 21)%N then 1 else 0).
  assert (∀ p a b, walk (edge_rel (gr_edges example_graph)) a p b → rank a + length p ≤ rank b ∧ rank b ≤ 3) as H.
  { induction p as [|c p IH]; intros a b; simpl.
    - intros ->. split; [lia|]. unfold rank. repeat (destruct (_ =? _)%N; [lia|]). lia.
    - intros [He Hw]. destruct (IH _ _ Hw) as [H1 H2]. split; [|done]. apply example_rel in He.
      assert (rank a < rank c); [|lia].
      repeat (apply elem_of_cons in He as [[= -> ->]|He]; [vm_compute; lia|]). by apply elem_of_nil in He. }
  intros p a b Hw Hp. destruct (H p a b Hw) as [H1 H2]. split; [lia|]. intros ->. destruct p; [done|]. simpl in H1. lia.
Qed.
Lemma example_holds : holds (adj_sources example_adj) (adj_out example_adj) (am_get_annotations (g_annos example_adj)) example_graph ∧
  NoDup (adj_roots example_adj) ∧ ∀ r, r ∈ adj_roots example_adj ↔ is_root (gr_edges example_graph) r.
Proof.
  assert (ginv example_adj example_graph) as I by (apply (ginv_run_new example_ops); apply surjective_pairing).
  destruct (sources_spec _ _ I) as (_ & _ & H1 & H2). split_and!; [by apply adj_holds|done|done].
Qed.
Lemma example_fits : fits_prepost 255 255 (gr_edges example_graph).
Proof.
  assert (∀ a p b, walk (edge_rel (gr_edges example_graph)) a p b → length p ≤ 3) as Hw.
  { intros a p b Hw. destruct p; [simpl; lia|]. by destruct (example_walk _ a b Hw ltac:(done)). }
  split_and!.
  - intros x (p & Hp & Hc). by destruct (example_walk p x x Hc Hp).
  - etrans; [|by apply (N.leb_le 20)]. vm_compute. discriminate.
  - vm_compute. discriminate.
  - intros a p b Hp. apply Hw in Hp. lia.
  - intros P Hnd HP. destruct example_holds as (Hh & _ & Hr).
    assert (length P ≤ length (adj_roots example_adj ≫= upaths (adj_out example_adj) 4)) as Hle.
    { apply submseteq_length, NoDup_submseteq; [done|]. intros q Hq. destruct (HP q Hq) as (r & p & b & Hroot & Hwalk & ->).
      apply elem_of_list_bind. exists r. split; [|by apply Hr]. apply (upaths_complete _ 4 r p b).
      - eapply walk_ext; [|exact Hwalk]. intros u v. apply (h_out _ _ _ _ Hh).
      - apply Hw in Hwalk. lia. }
    assert (length (adj_roots example_adj ≫= upaths (adj_out example_adj) 4) = 8) as He by (vm_compute; reflexivity). lia.
Qed.
Lemma example_copy : prepost_copy_of 255 255 example_graph None example_pp true.
Proof.
  exists 20, (adj_sources example_adj), (adj_roots example_adj), (adj_out example_adj), (am_get_annotations (g_annos example_adj)).
  destruct example_holds as (H1 & H2 & H3). split_and!; [done|done|done|].
  assert (snd <$> pp_copy 255 255 20 pp_new (adj_roots example_adj) (adj_out example_adj) (am_get_annotations (g_annos example_adj)) None = Some true)
    as Ht by (vm_compute; reflexivity).
  unfold example_pp. destruct (pp_copy _ _ _ _ _ _ _ _) as [[s ok]|] eqn:E; [|done].
  f_equal. f_equal. by injection Ht.
Qed.
Example prepost_example :
  pp_out example_pp 1 = [3; 2]%N ∧ pp_in example_pp 3 = [1; 2]%N ∧
  pp_find_connected example_pp 1 2 Unbounded = Some [4; 3]%N ∧
  pp_find_connected_inverse example_pp 4 1 (Included 2%N) = Some [1; 3; 2]%N ∧
  pp_distance example_pp 1 4 = Some 2%N ∧ pp_distance example_pp 4 1 = None ∧
  pp_is_connected example_pp 2 4 2 (Excluded 3%N) = Some true.
Proof. split_and!; vm_compute; reflexivity. Qed.

(** C17 is not true for is_connected if there are several paths: 4 can be reached from 1 by a path of length 3,
    but is_connected decides by another path. The adjacency list finds it, and so does find_connected of the same
    storage. *)
Theorem C17_is_connected_refuted :
  fits_prepost 255 255 (gr_edges example_graph) ∧ prepost_copy_of 255 255 example_graph None example_pp true ∧
  pp_is_connected example_pp 1 4 3 (Included 3%N) = Some false ∧
  pp_find_connected example_pp 1 3 (Included 3%N) = Some [4%N] ∧
  is_connected 20 (adj_out example_adj) 1 4 3 (Included 3%N) = Some true ∧
  simple_path (edge_rel (gr_edges example_graph)) 1%N [2; 3; 4]%N 4%N.
Proof.
  split_and!; [exact example_fits|exact example_copy|vm_compute; reflexivity..|].
  split; [|apply (bool_decide_eq_true _); vm_compute; reflexivity].
  simpl. rewrite !example_rel. split_and!; [set_solver..|done].
Qed.
Print Assumptions C17_is_connected_refuted.

(** Node 7 is not part of the component: the adjacency list finds 7 itself at distance 0, this storage finds
    nothing. *)
Theorem C17_self_query_refuted :
  fits_prepost 255 255 (gr_edges example_graph) ∧ prepost_copy_of 255 255 example_graph None example_pp true ∧
  pp_find_connected example_pp 7 0 Unbounded = Some [] ∧ pp_is_connected example_pp 7 7 0 Unbounded = Some false ∧
  find_connected 20 (adj_out example_adj) 7 0 Unbounded = Some [7%N].
Proof. split_and!; [exact example_fits|exact example_copy|vm_compute; reflexivity..]. Qed.
Print Assumptions C17_self_query_refuted.
