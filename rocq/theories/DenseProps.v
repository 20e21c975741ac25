(** C18: copies into the dense adjacency list and into the path storage. [dense_copy_of] and [path_copy_of] are copies
    of an arbitrary storage that holds the graph [g]; [fits_dense] and [fits_disk_path] are the shapes these storages
    are made for (DenseSpec.v). Paths are defined in GraphSpec.v. *)
From stdpp Require Import base list gmap fin_maps fin_sets.
From Coq Require Import NArith Lia.
From Verif Require Import KeySer KeySerSpec SortedMap Types SymbolTable AnnoMem AnnoMemProofs AnnoMemQueries Dfs GraphSpec Adjacency AdjacencySpec
  AdjacencyProofs CopyProofs Search Dense DiskPath DenseSpec DenseProofs DiskPathProofs.

(** ** Dense adjacency list *)
Theorem C18_dense_copy_succeeds :
  ∀ largest g sources out annos st, fits_dense largest (gr_edges g) → holds sources out annos g →
  ∃ s ok, da_copy da_new (Some largest) sources out annos st = Some (s, ok) ∧
   ((N.of_nat (sum_list_with (λ e, length (annos e)) (elements (gr_edges g))) <= usize_max)%N → ok = true).
Proof. exact dense_copy_total. Qed.
Print Assumptions C18_dense_copy_succeeds.

Theorem C18_dense_edges :
  ∀ largest g st s, fits_dense largest (gr_edges g) → dense_copy_of largest g st s true →
  (∀ x, NoDup (da_out s x) ∧ ∀ y, y ∈ da_out s x ↔ Edge x y ∈ gr_edges g) ∧
  (∀ y, NoDup (da_in s y) ∧ ∀ x, x ∈ da_in s y ↔ Edge x y ∈ gr_edges g) ∧
  (NoDup (da_sources s) ∧ ∀ x, x ∈ da_sources s ↔ is_source (gr_edges g) x) ∧
  (NoDup (da_roots s) ∧ ∀ x, x ∈ da_roots s ↔ is_root (gr_edges g) x) ∧
  da_stats s = st.
Proof.
  intros largest g st s F C. destruct (dense_copy_ok _ _ _ _ F C) as (H1 & H2 & H3 & _).
  assert (∀ x, x ∈ da_sources s ↔ is_source (gr_edges g) x) as Hs.
  { intros x. rewrite da_sources_lemma. unfold is_source, edge_rel. f_equiv. intros y. apply H1. }
  split_and!; [done|done|apply da_sources_nodup|done| | |done].
  - apply NoDup_filter, da_sources_nodup.
  - intros x. unfold da_roots. rewrite elem_of_list_filter, Hs. unfold is_root. rewrite (and_comm (_ = [])). apply and_iff_compat_l.
    destruct (H2 x) as [_ Hin]. destruct (da_in s x) as [|y l].
    + split; [|done]. intros _ [y Hy]. apply Hin in Hy. by apply elem_of_nil in Hy.
    + split; [done|]. intros Hno. destruct Hno. exists y. apply Hin. left.
Qed.
Print Assumptions C18_dense_edges.

Theorem C18_dense_annotations :
  ∀ largest g st s, fits_dense largest (gr_edges g) → dense_copy_of largest g st s true →
  (∀ e k, am_get_value (da_annos s) e k = gr_annos g !! (e, k)) ∧
  (∀ e, NoDup (am_get_annotations (da_annos s) e).*1 ∧
        ∀ k v, (k, v) ∈ am_get_annotations (da_annos s) e ↔ gr_annos g !! (e, k) = Some v).
Proof.
  intros largest g st s F C. destruct (dense_copy_ok _ _ _ _ F C) as (_ & _ & _ & leak & Ia). split.
  - intros e k. exact (get_value_lemma edge_compare _ leak _ e k Ia).
  - intros e. exact (get_annotations_lemma edge_compare _ leak _ e Ia).
Qed.
Print Assumptions C18_dense_annotations.

Theorem C18_dense_queries :
  ∀ largest g st s, fits_dense largest (gr_edges g) → ids_ok (gr_edges g) → dense_copy_of largest g st s true →
  ∀ x y min max, max ≠ Excluded 0%N →
  ∃ f0, ∀ f, f0 ≤ f → ∃ fwd bwd b d,
    find_connected f (da_out s) x min max = Some fwd ∧ NoDup fwd ∧
    (∀ m, m ∈ fwd ↔ ∃ p, simple_path (edge_rel (gr_edges g)) x p m ∧ in_distance min max (length p)) ∧
    find_connected_inverse f (da_in s) x min max = Some bwd ∧ NoDup bwd ∧
    (∀ m, m ∈ bwd ↔ ∃ p, simple_path (edge_rel (gr_edges g)) m p x ∧ in_distance min max (length p)) ∧
    is_connected f (da_out s) x y min max = Some b ∧
    (b = true ↔ ∃ p, simple_path (edge_rel (gr_edges g)) x p y ∧ in_distance min max (length p)) ∧
    distance f (da_out s) x y = Some d ∧
    match d with
    | Some d => shortest (edge_rel (gr_edges g)) x y d
    | None => ¬ reachable (edge_rel (gr_edges g)) x y
    end.
Proof.
  intros largest g st s F Hids C x y min max Hm. destruct (dense_copy_ok _ _ _ _ F C) as (H1 & H2 & _).
  assert (∀ a b, b ∈ da_out s a ↔ Edge a b ∈ gr_edges g) as Ho by (intros a; apply H1).
  assert (∀ a b, a ∈ da_in s b ↔ Edge a b ∈ gr_edges g) as Hi by (intros a b; apply H2).
  destruct (search_find _ _ Ho Hids x min max Hm) as (f1 & E1).
  destruct (search_find_inverse _ _ Hi Hids x min max Hm) as (f2 & E2).
  destruct (search_is_connected _ _ Ho Hids x y min max Hm) as (f3 & E3).
  destruct (search_distance _ _ Ho Hids x y) as (f4 & E4).
  exists (f1 + f2 + f3 + f4). intros f Hf.
  destruct (E1 f ltac:(lia)) as (fwd & ? & ? & ?), (E2 f ltac:(lia)) as (bwd & ? & ? & ?), (E3 f ltac:(lia)) as (b & ? & ?),
    (E4 f ltac:(lia)) as (d & ? & Hd).
  exists fwd, bwd, b, d. split_and!; [done..|]. destruct d as [d|]; [|done]. destruct Hd as (p & Hp & <-).
  split; [exists p; split; [apply Hp|done]|]. intros q Hq.
  destruct (DfsProofs.walk_simple _ x q y Hq) as (q' & Hq' & Hle & _).
  assert (p = q') as -> by (eapply one_child_unique; [apply F|done|done]). lia.
Qed.
Print Assumptions C18_dense_queries.

(** ** Path storage *)
Theorem C18_path_copy_succeeds :
  ∀ g sources out annos st, fits_disk_path (gr_edges g) → holds sources out annos g →
  ∃ f0, ∀ f, f0 ≤ f → ∃ s ok, dp_copy f dp_new sources out annos st = Some (s, ok) ∧
   ((N.of_nat (sum_list_with (λ e, length (annos e)) (elements (gr_edges g))) <= usize_max)%N → ok = true).
Proof.
  intros g sources out annos st F H. destruct (dp_copy_lemma g sources out annos st F H) as (f0 & Hf). exists f0. intros f Hf0.
  destruct (Hf f Hf0) as (s & ok & ? & ? & _). eauto.
Qed.
Print Assumptions C18_path_copy_succeeds.

(** The copied storage holds no self-loops ([holds]), so this is no restriction. *)
Local Lemma no_loop g st s ok x : path_copy_of g st s ok → Edge x x ∉ gr_edges g.
Proof. intros (? & ? & ? & ? & H & _). apply H. Qed.

(** Ingoing edges are read with an exclusive upper bound, so that an edge from node 2^64-1 is not found. *)
Theorem C18_path_edges :
  ∀ g st s, fits_disk_path (gr_edges g) → path_copy_of g st s true →
  (∀ x, ∃ l, dp_out s x = Some l ∧ NoDup l ∧ ∀ y, y ∈ l ↔ Edge x y ∈ gr_edges g) ∧
  (∃ l, dp_sources s = Some l ∧ NoDup l ∧ ∀ x, x ∈ l ↔ is_source (gr_edges g) x) ∧
  ((∀ x y, Edge x y ∈ gr_edges g → (x < 18446744073709551615)%N) →
   (∀ y, NoDup (dp_in s y) ∧ ∀ x, x ∈ dp_in s y ↔ Edge x y ∈ gr_edges g) ∧
   ∃ l, dp_roots s = Some l ∧ NoDup l ∧ ∀ x, x ∈ l ↔ is_root (gr_edges g) x) ∧
  t_stats s = st.
Proof.
  intros g st s F C. pose proof (λ x, no_loop _ _ _ _ x C) as Hl. destruct (path_copy_ok _ _ _ F C) as (P & H2 & _). split_and!.
  - intros x. exact (dp_out_lemma _ s F P Hl x).
  - exact (dp_sources_lemma _ s F P Hl).
  - intros Hb. split; [intros y; exact (dp_in_lemma _ s P y (λ x, Hb x y))|exact (dp_roots_lemma _ s F P Hl Hb)].
  - done.
Qed.
Print Assumptions C18_path_edges.

Theorem C18_path_annotations :
  ∀ g st s, fits_disk_path (gr_edges g) → path_copy_of g st s true →
  (∀ e k, am_get_value (t_annos s) e k = gr_annos g !! (e, k)) ∧
  (∀ e, NoDup (am_get_annotations (t_annos s) e).*1 ∧
        ∀ k v, (k, v) ∈ am_get_annotations (t_annos s) e ↔ gr_annos g !! (e, k) = Some v).
Proof.
  intros g st s F C. destruct (path_copy_ok _ _ _ F C) as (_ & _ & leak & Ia). split.
  - intros e k. exact (get_value_lemma edge_compare _ leak _ e k Ia).
  - intros e. exact (get_annotations_lemma edge_compare _ leak _ e Ia).
Qed.
Print Assumptions C18_path_annotations.

Theorem C18_path_find_connected :
  ∀ g st s, fits_disk_path (gr_edges g) → path_copy_of g st s true →
  ∀ x min max, max ≠ Excluded 0%N → ∃ l, dp_find_connected s x min max = Some l ∧ NoDup l ∧
  ∀ y, y ∈ l ↔ ∃ p, simple_path (edge_rel (gr_edges g)) x p y ∧ in_distance min max (length p).
Proof.
  intros g st s F C. destruct (path_copy_ok _ _ _ F C) as (P & _).
  exact (dp_find_connected_lemma _ s F P (λ x, no_loop _ _ _ _ x C)).
Qed.
Print Assumptions C18_path_find_connected.

Theorem C18_path_find_connected_inverse :
  ∀ g st s, fits_disk_path (gr_edges g) → path_copy_of g st s true → ids_ok (gr_edges g) →
  (∀ x y, Edge x y ∈ gr_edges g → (x < 18446744073709551615)%N) →
  ∀ x min max, max ≠ Excluded 0%N →
  ∃ f0, ∀ f, f0 ≤ f → ∃ l, find_connected_inverse f (dp_in s) x min max = Some l ∧ NoDup l ∧
  ∀ y, y ∈ l ↔ ∃ p, simple_path (edge_rel (gr_edges g)) y p x ∧ in_distance min max (length p).
Proof.
  intros g st s F C Hids Hb. destruct (path_copy_ok _ _ _ F C) as (P & _).
  assert (∀ a b, a ∈ dp_in s b ↔ Edge a b ∈ gr_edges g) as Hi by (intros a b; apply (dp_in_lemma _ s P b (λ x, Hb x b))).
  exact (search_find_inverse _ _ Hi Hids).
Qed.
Print Assumptions C18_path_find_connected_inverse.

(** is_connected and distance, except for the distance of a node to itself *)
Theorem C18_path_is_connected_partial :
  ∀ g st s, fits_disk_path (gr_edges g) → path_copy_of g st s true →
  ∀ x y min max, max ≠ Excluded 0%N → x ≠ y ∨ (1 <= min)%N → ∃ b, dp_is_connected s x y min max = Some b ∧
  (b = true ↔ ∃ p, simple_path (edge_rel (gr_edges g)) x p y ∧ in_distance min max (length p)).
Proof.
  intros g st s F C. destruct (path_copy_ok _ _ _ F C) as (P & _).
  exact (dp_is_connected_lemma _ s F P (λ x, no_loop _ _ _ _ x C)).
Qed.
Print Assumptions C18_path_is_connected_partial.

Theorem C18_path_distance_partial :
  ∀ g st s, fits_disk_path (gr_edges g) → path_copy_of g st s true →
  ∀ x y, x ≠ y → ∃ r, dp_distance s x y = Some r ∧
  match r with
  | Some d => shortest (edge_rel (gr_edges g)) x y d
  | None => ¬ reachable (edge_rel (gr_edges g)) x y
  end.
Proof.
  intros g st s F C. destruct (path_copy_ok _ _ _ F C) as (P & _).
  exact (dp_distance_lemma _ s F P (λ x, no_loop _ _ _ _ x C)).
Qed.
Print Assumptions C18_path_distance_partial.

(** A concrete component: the tree 1→3, 2→3, 3→5, and the cycle 6→7→6, copied from an adjacency list. *)
Definition example_ops : list adj_op :=
  [AddEdge (Edge 1 3); AddEdge (Edge 2 3); AddEdge (Edge 3 5); AddEdge (Edge 6 7); AddEdge (Edge 7 6);
   AddAnno (Edge 3 5) (AnnoKey [97%N] []) [120%N]].
Definition example_adj : adj := (adj_run adj_new example_ops).1.
Definition example_graph : graph := graph_run empty_graph example_ops (adj_run adj_new example_ops).2.
Definition example_dense : da :=
  match da_copy da_new (Some 9%N) (adj_sources example_adj) (adj_out example_adj) (am_get_annotations (g_annos example_adj)) None with
  | Some (s, _) => s | None => da_new end.
Definition example_path : dpath :=
  match dp_copy 20 dp_new (adj_sources example_adj) (adj_out example_adj) (am_get_annotations (g_annos example_adj)) None with
  | Some (s, _) => s | None => dp_new end.

Lemma example_edges : elements (gr_edges example_graph) ≡ₚ [Edge 1 3; Edge 2 3; Edge 3 5; Edge 6 7; Edge 7 6].
Proof. apply (bool_decide_eq_true _). vm_compute. reflexivity. Qed.
Lemma example_rel a b : Edge a b ∈ gr_edges example_graph ↔ (a, b) ∈ [(1, 3); (2, 3); (3, 5); (6, 7); (7, 6)]%N.
Proof. rewrite <- elem_of_elements, example_edges, !elem_of_cons, !elem_of_nil. naive_solver. Qed.
Lemma example_holds : holds (adj_sources example_adj) (adj_out example_adj) (am_get_annotations (g_annos example_adj)) example_graph.
Proof. apply adj_holds, (ginv_run_new example_ops), surjective_pairing. Qed.
Lemma example_one_child : one_child (gr_edges example_graph).
Proof.
  intros x a b Ha Hb. unfold edge_rel in *. rewrite example_rel in Ha, Hb.
  rewrite !elem_of_cons, !elem_of_nil in Ha, Hb.
  destruct Ha as [Ha|[Ha|[Ha|[Ha|[Ha|[]]]]]]; destruct Hb as [Hb|[Hb|[Hb|[Hb|[Hb|[]]]]]]; congruence.
Qed.
Lemma example_fits_dense : fits_dense 9 (gr_edges example_graph).
Proof.
  split; [exact example_one_child|]. intros x [y Hy]. unfold edge_rel in Hy. rewrite example_rel in Hy.
  repeat (apply elem_of_cons in Hy as [[= -> ->]|Hy]; [lia|]). by apply elem_of_nil in Hy.
Qed.
Lemma example_fits_path : fits_disk_path (gr_edges example_graph).
Proof.
  split; [exact example_one_child|]. intros a p b [Hw Hn]. apply NoDup_cons in Hn as [_ Hn].
  assert (length p ≤ length [3; 5; 6; 7]%N) as Hle; [|simpl in Hle; lia].
  apply submseteq_length, NoDup_submseteq; [done|]. clear Hn. revert a Hw. induction p as [|c p IH]; intros a; [by intros _ x ?%elem_of_nil|].
  cbn [walk]. intros [He Hw]. unfold edge_rel in He. rewrite example_rel in He. intros x [->|Hx]%elem_of_cons; [|by apply (IH c)].
  repeat (apply elem_of_cons in He as [[= -> ->]|He]; [apply (bool_decide_eq_true _); reflexivity|]). by apply elem_of_nil in He.
Qed.
Lemma example_dense_copy : dense_copy_of 9 example_graph None example_dense true.
Proof.
  exists (adj_sources example_adj), (adj_out example_adj), (am_get_annotations (g_annos example_adj)). split; [exact example_holds|].
  assert (snd <$> da_copy da_new (Some 9%N) (adj_sources example_adj) (adj_out example_adj) (am_get_annotations (g_annos example_adj)) None = Some true)
    as Ht by (vm_compute; reflexivity).
  unfold example_dense. destruct (da_copy _ _ _ _ _ _) as [[s ok]|]; [|done]. f_equal. f_equal. by injection Ht.
Qed.
Lemma example_path_copy : path_copy_of example_graph None example_path true.
Proof.
  exists 20, (adj_sources example_adj), (adj_out example_adj), (am_get_annotations (g_annos example_adj)). split; [exact example_holds|].
  assert (snd <$> dp_copy 20 dp_new (adj_sources example_adj) (adj_out example_adj) (am_get_annotations (g_annos example_adj)) None = Some true)
    as Ht by (vm_compute; reflexivity).
  unfold example_path. destruct (dp_copy _ _ _ _ _ _) as [[s ok]|]; [|done]. f_equal. f_equal. by injection Ht.
Qed.
Example dense_example :
  da_out example_dense 3 = [5]%N ∧ da_in example_dense 3 = [1; 2]%N ∧ da_sources example_dense = [1; 2; 3; 6; 7]%N ∧
  find_connected 20 (da_out example_dense) 6 1 Unbounded = Some [7]%N ∧
  dp_out example_path 3 = Some [5]%N ∧ dp_in example_path 3 = [1; 2]%N ∧ dp_sources example_path = Some [1; 2; 3; 6; 7]%N ∧
  dp_find_connected example_path 1 1 Unbounded = Some [3; 5]%N ∧ dp_find_connected example_path 6 0 Unbounded = Some [6; 7]%N ∧
  dp_distance example_path 1 5 = Some (Some 2) ∧ dp_is_connected example_path 1 5 2 (Excluded 3%N) = Some true ∧
  am_get_value (t_annos example_path) (Edge 3 5) (AnnoKey [97%N] []) = Some [120%N].
Proof. split_and!; vm_compute; reflexivity. Qed.

(** A node has no distance to itself and is not connected to itself with a minimal distance of 0, but it is found by
    find_connected of the same storage and by the adjacency list. *)
Theorem C18_path_self_query_refuted :
  fits_disk_path (gr_edges example_graph) ∧ path_copy_of example_graph None example_path true ∧
  dp_is_connected example_path 3 3 0 Unbounded = Some false ∧ dp_distance example_path 3 3 = Some None ∧
  dp_find_connected example_path 3 0 (Included 0%N) = Some [3%N] ∧
  is_connected 20 (adj_out example_adj) 3 3 0 Unbounded = Some true ∧ distance 20 (adj_out example_adj) 3 3 = Some (Some 0).
Proof. split_and!; [exact example_fits_path|exact example_path_copy|vm_compute; reflexivity..]. Qed.
Print Assumptions C18_path_self_query_refuted.

(** Querying a path storage into which nothing was copied fails (underflow of the number of entries). *)
Theorem C18_path_new_storage_refuted :
  ∀ x, dp_out dp_new x = None ∧ dp_sources dp_new = None ∧ adj_out adj_new x = [] ∧ adj_sources adj_new = [].
Proof. intros x. split_and!; done. Qed.
Print Assumptions C18_path_new_storage_refuted.
