(** Model of the in-memory adjacency list graph storage
    (/repo/core/src/graph/storage/adjacencylist.rs). *)
From stdpp Require Import base list gmap fin_maps.
From Coq Require Import NArith.
From Verif Require Import KeySer KeySerSpec SortedMap Types SymbolTable AnnoMem Dfs.

(** storage/mod.rs l.24-52: GraphStatistic. The f64 fields are kept as numerator and denominator:
    avg_fan_out = s_sum_fan_out / s_nodes and dfs_visit_ratio = s_visits / s_nodes. *)
Record stats := Stats {
  s_cyclic : bool;
  s_rooted_tree : bool;
  s_nodes : nat;
  s_root_nodes : nat;
  s_max_fan_out : nat;
  s_fan_out_99 : nat;
  s_inv_fan_out_99 : nat;
  s_max_depth : nat;
  s_visits : nat;
  s_sum_fan_out : nat
}.

(** l.21-27 *)
Record adj := Adj {
  g_edges : gmap N (list N);
  g_inverse : gmap N (list N);
  g_annos : am edge;
  g_stats : option stats
}.

(** l.49-56 and l.58-64 *)
Definition adj_new : adj := Adj ∅ ∅ am_new None.
Definition adj_clear (s : adj) : adj := Adj ∅ ∅ (am_clear (g_annos s)) None.

(** slice::binary_search of the standard library on an ascending list, followed by inserting at the
    returned position if the value is missing (l.282-284, 287-289) or by removing the found position
    (l.306-308, l.312-314). *)
Fixpoint bs_insert (x : N) (l : list N) : list N :=
  match l with
  | [] => [x]
  | y :: l' => match (x ?= y)%N with Lt => x :: l | Eq => l | Gt => y :: bs_insert x l' end
  end.
Fixpoint bs_remove (x : N) (l : list N) : list N :=
  match l with
  | [] => []
  | y :: l' => match (x ?= y)%N with Lt => l | Eq => l' | Gt => y :: bs_remove x l' end
  end.

Definition adj_list (m : gmap N (list N)) (x : N) : list N := default [] (m !! x).

(** l.68-80, l.82-88, l.90-102, l.103-110 (iteration order of the hash map is not modelled) *)
Definition adj_out (s : adj) (x : N) : list N := adj_list (g_edges s) x.
Definition adj_has_out (s : adj) (x : N) : bool := match adj_out s x with [] => false | _ => true end.
Definition adj_in (s : adj) (x : N) : list N := adj_list (g_inverse s) x.
Definition adj_sources (s : adj) : list N :=
  (filter (λ kv : N * list N, kv.2 ≠ []) (map_to_list (g_edges s))).*1.

(** storage/mod.rs l.85-133: default implementations in the trait EdgeContainer *)
Definition adj_has_in (s : adj) (x : N) : bool := match adj_in s x with [] => false | _ => true end.
Definition adj_roots (s : adj) : list N := filter (λ x, adj_has_in s x = false) (adj_sources s).

(** l.276-293: add_edge *)
Definition adj_add_edge (s : adj) (e : edge) : adj :=
  if decide (source e = target e) then s
  else Adj (<[source e := bs_insert (target e) (adj_list (g_edges s) (source e))]> (g_edges s))
           (<[target e := bs_insert (source e) (adj_list (g_inverse s) (target e))]> (g_inverse s))
           (g_annos s) None.

(** l.295-302: add_edge_annotation; false: an error of the annotation storage *)
Definition adj_add_anno (s : adj) (e : edge) (k : anno_key) (v : bytes) : adj * bool :=
  if decide (target e ∈ adj_out s (source e)) then
    let '(a, r) := am_insert edge_compare (g_annos s) e k v in
    (Adj (g_edges s) (g_inverse s) a (g_stats s), r)
  else (s, true).

(** l.304-319: delete_edge *)
Definition adj_delete_edge (s : adj) (e : edge) : adj :=
  Adj (match g_edges s !! source e with
       | Some l => <[source e := bs_remove (target e) l]> (g_edges s)
       | None => g_edges s
       end)
      (match g_inverse s !! target e with
       | Some l => <[target e := bs_remove (source e) l]> (g_inverse s)
       | None => g_inverse s
       end)
      (am_remove_item (g_annos s) e).1 (g_stats s).

(** l.320-323: delete_edge_annotation *)
Definition adj_delete_anno (s : adj) (e : edge) (k : anno_key) : adj :=
  Adj (g_edges s) (g_inverse s) (am_remove_annotation (g_annos s) e k).1 (g_stats s).

(** l.324-350: delete_node *)
Definition adj_delete_node (s : adj) (x : N) : adj :=
  fold_left adj_delete_edge
    (((λ t, Edge x t) <$> adj_out s x) ++ ((λ y, Edge y x) <$> adj_in s x)) s.

(** l.126-159: load_from after save_to (the bincode round trip is the identity) *)
Definition adj_reload (s : adj) : adj :=
  Adj (g_edges s) (g_inverse s) (am_reload (g_annos s)) (g_stats s).

(** l.246-256: the edges of another storage with their annotations are added. The boolean is false if
    adding an annotation failed. *)
Definition copy_edge (annos : edge → list (anno_key * bytes)) (r : adj * bool) (e : edge) : adj * bool :=
  let '(s, ok) := r in
  if ok then
    fold_left (λ (r : adj * bool) (a : anno_key * bytes), let '(s, ok) := r in
                 if ok then adj_add_anno s e a.1 a.2 else r)
              (annos e) (adj_add_edge s e, true)
  else r.
Definition adj_copy (s : adj) (sources : list N) (out : N → list N)
  (annos : edge → list (anno_key * bytes)) (st : option stats) : adj * bool :=
  let '(s1, ok) := fold_left (copy_edge annos) (sources ≫= λ x, (λ y, Edge x y) <$> out x) (adj_clear s, true) in
  (Adj (g_edges s1) (g_inverse s1) (g_annos s1) st, ok).

(** l.29-40: get_fan_outs *)
Definition fan_outs (m : gmap N (list N)) : list nat :=
  sort_list Nat.compare (length <$> (map_to_list m).*2).

(** l.374-387: rooted_tree and has_incoming_edge *)
Definition tree_step (r : bool * gset N) (t : N) : bool * gset N :=
  let '(rooted, seen) := r in
  if rooted then if decide (t ∈ seen) then (false, seen) else (true, {[t]} ∪ seen) else r.

(** l.411-430: percentiles; note that the list is ascending *)
Definition percentile (l : list nat) : nat :=
  if decide (100 ≤ length l) then nth (length l / 100) l 0 else default 0 (last l).

(** l.436-446: depth first searches from all roots: number of visits, maximal depth and cyclic *)
Fixpoint visit_roots (fuel : nat) (out : N → list N) (roots : list N) (acc : nat * nat * bool)
  : option (nat * nat * bool) :=
  match roots with
  | [] => Some acc
  | r :: roots' =>
      match dfs_loop out 0 usize_max fuel (dfs_new r) with
      | Some (steps, final) =>
          let '(visits, depth, cyclic) := acc in
          visit_roots fuel out roots'
            (visits + length steps, fold_left (λ d (x : N * nat), d `max` x.2) steps depth, cyclic || d_cycle final)
      | None => None
      end
  end.

(** l.352-465: calculate_statistics (the annotation histograms are left out), also disk_adjacency.rs l.351-466.
    [sources] and [targets] are the source and target nodes of all edges in the order in which they are visited,
    [nonempty] whether there are edges, [fo] and [fi] the sorted fan-outs and inverse fan-outs. [None]: the searches do
    not finish with this fuel. *)
Definition stats_of (fuel : nat) (out : N → list N) (sources targets : list N) (nonempty : bool) (fo fi : list nat)
  : option stats :=
  let tree := (fold_left tree_step targets (true, ∅)).1 in
  let nodes : gset N := list_to_set sources ∪ list_to_set targets in
  let roots : gset N := list_to_set sources ∖ list_to_set targets in
  r ← (if decide (roots = ∅ ∧ nonempty = true) then Some (0, 1, true)
       else visit_roots fuel out (elements roots) (0, 1, false));
  let '(visits, depth, cyclic) := r in
  Some (Stats cyclic (tree && negb cyclic) (size nodes) (size roots) (default 0 (last fo))
          (percentile fo) (percentile fi)
          (if cyclic then 0 else depth) (if cyclic then 0 else visits) (foldr Nat.add 0 fo)).
Definition calc_stats (fuel : nat) (s : adj) : option stats :=
  stats_of fuel (adj_out s) (map_to_list (g_edges s)).*1 ((map_to_list (g_edges s)).*2 ≫= id)
    (bool_decide (g_edges s ≠ ∅)) (fan_outs (g_edges s)) (fan_outs (g_inverse s)).
Definition adj_calc_stats (fuel : nat) (s : adj) : option adj :=
  st ← calc_stats fuel s; Some (Adj (g_edges s) (g_inverse s) (g_annos s) (Some st)).

(** Update operations of a client; the boolean result is false for an error. *)
Inductive adj_op :=
| AddEdge (e : edge)
| AddAnno (e : edge) (k : anno_key) (v : bytes)
| DelEdge (e : edge)
| DelAnno (e : edge) (k : anno_key)
| DelNode (x : N)
| ClearEdges
| ReloadEdges.
Definition adj_step (s : adj) (o : adj_op) : adj * bool :=
  match o with
  | AddEdge e => (adj_add_edge s e, true)
  | AddAnno e k v => adj_add_anno s e k v
  | DelEdge e => (adj_delete_edge s e, true)
  | DelAnno e k => (adj_delete_anno s e k, true)
  | DelNode x => (adj_delete_node s x, true)
  | ClearEdges => (adj_clear s, true)
  | ReloadEdges => (adj_reload s, true)
  end.
Fixpoint adj_run (s : adj) (ops : list adj_op) : adj * list bool :=
  match ops with
  | [] => (s, [])
  | o :: ops' => let '(s1, r) := adj_step s o in let '(s2, rs) := adj_run s1 ops' in (s2, r :: rs)
  end.
