(** Specification of a writeable graph storage: a set of edges without self-loops and a finite map of
    edge annotations. *)
From stdpp Require Import base list gmap fin_maps.
From Coq Require Import NArith.
From Verif Require Import KeySer Types Adjacency GraphSpec.

Record graph := Graph { gr_edges : gset edge; gr_annos : gmap (edge * anno_key) bytes }.

(** Effect of an update; an update that reports an error has no effect. *)
Definition graph_step (g : graph) (o : adj_op) (ok : bool) : graph :=
  match o with
  | AddEdge e => Graph (if decide (source e = target e) then gr_edges g else {[e]} ∪ gr_edges g) (gr_annos g)
  | AddAnno e k v =>
      Graph (gr_edges g) (if ok && bool_decide (e ∈ gr_edges g) then <[(e, k) := v]> (gr_annos g) else gr_annos g)
  | DelEdge e => Graph (gr_edges g ∖ {[e]}) (filter (λ x, x.1.1 ≠ e) (gr_annos g))
  | DelAnno e k => Graph (gr_edges g) (delete (e, k) (gr_annos g))
  | DelNode n =>
      Graph (filter (λ e, source e ≠ n ∧ target e ≠ n) (gr_edges g))
            (filter (λ x, source x.1.1 ≠ n ∧ target x.1.1 ≠ n) (gr_annos g))
  | ClearEdges => Graph ∅ ∅
  | ReloadEdges => g
  end.
Fixpoint graph_run (g : graph) (ops : list adj_op) (oks : list bool) : graph :=
  match ops, oks with
  | o :: ops', ok :: oks' => graph_run (graph_step g o ok) ops' oks'
  | _, _ => g
  end.
Definition empty_graph : graph := Graph ∅ ∅.

(** The edge relation of a set of edges. *)
Definition edge_rel (G : gset edge) (a b : N) : Prop := Edge a b ∈ G.

(** Statistics in terms of the set of edges. *)
Definition is_source (G : gset edge) (x : N) : Prop := ∃ y, edge_rel G x y.
Definition is_target (G : gset edge) (x : N) : Prop := ∃ y, edge_rel G y x.
Definition is_root (G : gset edge) (x : N) : Prop := is_source G x ∧ ¬ is_target G x.
Definition fan_out (G : gset edge) (x : N) : nat := size (filter (λ e, source e = x) G).
Definition one_parent (G : gset edge) : Prop := ∀ a b x, edge_rel G a x → edge_rel G b x → a = b.
Definition ids_ok (G : gset edge) : Prop :=
  ∀ a b, edge_rel G a b → (a < node_bound)%N ∧ (b < node_bound)%N.

(** Node ids of an update are 64 bit numbers. *)
Definition op_ids_ok (o : adj_op) : Prop :=
  match o with AddEdge e => (source e < node_bound)%N ∧ (target e < node_bound)%N | _ => True end.

(** All nodes of an edge set *)
Definition all_nodes (G : gset edge) : gset N := set_map source G ∪ set_map target G.

(** Any graph storage, seen through its interface (source nodes, outgoing edges of a node, annotations
    of an edge), holds the graph [g]. *)
Record holds (sources : list N) (out : N → list N) (annos : edge → list (anno_key * bytes)) (g : graph) : Prop := {
  h_sources_nd : NoDup sources;
  h_sources : ∀ x, is_source (gr_edges g) x → x ∈ sources;
  h_out_nd : ∀ x, NoDup (out x);
  h_out : ∀ x y, y ∈ out x ↔ Edge x y ∈ gr_edges g;
  h_loop : ∀ x, Edge x x ∉ gr_edges g;
  h_annos_nd : ∀ e, NoDup (annos e).*1;
  h_annos : ∀ e k v, e ∈ gr_edges g → (k, v) ∈ annos e ↔ gr_annos g !! (e, k) = Some v;
  h_dom : ∀ e k, is_Some (gr_annos g !! (e, k)) → e ∈ gr_edges g
}.

(** Shapes of components *)
Definition one_child (G : gset edge) : Prop := ∀ x a b, edge_rel G x a → edge_rel G x b → a = b.
Definition forest (G : gset edge) : Prop := one_parent G ∧ acyclic (edge_rel G).
Definition chains (G : gset edge) : Prop := one_child G ∧ forest G.
