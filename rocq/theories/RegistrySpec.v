(** What a component must look like from outside, and the content of a component after a history of updates,
    calculations of statistics and optimizations. Only updates change the content. *)
From stdpp Require Import base list gmap fin_maps.
From Coq Require Import NArith.
From Verif Require Import KeySer Types SymbolTable AnnoMem Adjacency AdjacencySpec GraphSpec DiskAdjSpec Registry.

(** Everything the interface shows of the component agrees with the content [g]. *)
Record shows (v : view) (g : graph) : Prop := {
  sh_sources : NoDup (v_sources v) ∧ ∀ x, x ∈ v_sources v ↔ is_source (gr_edges g) x;
  sh_roots : NoDup (v_roots v) ∧ ∀ x, x ∈ v_roots v ↔ is_root (gr_edges g) x;
  sh_out : ∀ x, NoDup (v_out v x) ∧ ∀ y, y ∈ v_out v x ↔ Edge x y ∈ gr_edges g;
  sh_in : ∀ y, NoDup (v_in v y) ∧ ∀ x, x ∈ v_in v y ↔ Edge x y ∈ gr_edges g;
  sh_annos : ∀ e, NoDup (v_annos v e).*1 ∧ ∀ k b, (k, b) ∈ v_annos v e ↔ gr_annos g !! (e, k) = Some b
}.

Definition comp_graph_step (g : graph) (o : comp_op) (ok : bool) : graph :=
  match o with CUpdate u => if ok then graph_step g u true else g | _ => g end.
Fixpoint comp_graph (g : graph) (ops : list comp_op) (oks : list bool) : graph :=
  match ops, oks with
  | o :: ops', ok :: oks' => comp_graph (comp_graph_step g o ok) ops' oks'
  | _, _ => g
  end.

(** If the component has a cycle, one can be reached from a root node. *)
Definition cycles_visible (G : gset edge) : Prop :=
  (∃ x, on_cycle (edge_rel G) x) → ∃ r x, is_root G r ∧ reachable (edge_rel G) r x ∧ on_cycle (edge_rel G) x.

(** A path from a root node *)
Definition root_path (G : gset edge) (q : list N) : Prop :=
  ∃ r p b, is_root G r ∧ walk (edge_rel G) r p b ∧ q = r :: p.

(** The component can be optimized: no hidden cycles, the number of nodes, annotations and (twice the number of)
    paths from the roots can be counted in 64 bits, and the largest annotated node is not below a source node. *)
Record fits_optimize (largest : option N) (g : graph) : Prop := {
  fo_cycles : cycles_visible (gr_edges g);
  fo_nodes : (N.of_nat (size (all_nodes (gr_edges g))) <= usize_max)%N;
  fo_annos : (N.of_nat (size (gr_annos g)) <= usize_max)%N;
  fo_paths : ∀ P : list (list N), NoDup P → (∀ q, q ∈ P → root_path (gr_edges g) q) →
    (2 * N.of_nat (length P) <= usize_max)%N;
  fo_largest : ∀ i x, largest = Some i → is_source (gr_edges g) x → (x <= i)%N
}.

(** Conditions on the operations of a history: an added edge has node ids below 2^64-1, an optimization finds a
    component that can be optimized. *)
Definition op_fits (g : graph) (o : comp_op) : Prop :=
  match o with
  | CUpdate u => op_disk_ids_ok u
  | CStatistics => (N.of_nat (size (all_nodes (gr_edges g))) <= usize_max)%N
  | COptimize _ largest => fits_optimize largest g
  end.
Fixpoint history_fits (g : graph) (ops : list comp_op) (oks : list bool) : Prop :=
  match ops, oks with
  | o :: ops', ok :: oks' => op_fits g o ∧ history_fits (comp_graph_step g o ok) ops' oks'
  | _, _ => True
  end.

(** [c] is a component with the content [g] that was created and reached its state by some history. *)
Definition reached (ge75 : nat → N → bool) (le103 : nat → nat → bool) (c : bool * gs) (g : graph) : Prop :=
  ∃ disk fuel ops oks, comp_run ge75 le103 fuel (comp_new disk) ops = Some (c, oks) ∧
    history_fits empty_graph ops oks ∧ g = comp_graph empty_graph ops oks.
