(** What the execution of queries may rely on for every graph storage with the edges [G]. *)
From stdpp Require Import base list gmap.
From Coq Require Import NArith.
From Verif Require Import KeySer SortedMap Types SymbolTable GraphSpec Adjacency AdjacencySpec Storage.

(** Upper bounds which can be added to a position in a text without overflow; exclusive ones are never used by queries *)
Definition in_limit (G : gset edge) (max : bound N) : Prop :=
  match max with
  | Unbounded => True
  | Included m => (m + N.of_nat (size (all_nodes G)) <= usize_max)%N
  | Excluded _ => False
  end.
(** There is a path from [x] to [y] with a length in the range *)
Definition path_in_range (G : gset edge) (x y min : N) (max : bound N) : Prop :=
  ∃ p, simple_path (edge_rel G) x p y ∧ in_distance min max (length p).
(** A range which is not empty *)
Definition range_ok (min : N) (max : bound N) : Prop := match max with Included m => (min <= m)%N | _ => True end.

(** Searches with the minimal distance 0 are only defined for the nodes of the component: from any other node [x], some
    storages find [x] itself and some find nothing. *)
Record implements (gs : storage) (G : gset edge) : Prop := {
  im_out_nd : ∀ x, NoDup (gs_out gs x);
  im_out : ∀ x y, y ∈ gs_out gs x ↔ edge_rel G x y;
  im_in_nd : ∀ x, NoDup (gs_in gs x);
  im_in : ∀ x y, y ∈ gs_in gs x ↔ edge_rel G y x;
  im_sources_nd : NoDup (gs_sources gs);
  im_sources : ∀ x, x ∈ gs_sources gs ↔ is_source G x;
  im_roots_nd : NoDup (gs_roots gs);
  im_roots : ∀ x, x ∈ gs_roots gs ↔ is_root G x;
  im_connected_nd : ∀ x min max, in_limit G max → NoDup (gs_connected gs x min max);
  im_connected : ∀ x y min max, in_limit G max → x ∈ all_nodes G ∨ (1 <= min)%N →
    y ∈ gs_connected gs x min max ↔ path_in_range G x y min max;
  im_inverse_nd : ∀ x min max, in_limit G max → range_ok min max → NoDup (gs_connected_inverse gs x min max);
  im_inverse : ∀ x y min max, in_limit G max → range_ok min max → x ∈ all_nodes G ∨ (1 <= min)%N →
    y ∈ gs_connected_inverse gs x min max ↔ path_in_range G y x min max;
  im_is_connected : ∀ x y min max, in_limit G max → x ∈ all_nodes G ∨ (1 <= min)%N →
    gs_is_connected gs x y min max = true ↔ path_in_range G x y min max;
  im_distance : ∀ x y, match gs_distance gs x y with
                       | Some d => ∃ p, simple_path (edge_rel G) x p y ∧ N.of_nat (length p) = d
                       | None => ¬ reachable (edge_rel G) x y
                       end;
  im_nodes : gs_nodes gs = Some 0 → G = ∅
}.
(** Reachable nodes are found one after the other: no node before the ones from which it can be reached *)
Definition chain_order (gs : storage) (G : gset edge) : Prop :=
  ∀ x i j a b, gs_connected gs x 0 Unbounded !! i = Some a → gs_connected gs x 0 Unbounded !! j = Some b → i < j →
  reachable (edge_rel G) a b.
(** A node outside of the component is found by the search with minimal distance 0, or not *)
Definition finds_itself (gs : storage) (G : gset edge) : Prop :=
  ∀ x, x ∉ all_nodes G → gs_connected gs x 0 Unbounded = [x].
Definition finds_nothing (gs : storage) (G : gset edge) : Prop :=
  ∀ x, x ∉ all_nodes G → gs_connected gs x 0 Unbounded = [].
