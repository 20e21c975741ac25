(** A linear storage [s] that was created empty and into which a storage with the content [g] was copied.
    The other storage is only used through its interface (see [holds] in AdjacencySpec.v); its root nodes are
    visited in an arbitrary order. [ok] is false if the copy reported an error. *)
From stdpp Require Import base list gmap fin_maps.
From Coq Require Import NArith.
From Verif Require Import KeySer Types SymbolTable AnnoMem Adjacency AdjacencySpec GraphSpec Linear.

Definition linear_copy_of (pmax : N) (g : graph) (st : option stats) (s : lin) (ok : bool) : Prop :=
  ∃ fuel sources roots out annos,
    holds sources out annos g ∧ NoDup roots ∧ (∀ r, r ∈ roots ↔ is_root (gr_edges g) r) ∧
    lin_copy pmax fuel lin_new roots out annos st = Some (s, ok).

(** The component has the shape a linear storage is made for: disjoint chains, no longer than what the
    position type can count. *)
Definition fits_linear (pmax : N) (G : gset edge) : Prop :=
  chains G ∧ (N.of_nat (size (all_nodes G)) <= usize_max)%N ∧
  ∀ a p b, walk (edge_rel G) a p b → (N.of_nat (length p) < pmax)%N.
