(** A pre/post-order storage [s] that was created empty and into which a storage with the content [g] was copied.
    The other storage is only used through its interface (see [holds] in AdjacencySpec.v); its root nodes are
    visited in an arbitrary order. [ok] is false if the copy reported an error. *)
From stdpp Require Import base list gmap fin_maps.
From Coq Require Import NArith.
From Verif Require Import KeySer Types SymbolTable AnnoMem Adjacency AdjacencySpec GraphSpec PrePost.

Definition prepost_copy_of (omax lmax : N) (g : graph) (st : option stats) (s : pp) (ok : bool) : Prop :=
  ∃ fuel sources roots out annos,
    holds sources out annos g ∧ NoDup roots ∧ (∀ r, r ∈ roots ↔ is_root (gr_edges g) r) ∧
    pp_copy omax lmax fuel pp_new roots out annos st = Some (s, ok).

(** The component has no cycles, its depth fits the level type, and the order type can count twice the number of
    different paths that start at a root. *)
Definition fits_prepost (omax lmax : N) (G : gset edge) : Prop :=
  acyclic (edge_rel G) ∧ (N.of_nat (size (all_nodes G)) <= usize_max)%N ∧ (lmax <= usize_max)%N ∧
  (∀ a p b, walk (edge_rel G) a p b → (N.of_nat (length p) <= lmax)%N) ∧
  ∀ P : list (list N), NoDup P →
    (∀ q, q ∈ P → ∃ r p b, is_root G r ∧ walk (edge_rel G) r p b ∧ q = r :: p) → (2 * N.of_nat (length P) <= omax)%N.
