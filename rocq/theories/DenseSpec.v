(** Specialised storages into which a storage with the content [g] was copied. The other storage is only used through
    its interface (see [holds] in AdjacencySpec.v); its source nodes are visited in an arbitrary order. [ok] is false
    if the copy reported an error. *)
From stdpp Require Import base list gmap fin_maps.
From Coq Require Import NArith.
From Verif Require Import KeySer Types SymbolTable AnnoMem Adjacency AdjacencySpec GraphSpec Dense DiskPath.

Definition dense_copy_of (largest : N) (g : graph) (st : option stats) (s : da) (ok : bool) : Prop :=
  ∃ sources out annos, holds sources out annos g ∧ da_copy da_new (Some largest) sources out annos st = Some (s, ok).

(** At most one outgoing edge per node, and the annotated nodes include all source nodes. *)
Definition fits_dense (largest : N) (G : gset edge) : Prop :=
  one_child G ∧ ∀ x, is_source G x → (x <= largest)%N.

Definition path_copy_of (g : graph) (st : option stats) (s : dpath) (ok : bool) : Prop :=
  ∃ fuel sources out annos, holds sources out annos g ∧ dp_copy fuel dp_new sources out annos st = Some (s, ok).

(** At most one outgoing edge per node, no cycle-free path is longer than 15. *)
Definition fits_disk_path (G : gset edge) : Prop :=
  one_child G ∧ ∀ a p b, simple_path (edge_rel G) a p b → length p ≤ 15.
