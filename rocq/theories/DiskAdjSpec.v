(** The range queries of the adjacency list on disk exclude the node id 2^64-1. *)
From stdpp Require Import base list gmap.
From Coq Require Import NArith.
From Verif Require Import KeySer Adjacency AdjacencySpec.

Definition op_disk_ids_ok (o : adj_op) : Prop :=
  match o with
  | AddEdge e => (source e < 18446744073709551615)%N ∧ (target e < 18446744073709551615)%N
  | _ => True
  end.
Definition disk_ids_ok (G : gset edge) : Prop :=
  ∀ a b, edge_rel G a b → (a < 18446744073709551615)%N ∧ (b < 18446744073709551615)%N.
