(** Specification: what it means that a container has a set of edges. *)
From stdpp Require Import base list gmap.
From Coq Require Import NArith.
From Verif Require Import KeySer KeySerSpec SymbolTable Types AnnoMem Adjacency Union.

(** The items have no errors and are these nodes *)
Definition gives (l : list (option N)) (P : N → Prop) : Prop := None ∉ l ∧ ∀ n, Some n ∈ l ↔ P n.
Definition contains_edges (c : container) (E : gset edge) : Prop :=
  (∀ x, gives (out_edges c x) (λ y, Edge x y ∈ E)) ∧
  (∀ y, gives (in_edges c y) (λ x, Edge x y ∈ E)) ∧
  gives (sources c) (λ x, ∃ y, Edge x y ∈ E).
Definition no_duplicates (c : container) : Prop := (∀ x, NoDup (out_edges c x)) ∧ (∀ y, NoDup (in_edges c y)) ∧ NoDup (sources c).
