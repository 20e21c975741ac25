(** What the size of a corpus is. *)
From stdpp Require Import base list gmap.
From Coq Require Import NArith.
From Verif Require Import KeySer SortedMap Types SymbolTable AnnoMem GraphSpec Adjacency AdjacencySpec Storage StorageSpec GraphApply TokenHelper
  TokenSearchSpec CorpusSize.

(** Statistics that can be calculated for a corpus: the entries of the hash map are visited in any order *)
Definition is_statistics (db : corpus) (orders : list (order_name * storage)) (st : global_stats) : Prop :=
  ∃ l, l ≡ₚ seg_entries orders ∧ global_statistics db l = Some st.
(** [n] is the number of elements with a property *)
Definition counts {A} (P : A → Prop) (n : nat) : Prop := ∃ l : list A, NoDup l ∧ (∀ x, x ∈ l ↔ P x) ∧ length l = n.
(** The configured size is right: the quantity in this unit *)
Definition size_in (tokens : nat) (segs : bytes → option nat) (u : size_unit) : option nat :=
  match u with Tokens => Some tokens | Segmentation s => segs s end.
(** Edges are only added, or all are removed *)
Definition adds_only (ops : list adj_op) : Prop :=
  Forall (λ o, match o with DelEdge _ | DelNode _ => False | _ => True end) ops.
(** A component that was created by updates, with its statistics calculated afterwards *)
Definition segmentation (gs : storage) (ops : list adj_op) (oks : list bool) : Prop :=
  ∃ s fuel st, Forall op_ids_ok ops ∧ adj_run adj_new ops = (s, oks) ∧ calc_stats fuel s = Some st ∧ gs_nodes gs = Some (s_nodes st).
