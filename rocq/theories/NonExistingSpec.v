(** What is required of operators before they are negated. *)
From stdpp Require Import base list gmap.
From Coq Require Import NArith.
From Verif Require Import KeySer SortedMap Types AnnoMem Adjacency SortMatches TokenHelper TokenSearchSpec NodeSearch NodeSearchSpec NonExisting.

(** The operator holds for the nodes in [R]: its check and, if it can be used with an index, its candidates *)
Definition decides (op : binop) (R : N → N → Prop) : Prop :=
  (∀ a b, op_check op a b = true ↔ R a.1 b.1) ∧
  match op with IndexOp _ retrieve => ∀ a n, n ∈ retrieve a ↔ R a.1 n | BaseOp _ => True end.
(** Some node which is described by the search [s] is related to [n] *)
Definition exists_related (rx : bytes → option (bytes → bool)) (c : content) (s : spec) (target_left : bool) (R : N → N → Prop) (n : N) : Prop :=
  ∃ x k, meets rx c s x k ∧ if target_left then R x n else R n x.
(** The pattern of a search, if any, is valid *)
Definition valid_pattern (rx : bytes → option (bytes → bool)) (s : spec) : Prop := ∀ p, pattern s = Some p → is_Some (rx p).
