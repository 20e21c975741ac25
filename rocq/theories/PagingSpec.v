(** Specification: pages of a list, and what the result list of a corpus may be. *)
From stdpp Require Import base list.
From Coq Require Import NArith.
From Verif Require Import QuickSortSpec Paging.

Definition page {A} (offset : N) (limit : option N) (l : list A) : list A :=
  match limit with Some n => take (N.to_nat n) (drop (N.to_nat offset) l) | None => drop (N.to_nat offset) l end.
(** The matches of a corpus in an admissible order *)
Definition ordered_matches {M} (cmp : M → M → comparison) (c : search M) (l : list M) : Prop :=
  if s_direct c then s_plan c = Some <$> l
  else ∃ ms, s_plan c = Some <$> ms ∧ Permutation l ms ∧ ascending cmp l.
(** No error while the query is executed *)
Definition no_error {M} (c : search M) : Prop := None ∉ s_plan c.
