(** What the line and column of a position are. *)
From stdpp Require Import base list.
From Coq Require Import NArith.
From Verif Require Import LineCol.

Definition line_break : N := 10.
(** The number of line breaks before the position *)
Definition breaks_before (input : list N) (pos : nat) : nat := length (filter (λ c, c = line_break) (take pos input)).
(** The line with this position starts at [start] *)
Definition line_start (input : list N) (pos start : nat) : Prop :=
  start <= pos ∧ (start = 0 ∨ input !! (start - 1) = Some line_break) ∧ ∀ i, start <= i < pos → input !! i ≠ Some line_break.
(** Lines are counted from 0 and columns from 1 *)
Definition designates (input : list N) (lc : line_column) (pos : nat) : Prop :=
  lc_line lc = breaks_before input pos ∧ ∃ start, line_start input pos start ∧ lc_column lc = pos - start + 1.
