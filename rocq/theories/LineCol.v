(** Model of the positions in error messages (/repo/graphannis/src/annis/db/aql/mod.rs l.599-669). A query is a list of bytes;
    byte 10 is the line break. *)
From stdpp Require Import base list.
From Coq Require Import NArith.

(** str::split('\n') *)
Fixpoint split_lines (s : list N) : list (list N) :=
  match s with
  | [] => [[]]
  | c :: r => match split_lines r with
              | [] => [[c]]
              | l :: ls => if decide (c = 10%N) then [] :: l :: ls else (c :: l) :: ls
              end
  end.
(** l.605-608; the map is the list of its entries, which are inserted in ascending order *)
Fixpoint line_offsets (o l : nat) (lines : list (list N)) : list (nat * nat) :=
  match lines with
  | [] => []
  | line :: r => (o, l) :: line_offsets (o + (length line + 1)) (S l) r
  end.
(** l.602-612 *)
Definition get_line_offsets (input : list N) : list (nat * nat) := line_offsets 0 0 (split_lines input).
(** types.rs l.42-45 *)
Record line_column := LineColumn { lc_line : nat; lc_column : nat }.
(** l.614-632: the last of the entries up to the position *)
Definition get_line_and_column_for_pos (pos : nat) (offset_to_line : list (nat * nat)) : line_column :=
  match last (filter (λ p, p.1 <= pos) offset_to_line) with
  | Some (offset, line) => LineColumn line (pos - offset + 1)
  | None => LineColumn 0 0
  end.
(** lalrpop_util::ParseError with the positions of its tokens *)
Inductive parse_error := InvalidToken (location : nat) | ExtraToken (start stop : nat) | UnrecognizedToken (start stop : nat)
  | UnrecognizedEof | UserError.
(** Subtraction on usize: None if it underflows (a panic in debug builds) *)
Definition checked_sub (a b : nat) : option nat := if decide (b <= a) then Some (a - b) else None.
(** l.634-669: [None] for a panic, [Some None] for no location *)
Definition extract_location (e : parse_error) (input : list N) : option (option (line_column * option line_column)) :=
  let offsets := get_line_offsets input in
  let at_pos p := get_line_and_column_for_pos p offsets in
  match e with
  | InvalidToken l => Some (Some (at_pos l, None))
  | ExtraToken a b | UnrecognizedToken a b => e ← checked_sub b 1; Some (Some (at_pos a, Some (at_pos e)))
  | UnrecognizedEof => p ← checked_sub (length input) 1; Some (Some (at_pos p, None))
  | UserError => Some None
  end.
