(** Property C36: positions of errors. *)
From stdpp Require Import base list.
From Coq Require Import NArith Lia.
From Verif Require Import LineCol LineColSpec LineColProofs.

(** The line (counted from 0) and column (counted from 1) designate the given position *)
Theorem C36_line_and_column input pos : designates input (get_line_and_column_for_pos pos (get_line_offsets input)) pos.
Proof. exact (position_spec input pos). Qed.
(** No other position of the query is designated by them *)
Theorem C36_unambiguous input pos pos' : designates input (get_line_and_column_for_pos pos (get_line_offsets input)) pos' → pos' = pos.
Proof. intros H. eapply designates_inj; [exact H|]. apply position_spec. Qed.
(** Locations of errors: an invalid or unexpected token is located from its first to its last byte, an unexpected end at the
    last byte of the query.
    Missing: an empty query, see below *)
Theorem C36_error_location_partial e input :
  match e with ExtraToken a b | UnrecognizedToken a b => a < b | UnrecognizedEof => input ≠ [] | _ => True end →
  match e, extract_location e input with
  | InvalidToken p, Some (Some (lc, None)) => designates input lc p
  | (ExtraToken a b | UnrecognizedToken a b), Some (Some (lc, Some lc')) => designates input lc a ∧ designates input lc' (b - 1)
  | UnrecognizedEof, Some (Some (lc, None)) => designates input lc (length input - 1)
  | UserError, Some None => True
  | _, _ => False
  end.
Proof.
  intros H. destruct e as [p|a b|a b| |]; cbn -[get_line_offsets]; unfold checked_sub.
  - apply position_spec.
  - rewrite decide_True by lia. cbn -[get_line_offsets]. split; apply position_spec.
  - rewrite decide_True by lia. cbn -[get_line_offsets]. split; apply position_spec.
  - rewrite decide_True by (destruct input; cbn; [done|lia]). cbn -[get_line_offsets]. apply position_spec.
  - done.
Qed.
(** The empty query ends unexpectedly, but its last position is calculated with a subtraction below zero *)
Theorem C36_empty_query_refuted : extract_location UnrecognizedEof [] = None.
Proof. vm_compute; reflexivity. Qed.
(** "tok\n& & tok": the second "&" *)
Example location_example :
  extract_location (UnrecognizedToken 6 7) [116; 111; 107; 10; 38; 32; 38; 32; 116; 111; 107]%N =
    Some (Some (LineColumn 1 3, Some (LineColumn 1 3))).
Proof. vm_compute; reflexivity. Qed.
Print Assumptions C36_line_and_column.
Print Assumptions C36_unambiguous.
Print Assumptions C36_error_location_partial.
Print Assumptions C36_empty_query_refuted.
