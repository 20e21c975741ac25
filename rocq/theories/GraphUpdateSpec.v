(** An update list is a log: adding appends, iterating shows all events with the numbers 1, 2, 3, ... and changes
    nothing, and neither does serialising and reading it again. *)
From stdpp Require Import base list.
From Coq Require Import NArith.
From Verif Require Import KeySer GraphUpdate.

Definition numbered (log : list event) : list (N * event) := imap (λ i e, (N.of_nat (S i), e)) log.

Definition log_after (log : list event) (o : gu_op) : list event :=
  match o with UAdd e => log ++ [e] | _ => log end.
Definition log_shows (log : list event) (o : gu_op) : list (N * event) :=
  match o with UIter => numbered log | _ => [] end.
(** After each operation: what it shows, the length, and whether the list is empty. *)
Fixpoint log_run (log : list event) (ops : list gu_op) : list (list (N * event) * N * bool) :=
  match ops with
  | [] => []
  | o :: ops' =>
      let log' := log_after log o in
      (log_shows log o, N.of_nat (length log'), bool_decide (log' = [])) :: log_run log' ops'
  end.

(** Strings whose length is a 64 bit number *)
Definition string_ok (s : bytes) : Prop := (N.of_nat (length s) < 2 ^ 64)%N.
Definition event_strings (e : event) : list bytes :=
  match e with
  | AddNode a b => [a; b]
  | DeleteNode a => [a]
  | AddNodeLabel a b c d => [a; b; c; d]
  | DeleteNodeLabel a b c => [a; b; c]
  | AddEdge a b c d e => [a; b; c; d; e]
  | DeleteEdge a b c d e => [a; b; c; d; e]
  | AddEdgeLabel a b c d e f g h => [a; b; c; d; e; f; g; h]
  | DeleteEdgeLabel a b c d e f g => [a; b; c; d; e; f; g]
  end.
Definition event_ok (e : event) : Prop := Forall string_ok (event_strings e).
Definition op_ok (o : gu_op) : Prop := match o with UAdd e => event_ok e | _ => True end.
