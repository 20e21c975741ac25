(** Model of the part of the bincode encoding that is used for update events: bincode::options() (variable length
    integers, little endian, no trailing bytes), strings and enum variants. The crate is a dependency and not part of
    /repo; the functions follow its documented format. The check that a decoded string is UTF-8 is left out. *)
From stdpp Require Import base list.
From Coq Require Import NArith.
From Verif Require Import KeySer.

Definition le_bytes (w : nat) (n : N) : bytes := reverse (be_bytes w n).
Definition from_le (l : bytes) : N := from_be (reverse l).

Definition varint (n : N) : bytes :=
  if (n <? 251)%N then [n]
  else if (n <? 65536)%N then 251%N :: le_bytes 2 n
  else if (n <? 4294967296)%N then 252%N :: le_bytes 4 n
  else 253%N :: le_bytes 8 n.
Definition take_exact (w : nat) (l : bytes) : option (bytes * bytes) :=
  if decide (w ≤ length l) then Some (take w l, drop w l) else None.
Definition read_int (w : nat) (l : bytes) : option (N * bytes) :=
  '(a, r) ← take_exact w l; Some (from_le a, r).
Definition unvarint (l : bytes) : option (N * bytes) :=
  match l with
  | [] => None
  | b :: r =>
      if (b <? 251)%N then Some (b, r)
      else if (b =? 251)%N then read_int 2 r
      else if (b =? 252)%N then read_int 4 r
      else if (b =? 253)%N then read_int 8 r
      else None
  end.

Definition enc_string (s : bytes) : bytes := varint (N.of_nat (length s)) ++ s.
Definition dec_string (l : bytes) : option (bytes * bytes) :=
  '(n, r) ← unvarint l; take_exact (N.to_nat n) r.

Definition enc_strings (ss : list bytes) : bytes := ss ≫= enc_string.
Fixpoint dec_strings (n : nat) (l : bytes) : option (list bytes * bytes) :=
  match n with
  | 0 => Some ([], l)
  | S n' => '(s, r) ← dec_string l; '(ss, r') ← dec_strings n' r; Some (s :: ss, r')
  end.
