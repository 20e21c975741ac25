(** Model of the parts of the [percent_encoding] crate that graphANNIS uses
    ([utf8_percent_encode] and [percent_decode_str]), on UTF-8 byte strings. *)
From stdpp Require Import base list.
From Coq Require Import NArith.
From Verif Require Import KeySer.

(** The crate's [CONTROLS] set: C0 controls and DEL. *)
Definition is_control (b : N) : bool := ((b <=? 31) || (b =? 127))%N.

(** Upper case hexadecimal digit *)
Definition hex_digit (n : N) : N := if (n <? 10)%N then (48 + n)%N else (55 + n)%N.

(** [AsciiSet::should_percent_encode]: non-ASCII bytes are always encoded. *)
Definition should_encode (set : N → bool) (b : N) : bool := (128 <=? b)%N || set b.

Definition pct_byte (b : N) : bytes := [37; hex_digit (b / 16); hex_digit (b mod 16)]%N.

(** [utf8_percent_encode(s, set)] *)
Fixpoint pct_encode (set : N → bool) (s : bytes) : bytes :=
  match s with
  | [] => []
  | b :: s' => (if should_encode set b then pct_byte b else [b]) ++ pct_encode set s'
  end.

Definition unhex (b : N) : option N :=
  if ((48 <=? b) && (b <=? 57))%N then Some (b - 48)%N
  else if ((65 <=? b) && (b <=? 70))%N then Some (b - 55)%N
  else if ((97 <=? b) && (b <=? 102))%N then Some (b - 87)%N
  else None.

(** [percent_decode]: a percent sign followed by two hex digits is one byte, all other bytes
    are kept. *)
Fixpoint pct_decode (s : bytes) : bytes :=
  match s with
  | [] => []
  | b :: s' =>
      if (b =? 37)%N then
        match s' with
        | h :: l :: s'' =>
            match unhex h, unhex l with
            | Some x, Some y => (x * 16 + y)%N :: pct_decode s''
            | _, _ => b :: pct_decode s'
            end
        | _ => b :: pct_decode s'
        end
      else b :: pct_decode s'
  end.
