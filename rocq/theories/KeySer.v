(** Model of the key serialisation (/repo/core/src/serializer.rs, /repo/core/src/types.rs). *)
From stdpp Require Import base list.
From Coq Require Import NArith ZArith.

(** A byte is an [N] below 256, byte strings are lists. *)
Definition bytes := list N.

(** Results of Rust functions that may return [Err] or panic. *)
Inductive res (A : Type) := Ok (a : A) | Err | Panic.
Arguments Ok {A}. Arguments Err {A}. Arguments Panic {A}.

(** [to_be_bytes] of an unsigned integer of [w] bytes (serializer.rs l.65-168): byte [w-1]
    (the most significant one) comes first. *)
Fixpoint be_bytes (w : nat) (n : N) : bytes :=
  match w with
  | O => []
  | S w' => ((n / 256 ^ N.of_nat w') mod 256)%N :: be_bytes w' n
  end.

(** [from_be_bytes] *)
Definition from_be (l : bytes) : N := fold_left (λ acc b, (acc * 256 + b)%N) l 0%N.

(** serializer.rs l.65-168: [create_key] of u8 (w=1), u16 (2), u32 (4), u64 and usize (8), u128 (16) *)
Definition uint_create_key (w : nat) (n : N) : bytes := be_bytes w n.

(** serializer.rs l.70-74 etc.: [key[..size]] panics when the key is too short; otherwise
    [try_into] of a slice of the right length cannot fail. *)
Definition uint_parse_key (w : nat) (key : bytes) : res N :=
  if decide (w ≤ length key) then Ok (from_be (take w key)) else Panic.

(** Two's complement view of signed integers (serializer.rs l.170-262: i8 .. i128). *)
Definition int_create_key (w : nat) (z : Z) : bytes :=
  be_bytes w (Z.to_N (z mod 2 ^ (8 * Z.of_nat w))).
Definition int_parse_key (w : nat) (key : bytes) : res Z :=
  match uint_parse_key w key with
  | Ok n => let m := (2 ^ (8 * Z.of_nat w))%Z in
            Ok (if (Z.of_N n <? m / 2)%Z then Z.of_N n else (Z.of_N n - m)%Z)
  | Err => Err
  | Panic => Panic
  end.

(** types.rs l.49-64: struct Edge and inverse *)
Record edge := Edge { source : N; target : N }.
Definition edge_inverse (e : edge) : edge := Edge (target e) (source e).

(** types.rs l.75-80: create_key *)
Definition edge_create_key (e : edge) : bytes := be_bytes 8 (source e) ++ be_bytes 8 (target e).

(** types.rs l.82-88: parse_key. [key[..8]] panics if the key is too short; the
    remaining part must have exactly 8 bytes, otherwise [try_into] fails. *)
Definition edge_parse_key (key : bytes) : res edge :=
  if decide (8 ≤ length key) then
    if decide (length (drop 8 key) = 8) then
      Ok (Edge (from_be (take 8 key)) (from_be (drop 8 key)))
    else Err
  else Panic.
