(** Byte-wise comparison (the order of the on-disk tables: Rust's [Ord] on [[u8]]), and
    value ranges. *)
From stdpp Require Import base list.
From Coq Require Import NArith ZArith.
From Verif Require Import KeySer.

Fixpoint lex_compare (a b : bytes) : comparison :=
  match a, b with
  | [], [] => Eq
  | [], _ :: _ => Lt
  | _ :: _, [] => Gt
  | x :: a', y :: b' => match (x ?= y)%N with Eq => lex_compare a' b' | c => c end
  end.

(** Values of an unsigned type with [w] bytes. *)
Definition fits (w : nat) (n : N) : Prop := (n < 2 ^ (8 * N.of_nat w))%N.
(** Values of a signed type with [w] bytes. *)
Definition sfits (w : nat) (z : Z) : Prop :=
  (- 2 ^ (8 * Z.of_nat w - 1) <= z < 2 ^ (8 * Z.of_nat w - 1))%Z.

(** types.rs l.49: derived [Ord] of Edge: source first, then target. *)
Definition edge_compare (e f : edge) : comparison :=
  match (source e ?= source f)%N with Eq => (target e ?= target f)%N | c => c end.
