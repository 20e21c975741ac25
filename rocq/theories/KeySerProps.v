(** C02: key serialisation. *)
From stdpp Require Import base list.
From Coq Require Import NArith ZArith.
From Verif Require Import KeySer KeySerSpec KeySerProofs.

(** Unsigned integers of any width [w] (in bytes): parsing a key (also when it is followed by
    other bytes) gives the number back. *)
Theorem C02_uint_key_roundtrip w n rest :
  fits w n → uint_parse_key w (uint_create_key w n ++ rest) = Ok n.
Proof. exact (uint_roundtrip w n rest). Qed.
Print Assumptions C02_uint_key_roundtrip.

Theorem C02_uint_key_length w n : length (uint_create_key w n) = w.
Proof. exact (be_bytes_length w n). Qed.
Print Assumptions C02_uint_key_length.

(** Byte-wise order of the keys is the numeric order. *)
Theorem C02_uint_key_order w a b :
  fits w a → fits w b → lex_compare (uint_create_key w a) (uint_create_key w b) = (a ?= b)%N.
Proof. exact (uint_order w a b). Qed.
Print Assumptions C02_uint_key_order.

Theorem C02_edge_key_roundtrip e :
  fits 8 (source e) → fits 8 (target e) → edge_parse_key (edge_create_key e) = Ok e.
Proof. exact (edge_roundtrip e). Qed.
Print Assumptions C02_edge_key_roundtrip.

Theorem C02_edge_key_length e : length (edge_create_key e) = 16.
Proof. exact (edge_key_length e). Qed.
Print Assumptions C02_edge_key_length.

Theorem C02_edge_key_order e f :
  fits 8 (source e) → fits 8 (target e) → fits 8 (source f) → fits 8 (target f) →
  lex_compare (edge_create_key e) (edge_create_key f) = edge_compare e f.
Proof. exact (edge_order e f). Qed.
Print Assumptions C02_edge_key_order.

(** Signed integers round-trip too ... *)
Theorem C02_int_key_roundtrip w z rest :
  0 < w → sfits w z → int_parse_key w (int_create_key w z ++ rest) = Ok z.
Proof. exact (int_roundtrip w z rest). Qed.
Print Assumptions C02_int_key_roundtrip.

(** ... but their byte order is not the numeric order (the property is therefore stated for
    unsigned integers only). *)
Theorem C02_int_key_order_refuted :
  ∃ a b : Z, sfits 8 a ∧ sfits 8 b ∧ (a < b)%Z ∧
    lex_compare (int_create_key 8 a) (int_create_key 8 b) = Gt.
Proof.
  exists (-1)%Z, 1%Z. unfold sfits. repeat split; try (vm_compute; congruence).
Qed.
Print Assumptions C02_int_key_order_refuted.

Example C02_example :
  fits 8 258 ∧ uint_create_key 8 258 = [0;0;0;0;0;0;1;2]%N ∧
  edge_parse_key (edge_create_key (Edge 258 18446744073709551615)) = Ok (Edge 258 18446744073709551615).
Proof. repeat split; vm_compute; done. Qed.
