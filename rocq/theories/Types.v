(** Basic types of graphANNIS (/repo/core/src/types.rs). Strings are their UTF-8 bytes. *)
From stdpp Require Import base list countable.
From Coq Require Import NArith.
From Verif Require Import KeySer KeySerSpec SortedMap.

(** types.rs l.27-32: AnnoKey (field order matters for the derived Ord: name first). *)
Record anno_key := AnnoKey { ak_name : bytes; ak_ns : bytes }.

Global Instance anno_key_eq_dec : EqDecision anno_key.
Proof. solve_decision. Defined.
Global Instance anno_key_countable : Countable anno_key.
Proof.
  refine (inj_countable' (λ k, (ak_name k, ak_ns k)) (λ p, AnnoKey p.1 p.2) _). by intros [].
Defined.

(** types.rs l.24-26: derived [Ord] of AnnoKey: lexicographic by name, then namespace. [str]
    comparison in Rust is byte-wise. *)
Definition anno_key_compare (a b : anno_key) : comparison :=
  match lex_compare (ak_name a) (ak_name b) with
  | Eq => lex_compare (ak_ns a) (ak_ns b)
  | c => c
  end.

Global Instance edge_eq_dec : EqDecision edge.
Proof. solve_decision. Defined.
Global Instance edge_countable : Countable edge.
Proof.
  refine (inj_countable' (λ e, (source e, target e)) (λ p, {| source := p.1; target := p.2 |}) _).
  by intros [].
Defined.

(** [std::char::MAX] as UTF-8 (U+10FFFF) *)
Definition char_max : bytes := [244; 143; 191; 191]%N.

(** annostorage/mod.rs l.134-140: ValueSearch *)
Inductive value_search := VAny | VSome (v : bytes) | VNotSome (v : bytes).
