(** Specification of the keys of the import: their order as values (the derived [Ord], /repo/graphannis/src/annis/db/relannis.rs l.113,
    l.162, l.193) and the values that are possible. *)
From stdpp Require Import base list.
From Coq Require Import NArith.
From Verif Require Import KeySer KeySerSpec RelAnnisKeys.

Definition then_compare (a b : comparison) : comparison := match a with Eq => b | c => c end.
Definition opt_compare (a b : option N) : comparison :=
  match a, b with None, None => Eq | None, Some _ => Lt | Some _, None => Gt | Some x, Some y => (x ?= y)%N end.
Definition tp_compare (a b : text_property) : comparison :=
  then_compare (lex_compare (tp_segmentation a) (tp_segmentation b))
    (then_compare (tp_corpus a ?= tp_corpus b)%N (then_compare (tp_text a ?= tp_text b)%N (tp_val a ?= tp_val b)%N)).
Definition tk_compare (a b : text_key) : comparison :=
  then_compare (tk_id a ?= tk_id b)%N (opt_compare (tk_corpus a) (tk_corpus b)).
Definition nt_compare (a b : node_by_text) : comparison :=
  then_compare (nt_text a ?= nt_text b)%N (then_compare (nt_corpus a ?= nt_corpus b)%N (nt_node a ?= nt_node b)%N).

(** Numbers of 32 and 64 bits *)
Definition tp_numbers (p : text_property) : Prop := fits 4 (tp_corpus p) ∧ fits 4 (tp_text p) ∧ fits 4 (tp_val p).
(** The name of the segmentation has no NUL character *)
Definition tp_ok (p : text_property) : Prop := tp_numbers p ∧ 0%N ∉ tp_segmentation p.
Definition tk_ok (k : text_key) : Prop := fits 4 (tk_id k) ∧ ∀ c, tk_corpus k = Some c → fits 4 c.
Definition nt_ok (e : node_by_text) : Prop := fits 4 (nt_text e) ∧ fits 4 (nt_corpus e) ∧ fits 8 (nt_node e).
