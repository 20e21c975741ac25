(** Model of the keys of the on-disk maps that are used to import relANNIS corpora
    (/repo/graphannis/src/annis/db/relannis.rs l.113-228, /repo/graphannis/src/annis/util/mod.rs l.32-42).
    Simplification: the lossy conversion of a key to a string (l.138) is left out; the part before the first NUL is taken as it is,
    which is right for keys that were created from a string. *)
From stdpp Require Import base list.
From Coq Require Import NArith.
From Verif Require Import KeySer.

(** relannis.rs l.113-119 *)
Record text_property := TextProperty { tp_segmentation : bytes; tp_corpus : N; tp_text : N; tp_val : N }.
(** util/mod.rs l.32-42 *)
Definition create_str_vec_key (val : list bytes) : bytes := concat (map (λ v, v ++ [0%N]) val).
(** l.122-129 *)
Definition tp_create_key (p : text_property) : bytes :=
  create_str_vec_key [tp_segmentation p] ++ be_bytes 4 (tp_corpus p) ++ be_bytes 4 (tp_text p) ++ be_bytes 4 (tp_val p).
(** The first part of a split at NUL *)
Fixpoint until_nul (l : bytes) : bytes :=
  match l with [] => [] | b :: l' => if N.eqb b 0 then [] else b :: until_nul l' end.
(** l.131-159: the subtraction overflows for short keys *)
Definition tp_parse_key (key : bytes) : res text_property :=
  if decide (12 ≤ length key) then
    let o := length key - 12 in
    Ok (TextProperty (until_nul key) (from_be (take 4 (drop o key))) (from_be (take 4 (drop (o + 4) key)))
          (from_be (take 4 (drop (o + 8) key))))
  else Panic.

(** l.162-166 *)
Record text_key := TextKey { tk_id : N; tk_corpus : option N }.
(** l.169-176 *)
Definition tk_create_key (k : text_key) : bytes :=
  be_bytes 4 (tk_id k) ++ match tk_corpus k with Some c => be_bytes 4 c | None => [] end.
(** l.178-190 *)
Definition tk_parse_key (key : bytes) : res text_key :=
  if decide (4 ≤ length key) then
    Ok (TextKey (from_be (take 4 key)) (if decide (length key = 8) then Some (from_be (drop 4 key)) else None))
  else Panic.

(** l.193-198 *)
Record node_by_text := NodeByText { nt_text : N; nt_corpus : N; nt_node : N }.
(** l.201-207 *)
Definition nt_create_key (e : node_by_text) : bytes := be_bytes 4 (nt_text e) ++ be_bytes 4 (nt_corpus e) ++ be_bytes 8 (nt_node e).
(** l.209-227: the slice of the last number must have eight bytes *)
Definition nt_parse_key (key : bytes) : res node_by_text :=
  if decide (8 ≤ length key) then
    if decide (length (drop 8 key) = 8) then
      Ok (NodeByText (from_be (take 4 key)) (from_be (take 4 (drop 4 key))) (from_be (drop 8 key)))
    else Err
  else Panic.
