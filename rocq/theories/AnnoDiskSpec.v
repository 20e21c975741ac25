(** Specification of the on-disk annotation storage: the content is the one of AnnoSpec.v; here are the
    conditions on items, values and histories under which the theorems hold. *)
From stdpp Require Import base list gmap fin_maps.
From Coq Require Import NArith.
From Verif Require Import KeySer KeySerSpec SortedMap DiskMapSpec Types SymbolTable AnnoMem AnnoSpec.

(** Values without NUL characters and without the noncharacter U+10FFFF. (The latter is the only
    code point whose UTF-8 encoding is not below [char_max] in byte order.) *)
Definition value_ok (v : bytes) : Prop :=
  Forall (λ b, b ≠ 0%N) v ∧ ∀ r, r `suffix_of` v → lex_compare r char_max = Lt.

(** The item type is serialised with a fixed size in an order preserving way, between the smallest and
    (exclusively) the largest node id. *)
Record item_ok {T} (P : T → Prop) (tcmp : T → T → comparison) (w : nat) (ser : T → bytes)
  (parse : bytes → res T) : Prop := {
  it_key : key_ok P tcmp ser parse;
  it_len : ∀ i, length (ser i) = w;
  it_min : ∀ i, P i → lex_compare (be_bytes 8 0) (ser i) ≠ Gt;
  it_max : ∀ i, P i → lex_compare (ser i) (be_bytes 8 18446744073709551615) = Lt
}.

Section spec.
Context {T : Type} `{Countable T} (P : T → Prop).

(** Content after a history in which no operation fails. *)
Definition as_content (ops : list (am_op T)) : gmap (T * anno_key) bytes :=
  fold_left (λ M o, as_step M o AmOk) ops ∅.

Definition op_ok (o : am_op T) : Prop :=
  match o with
  | AmInsert i _ v => P i ∧ value_ok v
  | AmRemove i _ | AmRemoveItem i => P i
  | _ => True
  end.

(** No annotation is replaced by one with a different value. *)
Fixpoint no_overwrite (M : gmap (T * anno_key) bytes) (ops : list (am_op T)) : Prop :=
  match ops with
  | [] => True
  | o :: ops' =>
      match o with
      | AmInsert i k v => ∀ v0, M !! (i, k) = Some v0 → v0 = v
      | _ => True
      end ∧ no_overwrite (as_step M o AmOk) ops'
  end.

Definition is_insert (o : am_op T) : bool := match o with AmInsert _ _ _ => true | _ => false end.
Definition is_removal (o : am_op T) : bool :=
  match o with AmRemove _ _ | AmRemoveItem _ => true | _ => false end.
(** Either nothing is removed or the history is short enough that no memory table is evicted to disk
    ([n]: maximal number of entries in memory). *)
Definition tidy_history (n : nat) (ops : list (am_op T)) : Prop :=
  Forall (λ o, is_removal o = false) ops ∨ length (filter (λ o, is_insert o = true) ops) < n.
End spec.
