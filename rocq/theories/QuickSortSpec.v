(** Specification: total preorders and sorted prefixes. *)
From stdpp Require Import base list.

Record total_preorder {T} (cmp : T → T → comparison) : Prop := {
  tp_flip : ∀ x y, cmp y x = CompOpp (cmp x y);
  tp_trans : ∀ x y z, cmp x y ≠ Gt → cmp y z ≠ Gt → cmp x z ≠ Gt }.
(** The first [n] items are in order, and none after them is smaller. *)
Definition first_sorted {T} (cmp : T → T → comparison) (n : nat) (l : list T) : Prop :=
  ∀ i j x y, i < n → i < j → l !! i = Some x → l !! j = Some y → cmp x y ≠ Gt.
Definition ascending {T} (cmp : T → T → comparison) (l : list T) : Prop :=
  ∀ i j x y, i < j → l !! i = Some x → l !! j = Some y → cmp x y ≠ Gt.
