(** What the statements about statistics (C50) need: rounding of floating point numbers, random samples, order of strings. *)
From Coq Require Import QArith.
From stdpp Require Import base list gmap sorting.
From Verif Require Import KeySer KeySerSpec Types AnnoSpec.

Definition str_not_above (a b : bytes) : Prop := lex_compare a b ≠ Gt.

(** Properties of rounding to the nearest f64 that the estimates rely on. *)
Record rounding (rnd : Q → Q) : Prop := {
  rnd_mono : ∀ x y : Q, (x <= y → rnd x <= rnd y)%Q;
  rnd_exact : ∀ z : Z, (0 <= z <= 2 ^ 53)%Z → (rnd (inject_Z z) == inject_Z z)%Q;
  rnd_error : ∀ x : Q, (1 # (2 ^ 100)%positive <= x → (3 # 4) * x <= rnd x)%Q
}.

(** [idx] are [max] different indexes of a vector with [n] elements, or all of them *)
Definition valid_sample (max n : nat) (idx : gset nat) : Prop :=
  (∀ i, i ∈ idx → i < n) ∧ size idx = n `min` max.
(** How often a value occurs *)
Definition occurrences (v : bytes) (l : list bytes) : nat := length (filter (λ x, x = v) l).

(** [h] describes the values of the annotations with the given key: at most 251 bounds, in order, all of them values of such
    annotations, and all values between the first and the last one if no annotation was left out of the sample *)
Definition histogram_of {T} `{Countable T} (M : gmap (T * anno_key) bytes) (key : anno_key) (h : list bytes) : Prop :=
  length h = (if decide (count_key M key < 2) then 0 else count_key M key `min` 251) ∧
  StronglySorted str_not_above h ∧
  (∀ v, v ∈ h → ∃ i, M !! (i, key) = Some v) ∧
  (2 ≤ count_key M key ≤ 2500 → ∃ a b, h !! 0 = Some a ∧ last h = Some b ∧
     ∀ i v, M !! (i, key) = Some v → str_not_above a v ∧ str_not_above v b).
