(** Specification of the listings of a corpus. [M]: the annotations, as a map from item and key to value. *)
From stdpp Require Import base list gmap.
From Coq Require Import NArith.
From Verif Require Import KeySer Types AnnoMem AnnoSpec GraphApply.

Section spec.
Context {T : Type} `{Countable T}.
Implicit Types M : gmap (T * anno_key) bytes.

(** The names of the annotations, every name once and with an empty value *)
Definition lists_names M (l : list (anno_key * bytes)) : Prop :=
  NoDup l ∧ ∀ k v, (k, v) ∈ l ↔ v = [] ∧ ∃ i, is_Some (M !! (i, k)).
(** The values of every annotation name, every value once *)
Definition lists_values M (l : list (anno_key * bytes)) : Prop :=
  NoDup l ∧ ∀ k v, (k, v) ∈ l ↔ ∃ i, M !! (i, k) = Some v.
(** Exactly one value for every annotation name *)
Definition lists_one_value M (l : list (anno_key * bytes)) : Prop :=
  NoDup l.*1 ∧ (∀ k, k ∈ l.*1 ↔ ∃ i, is_Some (M !! (i, k))) ∧ ∀ k v, (k, v) ∈ l → ∃ i, M !! (i, k) = Some v.
(** and no other value is more frequent *)
Definition lists_most_frequent M (l : list (anno_key * bytes)) : Prop :=
  lists_one_value M l ∧ ∀ k v v', (k, v) ∈ l → count_value M k v' ≤ count_value M k v.
(** or (what happens on disk) no other value is less frequent *)
Definition lists_least_frequent M (l : list (anno_key * bytes)) : Prop :=
  lists_one_value M l ∧ ∀ k v i v', (k, v) ∈ l → M !! (i, k) = Some v' → count_value M k v ≤ count_value M k v'.
End spec.

(** A component passes the filters of the request. *)
Definition requested (ctype : option N) (name : option bytes) (c : comp) : Prop :=
  (∀ t, ctype = Some t → c.1.1 = t) ∧ (∀ n, name = Some n → c.2 = n).
