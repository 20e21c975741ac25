(** What a request for results in several corpora has to return. *)
From stdpp Require Import base list.
From Coq Require Import NArith.
From Verif Require Import Types SortMatches Joins JoinsSpec ResultPages.

(** The plan of a corpus finds exactly the results [R], each once, without errors *)
Definition finds_exactly (R : group → Prop) (r : run) : Prop := no_error (r_items r) ∧ NoDup (oks (r_items r)) ∧ ∀ g, g ∈ oks (r_items r) ↔ R g.
(** [L] are all the results of all the corpora, each once *)
Definition all_results (Rs : list (group → Prop)) (L : list (nat * group)) : Prop :=
  NoDup L ∧ ∀ i g, (i, g) ∈ L ↔ ∃ R, Rs !! i = Some R ∧ R g.
(** The results of a corpus come before the ones of the next corpora; if results are sorted, they are in ascending order *)
Definition in_order (cmp : nat * group → nat * group → comparison) (runs : list run) (L : list (nat * group)) : Prop :=
  ∀ x y a b, L !! x = Some a → L !! y = Some b → x < y →
    a.1 < b.1 ∨ (a.1 = b.1 ∧ ∀ r, runs !! a.1 = Some r → r_direct r = false → cmp a b ≠ Gt).
