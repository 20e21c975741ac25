(** What the results of a query with alternatives are. *)
From stdpp Require Import base list gmap.
From Coq Require Import NArith.
From Verif Require Import Types SymbolTable SortMatches Joins JoinsSpec Conjunction ConjunctionSpec Plan.

(** Each position of a match of the plan belongs to a variable *)
Definition positions_ok (pos : gmap nat nat) : Prop :=
  (∀ v i, pos !! v = Some i → i < size pos) ∧ (∀ i, i < size pos → ∃ v, pos !! v = Some i).
(** The match [g'] consists of the matches of [g] at the places of the variables. Places of variables without a match before
    the last one are filled *)
Definition placed (pos : gmap nat nat) (g g' : group) : Prop :=
  (∀ v i, pos !! v = Some i → g' !! v = g !! i) ∧
  (∀ v, pos !! v = None → (∃ w, v < w ∧ is_Some (pos !! w)) → g' !! v = Some default_match) ∧
  (∀ v, v < length g' → ∃ w, v <= w ∧ is_Some (pos !! w)).
(** The plan of an alternative *)
Definition alternative_ok (a : alternative) : Prop :=
  match a with
  | AOk pos items => positions_ok pos ∧ ∀ g, IOk g ∈ items → length g = size pos
  | ASemantic => False
  | AOther => True
  end.
(** A match of one of the alternatives *)
Definition alternative_match (alts : list alternative) (g : group) : Prop :=
  ∃ pos items g0, AOk pos items ∈ alts ∧ IOk g0 ∈ items ∧ placed pos g0 g.
(** All the annotation keys of the matches can be numbered *)
Definition few_keys (alts : list alternative) : Prop :=
  ∃ K : list anno_key, (N.of_nat (length K) <= usize_max)%N ∧ AnnoKey [] [] ∈ K ∧
    ∀ pos items g m, AOk pos items ∈ alts → IOk g ∈ items → m ∈ g → m.2 ∈ K.
(** Errors among the items of the alternatives *)
Definition has_item (i : item) (alts : list alternative) : Prop := ∃ pos items, AOk pos items ∈ alts ∧ i ∈ items.
(** The match for an assignment of the variables *)
Definition laid_out (a : gmap nat match_) (g : group) : Prop :=
  (∀ v m, a !! v = Some m → g !! v = Some m) ∧
  (∀ v, a !! v = None → (∃ w, v < w ∧ is_Some (a !! w)) → g !! v = Some default_match) ∧
  (∀ v, v < length g → ∃ w, v <= w ∧ is_Some (a !! w)).
