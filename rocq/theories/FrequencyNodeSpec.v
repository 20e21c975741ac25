(** Which match of a result belongs to the node of a frequency definition. *)
From stdpp Require Import base list gmap.
From Coq Require Import NArith.
From Verif Require Import Query QuerySpec EndToEndSpec.

Section Spec.
Context {Spec Bop Uop : Type}.
(** The name or number refers to the search at position [s] of the text of the [i]-th alternative *)
Definition known_at (alts : list (list (literal Spec Bop Uop))) (i : nat) (v : vname) (s : nat) : Prop :=
  ∃ c off, alts !! i = Some c ∧ offset_of alts i off ∧ refers off c v s.
(** The positions of the optional searches before [s] *)
Definition optional_before (c : list (literal Spec Bop Uop)) (s : nat) (B : list nat) : Prop :=
  NoDup B ∧ ∀ x, x ∈ B ↔ x < s ∧ ∃ sp var, node_at c x (sp, var, true).
(** Each position has one search, and each name belongs to one *)
Definition well_named (alts : list (list (literal Spec Bop Uop))) : Prop := Forall (λ c, consistent c ∧ distinct_names c) alts.
End Spec.
