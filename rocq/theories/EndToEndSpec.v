(** What the results of a query are, from the meaning of its parts. *)
From Coq Require Import NArith.
From stdpp Require Import base list gmap sorting.
From Verif Require Import Types SymbolTable SortMatches Joins JoinsSpec Conjunction ConjunctionSpec Query QuerySpec EndToEnd.

Section Spec.
Context {Spec Bop Uop Op : Type}.
(** The meaning of the parts of a query for matches, i.e. nodes with the key of an annotation *)
Context (sat : Spec → match_ → Prop) (bop : Bop → match_ → match_ → Prop) (uop : Uop → match_ → Prop).

(** The searches and operators of a query *)
Definition search_in (lits : list (list (literal Spec Bop Uop))) (sp : Spec) : Prop := ∃ c s var optional, c ∈ lits ∧ node_at c s (sp, var, optional).
Definition operator_in (lits : list (list (literal Spec Bop Uop))) (o : Bop) : Prop := ∃ c lhs rhs negated, c ∈ lits ∧ LBin lhs o rhs negated ∈ c.
Definition unary_in (lits : list (list (literal Spec Bop Uop))) (u : unary Spec Bop Uop) : Prop :=
  match u with
  | UOp o => ∃ c v, c ∈ lits ∧ LUn v o ∈ c
  | UNonExisting o target _ => operator_in lits o ∧ search_in lits target
  end.
(** The operators that are created for a query *)
Inductive created (E : engine Spec Bop Uop Op) (lits : list (list (literal Spec Bop Uop))) : Op → Prop :=
  | created_operator o (negated : bool) : operator_in lits o → created E lits (e_create E (o, negated))
  | created_inverse o o' : created E lits o → e_inverse E o = Some o' → created E lits o'.
(** The parts of the engine do what they mean for this query: searches find what satisfies their description, operators filter what they
    hold for, and none of them fails *)
Record engine_ok (E : engine Spec Bop Uop Op) (lits : list (list (literal Spec Bop Uop))) : Prop := EngineOk {
  ok_total : ∀ o, total (e_filter E o);
  ok_filter : ∀ o (negated : bool) x y, operator_in lits o →
    e_filter E (e_create E (o, negated)) x y = Some true ↔ if negated then ¬ bop o x y else bop o x y;
  ok_inverse : inverse_ok (e_filter E) (e_reflexive E) (e_inverse E);
  ok_search : ∀ sp, search_in lits sp →
    ∃ s, e_search E sp = Some s ∧ search_ok (e_filter E) (e_retrieve E) (created E lits) s ∧ ∀ m, IOk [m] ∈ s_items s ↔ sat sp m;
  ok_unary : ∀ u m, unary_in lits u → e_unary E u m ≠ None ∧ (e_unary E u m = Some true ↔ unary_holds sat bop uop u m) }.

(** The positions of the nodes which belong to the results: the searches that are not optional, in the order of the query *)
Definition found_positions (c : list (literal Spec Bop Uop)) (starts : list nat) : Prop :=
  StronglySorted lt starts ∧ ∀ s, s ∈ starts ↔ ∃ sp var, node_at c s (sp, var, false).
(** The number of searches of the alternatives before one *)
Definition offset_of (alts : list (list (literal Spec Bop Uop))) (i off : nat) : Prop :=
  ∃ startss, Forall2 positions (take i alts) startss ∧ off = length (concat startss).
(** [g] are the matches of an alternative for an assignment of matches to the searches (given by their positions) that satisfies it *)
Definition alternative_result (off : nat) (c : list (literal Spec Bop Uop)) (g : list match_) : Prop :=
  ∃ env starts, (∀ l, l ∈ c → literal_holds sat bop uop off c env l) ∧ found_positions c starts ∧ g = env <$> starts.
(** Searches can be combined to results: there is one for each position and name, and at least one is mandatory *)
Record alternative_fine (c : list (literal Spec Bop Uop)) : Prop := AlternativeFine {
  fine_consistent : consistent c;
  fine_names : distinct_names c;
  fine_some : ∃ s sp var, node_at c s (sp, var, false) }.
(** Operands of unary operators are mandatory *)
Definition unary_mandatory (off : nat) (c : list (literal Spec Bop Uop)) : Prop :=
  ∀ v o s e, LUn v o ∈ c → refers off c v s → node_at c s e → e.2 = false.
(** No search is optional *)
Definition no_optional (c : list (literal Spec Bop Uop)) : Prop := ∀ s e, node_at c s e → e.2 = false.
(** The names of variables are no numbers *)
Definition names_no_numbers (c : list (literal Spec Bop Uop)) : Prop :=
  ∀ s sp n o, node_at c s (sp, Some n, o) → ∃ b r, n = b :: r ∧ ¬ (48 <= b <= 57)%N.
(** The operators of an alternative allow that both operands are the same match *)
Definition all_reflexive (E : engine Spec Bop Uop Op) (c : list (literal Spec Bop Uop)) : Prop :=
  ∀ lhs o rhs negated, LBin lhs o rhs negated ∈ c → e_reflexive E (e_create E (o, negated)) = true.
(** The keys of the annotations of all matches can be numbered *)
Definition few_annotation_keys (lits : list (list (literal Spec Bop Uop))) : Prop :=
  ∃ K : list anno_key, (N.of_nat (length K) <= usize_max)%N ∧ AnnoKey [] [] ∈ K ∧ ∀ sp m, search_in lits sp → sat sp m → m.2 ∈ K.
End Spec.
