(** What a conjunction of node searches and operators means. *)
From stdpp Require Import base list gmap relations.
From Coq Require Import NArith.
From Verif Require Import Types SortMatches Joins JoinsSpec Conjunction.

Section Spec.
Context {Op : Type} (ofilter : Op → match_ → match_ → option bool) (oreflexive : Op → bool)
        (oretrieve : Op → option (match_ → option (list match_))) (oinverse : Op → option Op).

(** The i-th variable of the conjunction belongs to its results *)
Definition variable (q : conj (Op := Op)) (i : nat) : Prop := ∃ n, q_nodes q !! i = Some n ∧ n_optional n = false.
(** Its number in the whole query *)
Definition bound_node (q : conj (Op := Op)) (v : nat) : Prop := ∃ i, v = q_offset q + i ∧ variable q i.

(** ** Connections *)
Definition linked (q : conj (Op := Op)) (v w : nat) : Prop :=
  ∃ b, b ∈ q_binary q ∧ b_binding b = true ∧ b_left b = v ∧ b_right b = w ∧ bound_node q v ∧ bound_node q w.
(** Connected by a chain of operators, in whichever direction *)
Definition connected (q : conj (Op := Op)) (v w : nat) : Prop := rtsc (linked q) v w.
Definition all_connected (q : conj (Op := Op)) : Prop := ∀ v w, bound_node q v → bound_node q w → connected q v w.

(** ** Solutions *)
(** A match for a variable: found by its search and accepted by its unary operators *)
Definition found (q : conj (Op := Op)) (i : nat) (m : match_) : Prop :=
  (∃ n s, q_nodes q !! i = Some n ∧ n_optional n = false ∧ n_search n = Some s ∧ IOk [m] ∈ s_items s) ∧
  ∀ u, (i, u) ∈ q_unary q → u m = Some true.
(** Matches for all the variables such that all operators hold *)
Definition solution (q : conj (Op := Op)) (a : gmap nat match_) : Prop :=
  (∀ i, is_Some (a !! i) ↔ variable q i) ∧ (∀ i m, a !! i = Some m → found q i m) ∧
  ∀ b, b ∈ q_binary q → ∃ ml mr, a !! (b_left b - q_offset q) = Some ml ∧ a !! (b_right b - q_offset q) = Some mr ∧
                                  ofilter (b_op b) ml mr = Some true.
(** Different variables have different matches *)
Definition distinct (a : gmap nat match_) : Prop := ∀ i j m, a !! i = Some m → a !! j = Some m → i = j.
(** The result of a plan as assignment of matches to the variables *)
Definition assign (pos : gmap nat nat) (g : group) : gmap nat match_ := omap (λ i, g !! i) pos.

(** ** What is assumed of the parts of a query *)
(** The operators of a query, and their inverse operators *)
Inductive uses (q : conj (Op := Op)) : Op → Prop :=
  | uses_operator b : b ∈ q_binary q → uses q (b_op b)
  | uses_inverse o o' : uses q o → oinverse o = Some o' → uses q o'.
(** A search and its description for the joins with operators in [used] *)
Definition search_ok (used : Op → Prop) (s : search) : Prop :=
  ∃ rs, s_items s = (λ m, IOk [m]) <$> rs ∧ conds_total (s_cond s) ∧ search_agrees (s_keys s) (s_cond s) (s_const s) rs ∧
        ∀ o f, used o → oretrieve o = Some f → retrieval_agrees (ofilter o) f rs.
(** An inverse operator holds for the exchanged operands *)
Definition inverse_ok : Prop :=
  ∀ o o', oinverse o = Some o' → (∀ ml mr, ofilter o' mr ml = ofilter o ml mr) ∧ oreflexive o' = oreflexive o.
Record valid (q : conj (Op := Op)) : Prop := Valid {
  valid_filter : ∀ o, total (ofilter o);
  valid_inverse : inverse_ok;
  valid_search : ∀ i n, q_nodes q !! i = Some n → n_optional n = false → ∃ s, n_search n = Some s ∧ search_ok (uses q) s;
  valid_unary : ∀ i u, (i, u) ∈ q_unary q → variable q i ∧ ∀ m, u m ≠ None;
  valid_binary : ∀ b, b ∈ q_binary q → bound_node q (b_left b) ∧ bound_node q (b_right b);
  valid_some : ∃ i, variable q i }.
(** No operator restricts its operands beyond its own condition *)
Definition unrestricted (q : conj (Op := Op)) : Prop :=
  ∀ b, b ∈ q_binary q → oreflexive (b_op b) = true ∨ (b_global b = false ∧ ∀ m, ofilter (b_op b) m m ≠ Some true).
(** Nothing is found or retrieved twice *)
Definition no_repetition (q : conj (Op := Op)) : Prop :=
  (∀ i n s, q_nodes q !! i = Some n → n_search n = Some s → NoDup (s_items s) ∧ ∀ n, NoDup (s_keys s n)) ∧
  ∀ o f m nodes, uses q o → oretrieve o = Some f → f m = Some nodes → NoDup (fst <$> nodes).
End Spec.
