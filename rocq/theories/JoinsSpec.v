(** What a join of two results means. *)
From stdpp Require Import base list.
From Coq Require Import NArith.
From Verif Require Import Types SortMatches Joins.

(** The matches among the items an iterator yields *)
Definition oks (l : list item) : list group := omap (λ i, match i with IOk g => Some g | _ => None end) l.
Definition no_error (l : list item) : Prop := IErr ∉ l ∧ IPanic ∉ l.

(** All combinations *)
Definition pairs {A B} (ls : list A) (rs : list B) : list (A * B) := mjoin ((λ a, (λ b, (a, b)) <$> rs) <$> ls).

(** The left match group [gl], of which the element [li] is an operand, and the right one [gr] can be joined: the operator
    holds, and if it is not reflexive, its operands are different: from all the matches of the other side or (in quirks mode,
    which is not [global]) from the other operand *)
Definition joinable (op : match_ → match_ → option bool) (reflexive global : bool) (li ri : nat) (gl gr : group) : Prop :=
  match gl !! li, gr !! ri with
  | Some ml, Some mr =>
      op ml mr = Some true ∧
      (reflexive = true ∨ (global = true ∧ ml ∉ gr ∧ mr ∉ gl) ∨ (global = false ∧ ml ≠ mr))
  | _, _ => False
  end.
Global Instance joinable_dec op reflexive global li ri gl gr : Decision (joinable op reflexive global li ri gl gr).
Proof. unfold joinable. destruct (gl !! li); [destruct (gr !! ri)|]; apply _. Defined.

(** The operands are not missing *)
Definition has_operand (idx : nat) (l : list item) : Prop := Forall (λ g, idx < length g) (oks l).
(** The operator never fails *)
Definition total (op : match_ → match_ → option bool) : Prop := ∀ a b, op a b ≠ None.

(** The join of left and right results: each combination which can be joined, with its parts in the order in which the
    execution node emits them *)
Definition joined (op : match_ → match_ → option bool) (reflexive global left_first : bool) (li ri : nat)
    (ls rs : list group) : list group :=
  (λ p, if left_first then p.1 ++ p.2 else p.2 ++ p.1) <$>
  filter (λ p, joinable op reflexive global li ri p.1 p.2) (pairs ls rs).

(** A nested loop with operands L and R, the first of which is the outer or the inner iterator *)
Definition sequential_loop (op : match_ → match_ → option bool) (reflexive global left_is_outer : bool) (li ri : nat)
    (l r out : list item) : Prop :=
  if left_is_outer
  then yields (nl_next op reflexive global true li ri) (nl_new l r) out
  else yields (nl_next op reflexive global false ri li) (nl_new r l) out.
Definition parallel_loop (op : match_ → match_ → option bool) (reflexive global left_is_outer : bool) (buffer li ri : nat)
    (l r out : list item) : Prop :=
  if left_is_outer
  then pnl_yields op reflexive global true li ri buffer (pnl_new l r) out
  else pnl_yields op reflexive global false ri li buffer (pnl_new r l) out.

(** The nodes retrieved by an operator for the left operand and its check of a pair agree on the matches of a search [rs] *)
Definition retrieval_agrees (op : match_ → match_ → option bool) (retrieve : match_ → option (list match_)) (rs : list match_) : Prop :=
  ∀ ml, ∃ nodes, retrieve ml = Some nodes ∧ ∀ m, m ∈ rs → (op ml m = Some true ↔ ∃ x, x ∈ nodes ∧ x.1 = m.1).
(** The search [rs] finds the nodes with an annotation key [keys] which meets all the conditions, reported with their key
    or a constant one *)
Definition search_agrees (keys : N → list anno_key) (cond : list (match_ → option bool)) (const : option anno_key) (rs : list match_) : Prop :=
  ∀ n k, (n, k) ∈ rs ↔ ∃ k', k' ∈ keys n ∧ Forall (λ f, f (n, k') = Some true) cond ∧ k = default k' const.
(** Conditions never fail *)
Definition conds_total (cond : list (match_ → option bool)) : Prop := ∀ f m, f ∈ cond → f m ≠ None.
