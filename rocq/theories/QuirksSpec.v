(** What queries in quirks mode mean. *)
From Coq Require Import NArith String.
From stdpp Require Import base list gmap.
From Verif Require Import KeySer CompPath NodeSearch TokenOps EdgeOps Query QuerySpec AqlGrammar.

(** The operators .* and ^* without distance stop at the distance 50 *)
Definition at_most_50 (op : aql_bop) : aql_bop :=
  match op with BPrecedence seg RUnbound => BPrecedence seg (RBound 1 50) | BNear seg RUnbound => BNear seg (RBound 1 50) | _ => op end.
(** The literals of an alternative without its metadata searches *)
Definition without_metadata (c : list aql_literal) : list aql_literal :=
  omap (λ l, match l with LMeta _ => None | LBin lhs op rhs negated => Some (LBin lhs (at_most_50 op) rhs negated) | _ => Some l end) c.
(** The metadata searches of all the alternatives *)
Definition metadata (alts : list (list aql_literal)) : list spec := omap (λ l, match l with LMeta sp => Some sp | _ => None end) (concat alts).
(** The operands of dominance and pointing relations *)
Definition joined_operands (c : list aql_literal) : list aql_operand :=
  concat ((λ l : aql_literal, match l with LBin lhs (BDominance _ _ _) rhs _ | LBin lhs (BPointing _ _ _) rhs _ => [lhs; rhs] | _ => [] end) <$> c).
Definition no_optional (c : list aql_literal) : Prop := ∀ s sp var, ¬ node_at c s (sp, var, true).

Definition count {A} `{EqDecision A} (x : A) (l : list A) : nat := length (filter (x =.) l).
(** The nodes that are added for the metadata searches: they belong to a document *)
Definition hidden_nodes (metas : list spec) : list spec :=
  match metas with [] => [] | sp :: r => sp :: SExact (Some (str "annis")) (str "doc") None true :: r end.

Section Meaning.
Context {X : Type} (sat : spec → X → Prop) (bop : aql_bop → X → X → Prop) (node : X → N) (above : N → N → Prop).
(** The operators for the same node and for parts of a corpus depend on the nodes only *)
Definition same_node_operator : Prop := ∀ x y, bop BIdentNode x y ↔ node x = node y.
Definition part_of_operator : Prop := ∀ x y, bop (BPartOf RUnbound) x y ↔ above (node x) (node y).
(** A document that contains the node and matches all the metadata searches *)
Definition metadata_holds (metas : list spec) (x : X) : Prop :=
  metas = [] ∨ ∃ d, above (node x) d ∧ (∃ y, node y = d ∧ sat (SExact (Some (str "annis")) (str "doc") None true) y) ∧
                    ∀ sp, sp ∈ metas → ∃ y, node y = d ∧ sat sp y.
End Meaning.
