(** What a query means. *)
From stdpp Require Import base list gmap sorting.
From Coq Require Import NArith.
From Verif Require Import Query.

(** ** Boolean expressions *)
Fixpoint holds {T} (v : T → Prop) (e : expr T) : Prop :=
  match e with
  | Terminal t => v t
  | And l r => holds v l ∧ holds v r
  | Or l r => holds v l ∨ holds v r
  | Not e => ¬ holds v e
  | Const b => b = true
  end.
(** The grammar has neither negation nor constants *)
Fixpoint positive {T} (e : expr T) : Prop :=
  match e with Terminal _ => True | And l r | Or l r => positive l ∧ positive r | Not _ | Const _ => False end.
(** Sum of products: no disjunction below a conjunction *)
Fixpoint product {T} (e : expr T) : Prop :=
  match e with Terminal _ => True | And l r => product l ∧ product r | _ => False end.
Fixpoint sum_of_products {T} (e : expr T) : Prop :=
  match e with Or l r => sum_of_products l ∧ sum_of_products r | _ => product e end.
Fixpoint terminals {T} (e : expr T) : list T :=
  match e with Terminal t => [t] | And l r | Or l r => terminals l ++ terminals r | Not e => terminals e | Const _ => [] end.
(** What is expected of Expr::simplify_via_laws for queries *)
Definition simplifies {T} (f : expr T → expr T) : Prop :=
  ∀ e, positive e → sum_of_products (f e) ∧ (∀ v, holds v (f e) ↔ holds v e) ∧ terminals (f e) ⊆ terminals e.

Section Spec.
Context {Spec Bop Uop X : Type} (sat : Spec → X → Prop) (bop : Bop → X → X → Prop) (uop : Uop → X → Prop).
Notation literal := (literal Spec Bop Uop).
Notation operand := (operand Spec).

(** ** Literals *)
Definition operand_node (o : operand) (s : nat) (e : node_entry) : Prop :=
  match o with ORef _ => False | OLit spec start var optional => s = start ∧ e = (spec, var, optional) end.
(** The literal has a node search at this position of the text *)
Definition has_node (l : literal) (s : nat) (e : node_entry) : Prop :=
  match l with
  | LNode spec start var optional => s = start ∧ e = (spec, var, optional)
  | LBin lhs _ rhs _ => operand_node lhs s e ∨ operand_node rhs s e
  | _ => False
  end.
Definition node_at (c : list literal) (s : nat) (e : node_entry) : Prop := ∃ l, l ∈ c ∧ has_node l s e.
(** There is one node search at a position *)
Definition consistent (c : list literal) : Prop := ∀ s e e', node_at c s e → node_at c s e' → e = e'.
Definition distinct_names (c : list literal) : Prop :=
  ∀ s s' sp sp' o o' n, node_at c s (sp, Some n, o) → node_at c s' (sp', Some n, o') → s = s'.
(** A reference is the name of a node or the number of a node without name; [off] nodes belong to previous alternatives *)
Definition refers (off : nat) (c : list literal) (v : vname) (s : nat) : Prop :=
  match v with
  | Name n => ∃ sp o, node_at c s (sp, Some n, o)
  | Num k => (∃ sp o, node_at c s (sp, None, o)) ∧
             ∃ before, NoDup before ∧ (∀ x, x ∈ before ↔ x < s ∧ ∃ e, node_at c x e) ∧ k = off + length before + 1
  end.
Definition operand_at (off : nat) (c : list literal) (o : operand) (s : nat) : Prop :=
  match o with ORef v => refers off c v s | OLit _ start _ _ => s = start end.
Definition found (env : nat → X) (s : nat) (e : node_entry (Spec := Spec)) : Prop := e.2 = true ∨ sat e.1.1 (env s).
(** The operator holds between the operands; at most one of the operands of a negated operator is optional, and then no node
    exists for which it holds *)
Definition operator_holds (env : nat → X) (op : Bop) (negated : bool) (sl : nat) (el : node_entry) (sr : nat) (er : node_entry) : Prop :=
  match negated, el.2, er.2 with
  | false, false, false => bop op (env sl) (env sr)
  | true, false, false => ¬ bop op (env sl) (env sr)
  | true, true, false => ¬ ∃ x, sat el.1.1 x ∧ bop op x (env sr)
  | true, false, true => ¬ ∃ x, sat er.1.1 x ∧ bop op (env sl) x
  | _, _, _ => False
  end.
Definition literal_holds (off : nat) (c : list literal) (env : nat → X) (l : literal) : Prop :=
  (∀ s e, has_node l s e → found env s e) ∧
  match l with
  | LNode _ _ _ _ => True
  | LBin lhs op rhs negated => ∃ sl el sr er, operand_at off c lhs sl ∧ node_at c sl el ∧ operand_at off c rhs sr ∧ node_at c sr er ∧
                                 operator_holds env op negated sl el sr er
  | LUn v op => ∃ s, refers off c v s ∧ uop op (env s)
  | LMeta _ => False
  end.
(** The literal can be mapped: its references exist and operators have allowed optional operands *)
Definition literal_ok (off : nat) (c : list literal) (l : literal) : Prop :=
  match l with
  | LNode _ _ _ _ => True
  | LBin lhs op rhs negated => ∃ sl el sr er, operand_at off c lhs sl ∧ node_at c sl el ∧ operand_at off c rhs sr ∧ node_at c sr er ∧
                                 (if negated then el.2 = false ∨ er.2 = false else el.2 = false ∧ er.2 = false)
  | LUn v op => ∃ s, refers off c v s
  | LMeta _ => False
  end.
Definition no_numbers (l : literal) : Prop :=
  match l with
  | LBin lhs _ rhs _ => (∀ k, lhs ≠ ORef (Num k)) ∧ (∀ k, rhs ≠ ORef (Num k))
  | LUn v _ => ∀ k, v ≠ Num k
  | _ => True
  end.

(** ** Conjunctions *)
Definition unary_holds (u : unary Spec Bop Uop) (x : X) : Prop :=
  match u with
  | UOp op => uop op x
  | UNonExisting op target is_left => ¬ ∃ y, sat target y ∧ if is_left then bop op y x else bop op x y
  end.
(** [a] are the matches of the nodes of the conjunction, in their order *)
Record conj_holds (q : qconj Spec Bop Uop) (a : nat → X) : Prop := ConjHolds {
  ch_nodes : ∀ i v spec, c_nodes q !! i = Some (v, spec, false) → sat spec (a i);
  ch_unary : ∀ u i, (u, i) ∈ c_unary q → unary_holds u (a i);
  ch_binary : ∀ (op : Bop) (negated : bool) (l r : nat), (op, negated, l, r) ∈ c_binary q →
    if negated then ¬ bop op (a (l - c_offset q)) (a (r - c_offset q)) else bop op (a (l - c_offset q)) (a (r - c_offset q)) }.
(** The positions of the nodes of a conjunction: all node searches of its literals in their order *)
Definition positions (c : list literal) (starts : list nat) : Prop :=
  StronglySorted lt starts ∧ ∀ s, s ∈ starts ↔ ∃ e, node_at c s e.
End Spec.
