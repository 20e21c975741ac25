(** Model of the mapping of a parsed query to alternatives (/repo/graphannis/src/annis/db/aql/mod.rs l.107-378 and 435-542,
    conjunction.rs l.286-388).
    Simplifications: positions of operators and locations (see LineCol.v) are left out; a variable name is a number
    (assigned to a node without name and used by "#1") or a name that starts with a letter (both are strings in the code,
    which differ because of the grammar); quirks mode is in Quirks.v; specifications of nodes and operators are opaque.
    Expressions are those of the crate boolean_expression. *)
From stdpp Require Import base list gmap countable.
From Coq Require Import NArith.

Section Query.
Context {Spec Bop Uop : Type}.

Inductive vname := Num (n : nat) | Name (s : list N).
Global Instance vname_eq_dec : EqDecision vname.
Proof. solve_decision. Defined.
Global Instance vname_countable : Countable vname.
Proof.
  refine (inj_countable' (λ v, match v with Num n => inl n | Name s => inr s end)
                         (λ v, match v with inl n => Num n | inr s => Name s end) _). by intros [].
Defined.
(** ast.rs: Operand; a literal operand has the start of its position *)
Inductive operand := ORef (v : vname) | OLit (spec : Spec) (start : nat) (var : option (list N)) (optional : bool).
(** ast.rs: Literal; the position of a node search is always given by the grammar *)
Inductive literal :=
  | LNode (spec : Spec) (start : nat) (var : option (list N)) (optional : bool)
  | LBin (lhs : operand) (op : Bop) (rhs : operand) (negated : bool)
  | LUn (v : vname) (op : Uop)
  | LMeta (spec : Spec).
(** boolean_expression::Expr *)
Inductive expr (T : Type) := Terminal (t : T) | And (l r : expr T) | Or (l r : expr T) | Not (e : expr T) | Const (b : bool).
Arguments Terminal {T}. Arguments And {T}. Arguments Or {T}. Arguments Not {T}. Arguments Const {T}.

(** ** Alternatives *)
(** mod.rs l.435-446 *)
Fixpoint find_all_children_for_and {T} (e : expr T) : list T :=
  match e with
  | Terminal l => [l]
  | And l r => find_all_children_for_and l ++ find_all_children_for_and r
  | _ => []
  end.
(** mod.rs l.448-459 *)
Fixpoint find_all_children_for_or {T} (e : expr T) : list (expr T) :=
  match e with
  | Or l r => find_all_children_for_or l ++ find_all_children_for_or r
  | _ => [e]
  end.
(** mod.rs l.461-485 *)
Definition get_alternatives_from_dnf {T} (e : expr T) : list (list T) :=
  match e with
  | And _ _ => [find_all_children_for_and e]
  | Or _ _ => omap (λ root, match root with
                            | And _ _ => Some (find_all_children_for_and root)
                            | Terminal t => Some [t]
                            | _ => None
                            end) (find_all_children_for_or e)
  | Terminal t => [[t]]
  | _ => []
  end.

(** ** Nodes *)
(** BTreeMap with the start of the position as key: [or_insert] keeps an existing entry *)
Fixpoint put {A} (overwrite : bool) (k : nat) (a : A) (l : list (nat * A)) : list (nat * A) :=
  match l with
  | [] => [(k, a)]
  | (k', a') :: r => if decide (k < k') then (k, a) :: l
                     else if decide (k = k') then (if overwrite then (k, a) else (k', a')) :: r
                     else (k', a') :: put overwrite k a r
  end.
Definition node_entry : Type := Spec * option (list N) * bool.
Definition put_operand (o : operand) (m : list (nat * node_entry)) : list (nat * node_entry) :=
  match o with OLit spec start var optional => put false start (spec, var, optional) m | ORef _ => m end.
(** mod.rs l.285-352; None for the error about legacy metadata *)
Fixpoint calculate_node_positions (c : list literal) (m : list (nat * node_entry)) : option (list (nat * node_entry)) :=
  match c with
  | [] => Some m
  | LNode spec start var optional :: r => calculate_node_positions r (put true start (spec, var, optional) m)
  | LBin lhs _ rhs _ :: r => calculate_node_positions r (put_operand rhs (put_operand lhs m))
  | LUn _ _ :: r => calculate_node_positions r m
  | LMeta _ :: r => None
  end.
(** conjunction.rs: Conjunction; unary operators are those of the query and the non-existing ones *)
Inductive unary := UOp (op : Uop) | UNonExisting (op : Bop) (target : Spec) (target_left : bool).
Record qconj := QConj {
  c_nodes : list (vname * Spec * bool);
  c_variables : gmap vname nat;
  c_unary : list (unary * nat);
  c_binary : list (Bop * bool * nat * nat);
  c_output : gset vname;
  c_offset : nat }.
(** conjunction.rs l.245-256 *)
Definition with_offset (off : nat) : qconj := QConj [] ∅ [] [] ∅ off.
(** conjunction.rs l.286-315 with included_in_output = true *)
Definition add_node_from_query (q : qconj) (spec : Spec) (var : option (list N)) (optional : bool) : qconj * vname :=
  let idx := c_offset q + length (c_nodes q) in
  let v := match var with Some s => Name s | None => Num (idx + 1) end in
  (QConj (c_nodes q ++ [(v, spec, optional)]) (<[v := length (c_nodes q)]> (c_variables q)) (c_unary q) (c_binary q)
         (if optional then c_output q else {[v]} ∪ c_output q) (c_offset q), v).
(** mod.rs l.354-378 *)
Fixpoint add_node_specs_by_start (q : qconj) (m : list (nat * node_entry)) : qconj * list (nat * vname) :=
  match m with
  | [] => (q, [])
  | (start, (spec, var, optional)) :: r =>
      let '(q', v) := add_node_from_query q spec var optional in
      let '(q'', ids) := add_node_specs_by_start q' r in (q'', (start, v) :: ids)
  end.
(** conjunction.rs l.317-336; None for the error that the operand was not found *)
Definition add_unary_operator_from_query (q : qconj) (op : unary) (v : vname) : option qconj :=
  idx ← c_variables q !! v;
  Some (QConj (c_nodes q) (c_variables q) (c_unary q ++ [(op, idx)]) (c_binary q) (c_output q) (c_offset q)).
(** conjunction.rs l.376-388 *)
Definition resolve_variable_pos (q : qconj) (v : vname) : option nat := (λ i, i + c_offset q) <$> c_variables q !! v.
(** conjunction.rs l.406-422 *)
Definition resolve_variable (q : qconj) (v : vname) : option (vname * Spec * bool) :=
  idx ← resolve_variable_pos q v; c_nodes q !! (idx - c_offset q).
(** conjunction.rs l.348-368 *)
Definition add_operator_from_query (q : qconj) (op : Bop) (negated : bool) (v w : vname) : option qconj :=
  l ← resolve_variable_pos q v; r ← resolve_variable_pos q w;
  Some (QConj (c_nodes q) (c_variables q) (c_unary q) (c_binary q ++ [(op, negated, l, r)]) (c_output q) (c_offset q)).
(** mod.rs l.150-170: each literal operand has a node, so the code that adds one is not reached *)
Definition operand_var (ids : list (nat * vname)) (o : operand) : option vname :=
  match o with
  | ORef v => Some v
  | OLit _ start _ _ => p ← list_find (λ p, p.1 = start) ids; Some p.2.2
  end.
(** mod.rs l.118-135 *)
Fixpoint add_unary_literals (q : qconj) (c : list literal) : option qconj :=
  match c with
  | [] => Some q
  | LUn v op :: r => q' ← add_unary_operator_from_query q (UOp op) v; add_unary_literals q' r
  | _ :: r => add_unary_literals q r
  end.
(** mod.rs l.140-260: None for an error *)
Definition add_binary_literal (ids : list (nat * vname)) (q : qconj) (lhs : operand) (op : Bop) (rhs : operand) (negated : bool) : option qconj :=
  vl ← operand_var ids lhs; vr ← operand_var ids rhs;
  nl ← resolve_variable q vl; nr ← resolve_variable q vr;
  let '(_, sl, ol) := nl in let '(_, sr, o_r) := nr in
  if negated then
    match ol, o_r with
    | false, false => add_operator_from_query q op true vl vr
    | true, true => None
    | true, false => add_unary_operator_from_query q (UNonExisting op sl true) nr.1.1
    | false, true => add_unary_operator_from_query q (UNonExisting op sr false) nl.1.1
    end
  else if ol || o_r then None else add_operator_from_query q op false vl vr.
Fixpoint add_binary_literals (ids : list (nat * vname)) (q : qconj) (c : list literal) : option qconj :=
  match c with
  | [] => Some q
  | LBin lhs op rhs negated :: r => q' ← add_binary_literal ids q lhs op rhs negated; add_binary_literals ids q' r
  | _ :: r => add_binary_literals ids q r
  end.
(** mod.rs l.107-280 without quirks mode *)
Definition map_conjunction (off : nat) (c : list literal) : option qconj :=
  m ← calculate_node_positions c [];
  let '(q, ids) := add_node_specs_by_start (with_offset off) m in
  q' ← add_unary_literals q c; add_binary_literals ids q' c.
(** mod.rs l.515-538 *)
Fixpoint map_alternatives (off : nat) (alts : list (list literal)) : option (list qconj) :=
  match alts with
  | [] => Some []
  | c :: r => q ← map_conjunction off c; qs ← map_alternatives (off + length (c_nodes q)) r; Some (q :: qs)
  end.
End Query.
Arguments Terminal {T}. Arguments And {T}. Arguments Or {T}. Arguments Not {T}. Arguments Const {T}.
Arguments operand : clear implicits. Arguments literal : clear implicits. Arguments qconj : clear implicits. Arguments unary : clear implicits.
