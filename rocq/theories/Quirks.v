(** Model of the quirks mode of queries (/repo/graphannis/src/annis/db/aql/mod.rs, conjunction.rs): metadata searches, additional nodes for
    several joins and limited distances. Simplification: the flag of an operator that its operands are compared with all other matches
    (C30) is left out, it is not set for the operators of the query in this mode. *)
From Coq Require Import NArith String.
From stdpp Require Import base list gmap.
From Verif Require Import KeySer CompPath NodeSearch TokenOps EdgeOps Query AqlGrammar AqlParser.
Notation conjunction := (qconj spec aql_bop aql_uop).
Notation positions_map := (list (nat * node_entry (Spec := spec))).

(** mod.rs l.285-352 *)
Fixpoint quirks_node_positions (c : list aql_literal) (m : positions_map) : positions_map :=
  match c with
  | [] => m
  | LNode spec start var optional :: r => quirks_node_positions r (put true start (spec, var, optional) m)
  | LBin lhs _ rhs _ :: r => quirks_node_positions r (put_operand rhs (put_operand lhs m))
  | LUn _ _ :: r => quirks_node_positions r m
  | LMeta _ :: r => quirks_node_positions r m
  end.
(** mod.rs l.191-198 and l.201-208 *)
Definition limit_distance (r : range_spec) : range_spec := match r with RUnbound => RBound 1 50 | _ => r end.
(** mod.rs l.179-213 *)
Definition limit_op (op : aql_bop) : aql_bop :=
  match op with BPrecedence seg d => BPrecedence seg (limit_distance d) | BNear seg d => BNear seg (limit_distance d) | _ => op end.
(** mod.rs l.181 *)
Definition is_join (op : aql_bop) : bool := match op with BDominance _ _ _ | BPointing _ _ _ => true | _ => false end.
(** num_pointing_or_dominance_joins *)
Notation joins := (gmap vname nat).
Definition count_join (v : vname) (n : joins) : joins := <[v := default 0 (n !! v) + 1]> n.
(** mod.rs l.140-260 *)
Definition quirks_binary_literal (ids : list (nat * vname)) (q : conjunction) (n : joins) (lhs : aql_operand) (op : aql_bop) (rhs : aql_operand) (negated : bool) : option (conjunction * joins) :=
  vl ← operand_var ids lhs; vr ← operand_var ids rhs;
  nl ← resolve_variable q vl; nr ← resolve_variable q vr;
  let n' := if is_join op then count_join vr (count_join vl n) else n in
  let op := limit_op op in
  let '(_, sl, ol) := nl in let '(_, sr, o_r) := nr in
  q' ← (if negated then
          match ol, o_r with
          | false, false => add_operator_from_query q op true vl vr
          | true, true => None
          | true, false => add_unary_operator_from_query q (UNonExisting op sl true) nr.1.1
          | false, true => add_unary_operator_from_query q (UNonExisting op sr false) nl.1.1
          end
        else if ol || o_r then None else add_operator_from_query q op false vl vr);
  Some (q', n').
Fixpoint quirks_binary_literals (ids : list (nat * vname)) (q : conjunction) (n : joins) (c : list aql_literal) : option (conjunction * joins) :=
  match c with
  | [] => Some (q, n)
  | LBin lhs op rhs negated :: r => '(q', n') ← quirks_binary_literal ids q n lhs op rhs negated; quirks_binary_literals ids q' n' r
  | _ :: r => quirks_binary_literals ids q n r
  end.
(** mod.rs l.269-275: nodes that cannot be resolved are skipped *)
Fixpoint add_copies (k : nat) (v : vname) (q : conjunction) : option conjunction :=
  match k with
  | 0 => Some q
  | S k =>
      match resolve_variable q v with
      | Some (_, sp, _) => let '(q', w) := add_node_from_query q sp None false in q'' ← add_operator_from_query q' BIdentNode false v w; add_copies k v q''
      | None => add_copies k v q
      end
  end.
(** mod.rs l.266-277 *)
Fixpoint add_all_copies (ids : list (nat * vname)) (n : joins) (q : conjunction) : option conjunction :=
  match ids with
  | [] => Some q
  | (_, v) :: r => q' ← add_copies (default 0 (n !! v) - 1) v q; add_all_copies r n q'
  end.
(** mod.rs l.107-281 *)
Definition quirks_conjunction (off : nat) (c : list aql_literal) : option conjunction :=
  let '(q, ids) := add_node_specs_by_start (with_offset off) (quirks_node_positions c []) in
  q1 ← add_unary_literals q c; '(q2, n) ← quirks_binary_literals ids q1 ∅ c; add_all_copies ids n q2.
(** conjunction.rs l.286-315 with included_in_output = false *)
Definition add_hidden_node (q : conjunction) (sp : spec) : conjunction * vname :=
  let v := Num (c_offset q + length (c_nodes q) + 1) in
  (QConj (c_nodes q ++ [(v, sp, false)]) (<[v := length (c_nodes q)]> (c_variables q)) (c_unary q) (c_binary q) (c_output q) (c_offset q), v).
(** mod.rs l.410-415 *)
Definition doc_spec : spec := SExact (Some (str "annis")) (str "doc") None true.
(** mod.rs l.380-433 *)
Fixpoint add_metadata (metas : list spec) (first_meta first_node : option vname) (q : conjunction) : option conjunction :=
  match metas with
  | [] => Some q
  | sp :: r =>
      let '(q1, v) := add_hidden_node q sp in
      match first_meta with
      | Some fm => q2 ← add_operator_from_query q1 BIdentNode false fm v; add_metadata r first_meta first_node q2
      | None =>
          match first_node with
          | Some fn => q2 ← add_operator_from_query q1 (BPartOf RUnbound) false fn v;
                       let '(q3, d) := add_hidden_node q2 doc_spec in
                       q4 ← add_operator_from_query q3 BIdentNode false v d; add_metadata r (Some v) first_node q4
          | None => add_metadata r None None q1
          end
      end
  end.
(** conjunction.rs l.401-404 *)
Definition variable_by_node_nr (q : conjunction) (nr : nat) : option vname :=
  if decide (c_offset q ≤ nr) then (λ n : vname * spec * bool, n.1.1) <$> c_nodes q !! (nr - c_offset q) else None.
(** mod.rs l.505-514 *)
Definition metadata_searches (alts : list (list aql_literal)) : list spec := omap (λ l, match l with LMeta sp => Some sp | _ => None end) (concat alts).
(** mod.rs l.516-538 *)
Fixpoint quirks_alternatives (metas : list spec) (off : nat) (alts : list (list aql_literal)) : option (list conjunction) :=
  match alts with
  | [] => Some []
  | c :: r => q ← quirks_conjunction off c; q' ← add_metadata metas None (variable_by_node_nr q off) q;
              qs ← quirks_alternatives metas (off + length (c_nodes q')) r; Some (q' :: qs)
  end.
(** mod.rs l.495-541 *)
Definition quirks_query (simplify : aql_expr → aql_expr) (e : aql_expr) : option (list conjunction) :=
  let alts := get_alternatives_from_dnf (simplify e) in quirks_alternatives (metadata_searches alts) 0 alts.
