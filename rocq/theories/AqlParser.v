(** A parser for the grammar of AQLGrammar.v: recursive descent with one token of lookahead. AqlParserProofs.v shows that it finds exactly
    the derivations of the grammar, so it stands for the parser that LALRPOP generates from parser.lalrpop. *)
From Coq Require Import NArith String.
From stdpp Require Import base list.
From Verif Require Import KeySer KeySerSpec CompPath RelAnnis NodeSearch TokenOps EdgeOps Query AqlLexer AqlGrammar.

Notation result A := (option (A * list ptoken)).
(** parser.lalrpop l.528-531 *)
Definition p_qname (ts : list ptoken) : result (option bytes * bytes) :=
  match ts with
  | (_, TId a) :: (_, TColon) :: (_, TId b) :: r => Some ((Some a, b), r)
  | (_, TId a) :: r => Some ((None, a), r)
  | _ => None
  end.
(** l.457-460 *)
Definition p_comparison (ts : list ptoken) : result bool :=
  match ts with (_, TEq) :: r => Some (true, r) | (_, TNotEq) :: r => Some (false, r) | _ => None end.
(** l.462-467 *)
Definition p_text (ts : list ptoken) : result (bytes * bool) :=
  match ts with (_, TQuoted v) :: r => Some ((v, false), r) | (_, TRegex v) :: r => Some ((v, true), r) | _ => None end.
(** l.195-310 *)
Definition p_node_search (ts : list ptoken) : result spec :=
  match ts with
  | (_, TNode) :: r => Some (SAnyNode, r)
  | (_, TTok) :: r =>
      match p_comparison r with
      | Some (c, r1) => match p_text r1 with Some (t, r2) => Some (tok_spec c t, r2) | None => None end
      | None => Some (SAnyTok, r)
      end
  | (_, TId _) :: _ =>
      match p_qname ts with
      | Some (q, r) =>
          match p_comparison r with
          | Some (c, r1) => match p_text r1 with Some (t, r2) => Some (anno_spec false q c t, r2) | None => None end
          | None => Some (SExact q.1 q.2 None false, r)
          end
      | None => None
      end
  | _ => match p_text ts with Some (t, r) => Some (span_spec t, r) | None => None end
  end.
(** l.314-317 *)
Definition p_node_ref (ts : list ptoken) : result vname :=
  match ts with
  | (_, TNodeRef s) :: r => Some (Num (N.to_nat (digits_number s)), r)
  | (_, TVarRef s) :: r => Some (Name s, r)
  | _ => None
  end.
(** l.515-526 *)
Definition p_digits (ts : list ptoken) : result range_spec :=
  match ts with
  | (_, TDigits a) :: (_, TComma) :: (_, TDigits b) :: r => Some (RBound (usize_or_zero a) (usize_or_zero b), r)
  | (_, TDigits a) :: r => Some (RBound (usize_or_zero a) (usize_or_zero a), r)
  | _ => None
  end.
Definition p_range (ts : list ptoken) : result range_spec :=
  match ts with
  | (_, TStar) :: r => Some (RUnbound, r)
  | (_, TComma) :: r => p_digits r
  | _ => p_digits ts
  end.
Definition p_opt_range (ts : list ptoken) : result range_spec :=
  match ts with
  | (_, TStar) :: _ | (_, TComma) :: _ | (_, TDigits _) :: _ => p_range ts
  | _ => Some (RBound 1 1, ts)
  end.
(** l.469-513, after the bracket *)
Definition p_edge_anno (ts : list ptoken) : result edge_label :=
  match p_qname ts with
  | Some (q, r) =>
      match p_comparison r with
      | Some (c, r1) => match p_text r1 with Some (t, (_, TRBr) :: r2) => Some (edge_spec q c t, r2) | _ => None end
      | None => None
      end
  | None => None
  end.
Definition p_with_range (op : range_spec → aql_bop) (ts : list ptoken) : result aql_bop :=
  match p_opt_range ts with Some (r, ts) => Some (op r, ts) | None => None end.
Definition p_with_anno (op : range_spec → option edge_label → aql_bop) (ts : list ptoken) : result aql_bop :=
  match ts with
  | (_, TLBr) :: r => match p_edge_anno r with Some (a, r') => Some (op (RBound 1 1) (Some a), r') | None => None end
  | _ => p_with_range (λ r, op r None) ts
  end.
(** l.320-438 *)
Definition p_binary (ts : list ptoken) : result aql_bop :=
  match ts with
  | (_, TDom s) :: r => p_with_anno (BDominance s) r
  | (_, TPoint s) :: r => p_with_anno (BPointing s) r
  | (_, TPrec s) :: r => p_with_range (BPrecedence (segmentation s)) r
  | (_, TNear s) :: r => p_with_range (BNear (segmentation s)) r
  | (_, TAt) :: r => p_with_range BPartOf r
  | (_, TOverlap) :: r => Some (BOverlap, r)
  | (_, TIdentCov) :: r => Some (BIdentCov, r)
  | (_, TInclusion) :: r => Some (BInclusion, r)
  | (_, TLeft) :: r => Some (BLeft, r)
  | (_, TRight) :: r => Some (BRight, r)
  | (_, TIdentNode) :: r => Some (BIdentNode, r)
  | _ => None
  end.
(** l.441-444 *)
Definition p_filter_op (ts : list ptoken) : result aql_bop :=
  match ts with (_, TEqEq) :: r => Some (BCompare true, r) | (_, TNotEq) :: r => Some (BCompare false, r) | _ => None end.
(** l.68-73, l.185-191 *)
Definition p_node (ts : list ptoken) : result (nat * spec * option bytes * bool) :=
  match ts with
  | [] => None
  | (p, t) :: _ =>
      let '(var, r) := match ts with (_, TVarDef s) :: r => (Some s, r) | _ => (None, ts) end in
      match p_node_search r with
      | Some (sp, (_, TOptional) :: r') => Some ((p, sp, var, true), r')
      | Some (sp, r') => Some ((p, sp, var, false), r')
      | None => None
      end
  end.
(** l.183-192 *)
Definition p_operand (ts : list ptoken) : result aql_operand :=
  match p_node_ref ts with
  | Some (v, r) => Some (ORef v, r)
  | None => match p_node ts with Some ((p, sp, var, o), r) => Some (OLit sp p var o, r) | None => None end
  end.
Definition p_neg (ts : list ptoken) : bool * list ptoken := match ts with (_, TBang) :: r => (true, r) | _ => (false, ts) end.
Definition join_and (e : option aql_expr) (e' : aql_expr) : aql_expr := match e with Some e => And e e' | None => e' end.
(** l.74-99: the operators after the first operand *)
Fixpoint p_chain (k : nat) (e : option aql_expr) (last : aql_operand) (ts : list ptoken) : result aql_expr :=
  match k with
  | 0 => None
  | S k =>
      let '(neg, r) := p_neg ts in
      match p_binary r with
      | Some (op, r1) =>
          match p_operand r1 with
          | Some (rhs, r2) => p_chain k (Some (join_and e (Terminal (LBin last op rhs neg)))) rhs r2
          | None => None
          end
      | None => match e with Some e => if neg then None else Some (e, ts) | None => None end
      end
  end.
(** l.100-126 *)
Fixpoint p_filter (k : nat) (e : option aql_expr) (last : vname) (ts : list ptoken) : result aql_expr :=
  match k with
  | 0 => None
  | S k =>
      match p_filter_op ts with
      | Some (op, r1) =>
          match p_node_ref r1 with
          | Some (rhs, r2) => p_filter k (Some (join_and e (Terminal (LBin (ORef last) op (ORef rhs) false)))) rhs r2
          | None => None
          end
      | None => match e with Some e => Some (e, ts) | None => None end
      end
  end.
(** l.67-181, l.447-455 *)
Definition starts_chain (ts : list ptoken) : bool :=
  match ts with (_, TBang) :: _ => true | _ => match p_binary ts with Some _ => true | None => false end end.
Definition p_literal (ts : list ptoken) : result aql_expr :=
  match ts with
  | (_, TMeta) :: r =>
      match p_qname r with
      | Some (q, r1) =>
          match p_comparison r1 with
          | Some (c, r2) => match p_text r2 with Some (t, r3) => Some (Terminal (LMeta (anno_spec true q c t)), r3) | None => None end
          | None => None
          end
      | None => None
      end
  | _ =>
      match p_node_ref ts with
      | Some (v, r) =>
          match r with
          | (_, TArity) :: (_, TEq) :: r1 => match p_range r1 with Some (x, r2) => Some (Terminal (LUn v (UArity x)), r2) | None => None end
          | (_, TEqEq) :: _ | (_, TNotEq) :: _ => p_filter (S (length r)) None v r
          | _ => p_chain (S (length r)) None (ORef v) r
          end
      | None =>
          match p_node ts with
          | Some ((p, sp, var, o), r) => if starts_chain r then p_chain (S (length r)) None (OLit sp p var o) r else Some (Terminal (LNode sp p var o), r)
          | None => None
          end
      end
  end.
(** l.52-60 and l.42-50 *)
Section loop.
  Context (sep : token → bool) (mk : aql_expr → aql_expr → aql_expr) (sub : list ptoken → result aql_expr).
  Fixpoint p_loop (k : nat) (e : aql_expr) (ts : list ptoken) : result aql_expr :=
    match k with
    | 0 => None
    | S k =>
        match ts with
        | (p, t) :: r => if sep t then match sub r with Some (e', r') => p_loop k (mk e e') r' | None => None end else Some (e, ts)
        | [] => Some (e, ts)
        end
    end.
  Definition p_list (ts : list ptoken) : result aql_expr := match sub ts with Some (e, r) => p_loop (S (length r)) e r | None => None end.
End loop.
Definition is_and (t : token) : bool := match t with TAnd => true | _ => false end.
Definition is_or (t : token) : bool := match t with TOr => true | _ => false end.
Definition p_disjunction_of (factor : list ptoken → result aql_expr) : list ptoken → result aql_expr := p_list is_or Or (p_list is_and And factor).
(** l.62-65 *)
Fixpoint p_factor (n : nat) (ts : list ptoken) : result aql_expr :=
  match n with
  | 0 => None
  | S n =>
      match ts with
      | (_, TLPar) :: r => match p_disjunction_of (p_factor n) r with Some (e, (_, TRPar) :: r') => Some (e, r') | _ => None end
      | _ => p_literal ts
      end
  end.
Definition p_disjunction (ts : list ptoken) : option aql_expr :=
  match p_disjunction_of (p_factor (length ts)) ts with Some (e, []) => Some e | _ => None end.

(** ** Queries: mod.rs l.495-496 and 539-557 (the error is given without its text) *)
Inductive outcome := Parsed (e : aql_expr) | SyntaxError | Panic.
(** parser.lalrpop l.315: a number that is too large panics. Simplification: if a query has such a number and a syntax error, it is a
    syntax error *)
Definition too_large (t : ptoken) : bool := match t.2 with TNodeRef s => match parse_num u64_max s with Some _ => false | None => true end | _ => false end.
Definition parse_aql (query : bytes) : outcome :=
  match tokens query with
  | Some ts => match p_disjunction ts with Some e => if existsb too_large ts then Panic else Parsed e | None => SyntaxError end
  | None => SyntaxError
  end.
