(** Model of the grammar of AQL queries (/repo/graphannis/src/annis/db/aql/parser.lalrpop l.42-533): one relation for each rule, between the
    tokens of a part of the query and its value. The parser that LALRPOP generates returns the value of the derivation of the query.
    Simplifications: the positions of operators and the ends of positions, which are used for error messages only, are left out; the
    strings of references by number are numbers. *)
From Coq Require Import NArith String.
From stdpp Require Import base list.
From Verif Require Import KeySer KeySerSpec CompPath RelAnnis NodeSearch TokenOps EdgeOps Query AqlLexer.

(** ast.rs l.90-107: BinaryOpSpec *)
Inductive aql_bop :=
| BDominance (name : bytes) (dist : range_spec) (anno : option edge_label)
| BPointing (name : bytes) (dist : range_spec) (anno : option edge_label)
| BPrecedence (seg : option bytes) (dist : range_spec)
| BNear (seg : option bytes) (dist : range_spec)
| BPartOf (dist : range_spec)
| BOverlap | BIdentCov | BInclusion | BLeft | BRight | BIdentNode
| BCompare (equal : bool).
(** ast.rs l.109-112: UnaryOpSpec *)
Inductive aql_uop := UArity (children : range_spec).
Notation aql_operand := (operand spec).
Notation aql_literal := (literal spec aql_bop aql_uop).
Notation aql_expr := (expr aql_literal).
Notation ptoken := (nat * token)%type.

(** the number of digits without sign *)
Definition digits_number (s : bytes) : N := foldl (λ n b, n * 10 + (b - 48))%N 0%N s.
(** core::num: usize::from_str and unwrap_or_default *)
Definition usize_or_zero (s : bytes) : N := default 0%N (parse_num u64_max s).

(** l.528-531 *)
Inductive GQName : list ptoken → option bytes * bytes → Prop :=
| g_qualified p q r ns name : GQName [(p, TId ns); (q, TColon); (r, TId name)] (Some ns, name)
| g_name p name : GQName [(p, TId name)] (None, name).
(** l.457-460: true for equal *)
Inductive GComparison : list ptoken → bool → Prop :=
| g_equal p : GComparison [(p, TEq)] true
| g_not_equal p : GComparison [(p, TNotEq)] false.
(** l.462-467: true for regular expressions *)
Inductive GTextSearch : list ptoken → bytes * bool → Prop :=
| g_exact p v : GTextSearch [(p, TQuoted v)] (v, false)
| g_regex p v : GTextSearch [(p, TRegex v)] (v, true).
(** l.254-299, l.132-180: the value of a search for an annotation *)
Definition anno_spec (is_meta : bool) (q : option bytes * bytes) (equal : bool) (t : bytes * bool) : spec :=
  match t with
  | (v, false) => if equal then SExact q.1 q.2 (Some v) is_meta else SNotExact q.1 q.2 v is_meta
  | (v, true) => if equal then SRegex q.1 q.2 v is_meta else SNotRegex q.1 q.2 v is_meta
  end.
(** l.200-235 *)
Definition tok_spec (equal : bool) (t : bytes * bool) : spec :=
  match t with
  | (v, false) => if equal then STokExact v true else STokNotExact v
  | (v, true) => if equal then STokRegex v true else STokNotRegex v
  end.
(** l.236-253 *)
Definition span_spec (t : bytes * bool) : spec := match t with (v, false) => STokExact v false | (v, true) => STokRegex v false end.
(** l.195-310 *)
Inductive GNodeSearch : list ptoken → spec → Prop :=
| g_any_node p : GNodeSearch [(p, TNode)] SAnyNode
| g_any_tok p : GNodeSearch [(p, TTok)] SAnyTok
| g_tok p ts1 ts2 c t : GComparison ts1 c → GTextSearch ts2 t → GNodeSearch ((p, TTok) :: ts1 ++ ts2) (tok_spec c t)
| g_span ts t : GTextSearch ts t → GNodeSearch ts (span_spec t)
| g_anno ts1 ts2 ts3 q c t : GQName ts1 q → GComparison ts2 c → GTextSearch ts3 t → GNodeSearch (ts1 ++ ts2 ++ ts3) (anno_spec false q c t)
| g_anno_name ts q : GQName ts q → GNodeSearch ts (SExact q.1 q.2 None false).
(** l.314-317 *)
Inductive GNodeRef : list ptoken → vname → Prop :=
| g_id p s : GNodeRef [(p, TNodeRef s)] (Num (N.to_nat (digits_number s)))
| g_var p s : GNodeRef [(p, TVarRef s)] (Name s).
(** l.515-526 *)
Inductive GRange : list ptoken → range_spec → Prop :=
| g_min_max ts p q r a b : (ts = [] ∨ ∃ o, ts = [(o, TComma)]) → GRange (ts ++ [(p, TDigits a); (q, TComma); (r, TDigits b)]) (RBound (usize_or_zero a) (usize_or_zero b))
| g_exactly ts p a : (ts = [] ∨ ∃ o, ts = [(o, TComma)]) → GRange (ts ++ [(p, TDigits a)]) (RBound (usize_or_zero a) (usize_or_zero a))
| g_star p : GRange [(p, TStar)] RUnbound.
(** RangeSpec? *)
Inductive GOptRange : list ptoken → range_spec → Prop :=
| g_no_range : GOptRange [] (RBound 1 1)
| g_range ts r : GRange ts r → GOptRange ts r.
(** l.469-513 *)
Definition edge_spec (q : option bytes * bytes) (equal : bool) (t : bytes * bool) : edge_label :=
  match t with
  | (v, false) => if equal then LExact q.1 q.2 (Some v) else LNotExact q.1 q.2 v
  | (v, true) => if equal then LRegex q.1 q.2 v else LNotRegex q.1 q.2 v
  end.
Inductive GEdgeAnno : list ptoken → edge_label → Prop :=
| g_edge_anno p p' ts1 ts2 ts3 q c t : GQName ts1 q → GComparison ts2 c → GTextSearch ts3 t →
    GEdgeAnno ((p, TLBr) :: ts1 ++ ts2 ++ ts3 ++ [(p', TRBr)]) (edge_spec q c t).
Definition segmentation (s : bytes) : option bytes := match s with [] => None | _ => Some s end.
(** l.320-438 *)
Inductive GBinaryOp : list ptoken → aql_bop → Prop :=
| g_dom_anno p s ts a : GEdgeAnno ts a → GBinaryOp ((p, TDom s) :: ts) (BDominance s (RBound 1 1) (Some a))
| g_dom p s ts r : GOptRange ts r → GBinaryOp ((p, TDom s) :: ts) (BDominance s r None)
| g_point_anno p s ts a : GEdgeAnno ts a → GBinaryOp ((p, TPoint s) :: ts) (BPointing s (RBound 1 1) (Some a))
| g_point p s ts r : GOptRange ts r → GBinaryOp ((p, TPoint s) :: ts) (BPointing s r None)
| g_prec p s ts r : GOptRange ts r → GBinaryOp ((p, TPrec s) :: ts) (BPrecedence (segmentation s) r)
| g_near p s ts r : GOptRange ts r → GBinaryOp ((p, TNear s) :: ts) (BNear (segmentation s) r)
| g_part_of p ts r : GOptRange ts r → GBinaryOp ((p, TAt) :: ts) (BPartOf r)
| g_overlap p : GBinaryOp [(p, TOverlap)] BOverlap
| g_ident_cov p : GBinaryOp [(p, TIdentCov)] BIdentCov
| g_inclusion p : GBinaryOp [(p, TInclusion)] BInclusion
| g_left p : GBinaryOp [(p, TLeft)] BLeft
| g_right p : GBinaryOp [(p, TRight)] BRight
| g_ident_node p : GBinaryOp [(p, TIdentNode)] BIdentNode.
(** l.441-444 *)
Inductive GFilterOp : list ptoken → aql_bop → Prop :=
| g_eqeq p : GFilterOp [(p, TEqEq)] (BCompare true)
| g_neq p : GFilterOp [(p, TNotEq)] (BCompare false).
(** (VARIABLE_DEF)? NodeSearch "?"? of l.68-73 and l.185-191: start, specification, variable and optional *)
Inductive GNode : list ptoken → nat * spec * option bytes * bool → Prop :=
| g_node vs ts os p t ts' var sp optional : (vs = [] ∧ var = None ∨ ∃ q s, vs = [(q, TVarDef s)] ∧ var = Some s) → GNodeSearch ts sp →
    (os = [] ∧ optional = false ∨ ∃ q, os = [(q, TOptional)] ∧ optional = true) → vs ++ ts ++ os = (p, t) :: ts' → GNode (vs ++ ts ++ os) (p, sp, var, optional).
(** l.183-192 *)
Inductive GOperand : list ptoken → aql_operand → Prop :=
| g_operand_ref ts v : GNodeRef ts v → GOperand ts (ORef v)
| g_operand_node ts p sp var optional : GNode ts (p, sp, var, optional) → GOperand ts (OLit sp p var optional).
(** "!"? *)
Definition GNeg (ts : list ptoken) (neg : bool) : Prop := ts = [] ∧ neg = false ∨ ∃ p, ts = [(p, TBang)] ∧ neg = true.
(** l.74-99: the operators so far and the last operand *)
Inductive GChain : list ptoken → aql_expr → aql_operand → Prop :=
| g_chain ts1 ts2 ts3 ts4 lhs neg op rhs : GOperand ts1 lhs → GNeg ts2 neg → GBinaryOp ts3 op → GOperand ts4 rhs →
    GChain (ts1 ++ ts2 ++ ts3 ++ ts4) (Terminal (LBin lhs op rhs neg)) rhs
| g_chain_more ts1 ts2 ts3 ts4 e last neg op rhs : GChain ts1 e last → GNeg ts2 neg → GBinaryOp ts3 op → GOperand ts4 rhs →
    GChain (ts1 ++ ts2 ++ ts3 ++ ts4) (And e (Terminal (LBin last op rhs neg))) rhs.
(** l.100-126 *)
Inductive GFilter : list ptoken → aql_expr → vname → Prop :=
| g_filter ts1 ts2 ts3 v op w : GNodeRef ts1 v → GFilterOp ts2 op → GNodeRef ts3 w → GFilter (ts1 ++ ts2 ++ ts3) (Terminal (LBin (ORef v) op (ORef w) false)) w
| g_filter_more ts1 ts2 ts3 e v op w : GFilter ts1 e v → GFilterOp ts2 op → GNodeRef ts3 w → GFilter (ts1 ++ ts2 ++ ts3) (And e (Terminal (LBin (ORef v) op (ORef w) false))) w.
(** l.67-181, l.447-455 *)
Inductive GLiteral : list ptoken → aql_expr → Prop :=
| g_search ts p sp var optional : GNode ts (p, sp, var, optional) → GLiteral ts (Terminal (LNode sp p var optional))
| g_binary ts e last : GChain ts e last → GLiteral ts e
| g_binary_filter ts e last : GFilter ts e last → GLiteral ts e
| g_unary ts1 p q ts2 v r : GNodeRef ts1 v → GRange ts2 r → GLiteral (ts1 ++ (p, TArity) :: (q, TEq) :: ts2) (Terminal (LUn v (UArity r)))
| g_meta p ts1 ts2 ts3 q c t : GQName ts1 q → GComparison ts2 c → GTextSearch ts3 t → GLiteral ((p, TMeta) :: ts1 ++ ts2 ++ ts3) (Terminal (LMeta (anno_spec true q c t))).
(** l.42-65 *)
Inductive GDisjunction : list ptoken → aql_expr → Prop :=
| g_disjunction ts e : GConjunction ts e → GDisjunction ts e
| g_or ts1 p ts2 e1 e2 : GDisjunction ts1 e1 → GConjunction ts2 e2 → GDisjunction (ts1 ++ (p, TOr) :: ts2) (Or e1 e2)
with GConjunction : list ptoken → aql_expr → Prop :=
| g_conjunction ts e : GFactor ts e → GConjunction ts e
| g_and ts1 p ts2 e1 e2 : GConjunction ts1 e1 → GFactor ts2 e2 → GConjunction (ts1 ++ (p, TAnd) :: ts2) (And e1 e2)
with GFactor : list ptoken → aql_expr → Prop :=
| g_literal ts e : GLiteral ts e → GFactor ts e
| g_group p q ts e : GDisjunction ts e → GFactor ((p, TLPar) :: ts ++ [(q, TRPar)]) e.
