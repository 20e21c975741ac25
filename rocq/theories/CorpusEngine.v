(** Model of the parts of queries for one corpus: which searches and operators are created for the descriptions in a query
    (/repo/graphannis/src/annis/db/aql/operators/, /repo/graphannis/src/annis/db/exec/nodesearch.rs), joined from NodeSearch.v, TokenOps.v,
    EdgeOps.v and NonExisting.v to the engine of EndToEnd.v.
    Simplifications: comparisons of values (equal_value.rs, see EqualValue.v) have no operator in this engine; searches are not replaced by
    searches in the components of an operator (conjunction.rs l.551-614, see SearchChoice.v); an operator which cannot be created is [KNone] and holds for
    nothing, where the code rejects the query; the estimates of the operands decide only [cheap]. *)
From stdpp Require Import base list gmap.
From Coq Require Import NArith.
From Verif Require Import KeySer SortedMap Types SymbolTable AnnoMem Adjacency Storage GraphApply TokenHelper SortMatches Joins QuickSort TokenSearch
  NodeSearch RelAnnis TokenOps EdgeOps NonExisting Conjunction Query AqlGrammar EndToEnd.

(** The operators for a corpus *)
Inductive corpus_op :=
| KToken (o : token_op)
| KEdge (o : edge_op)
| KSame
| KNegated (o : corpus_op)
| KNone.
(** model.rs l.62-77: Ordering has the number 4; precedence.rs l.104-113, near.rs l.93-102: the ordering component of a segmentation *)
Definition seg_component (seg : bytes) : cname := CName 4 seg default_ns.

Section Engine.
(** The regular expressions, the corpus, its components, the order of hash sets, the fuel and the random numbers of the sort of tokens *)
Context (rx : bytes → option (bytes → bool)) (exact : bytes → option bytes) (db : corpus) (cs : components).
Context (hash : gset N → list N) (fuel : nat) (rnd : nat → nat).
(** What depends on estimates and statistics: BaseEdgeOpSpec::create_operator of part-of relations, inverse_has_same_cost and the fan-out *)
Context (cheap : bool) (same_cost narrow : storage → bool).
(** The token helper and the ordering component *)
Context (th : helper) (order : storage).

(** precedence.rs l.102-143, near.rs l.91-119 *)
Definition with_segmentation (o : option storage → token_op) (seg : option bytes) : option corpus_op :=
  match seg with
  | None => Some (KToken (o None))
  | Some s => gs ← get_storage cs (seg_component s); Some (KToken (o (Some gs)))
  end.
(** ast.rs l.90-107 and the functions create_operator of the operators; parser.lalrpop l.426: overlap is not reflexive *)
Definition create_op (o : aql_bop) : option corpus_op :=
  match o with
  | BDominance name dist anno => KEdge <$> create cs cheap (QDominance name dist anno)
  | BPointing name dist anno => KEdge <$> create cs cheap (QPointing name dist anno)
  | BPartOf dist => KEdge <$> create cs cheap (QPartOf dist)
  | BPrecedence seg dist => with_segmentation (λ s, OPrecedence s dist) seg
  | BNear seg dist => with_segmentation (λ s, ONear s dist) seg
  | BOverlap => Some (KToken (OOverlap false))
  | BIdentCov => Some (KToken OIdenticalCoverage)
  | BInclusion => Some (KToken OInclusion)
  | BLeft => Some (KToken OLeftAlignment)
  | BRight => Some (KToken ORightAlignment)
  | BIdentNode => Some KSame
  | BCompare _ => None
  end.
(** filter_match and retrieve_matches; negated_op.rs l.27-37 *)
Fixpoint binop_of (k : corpus_op) : binop :=
  match k with
  | KToken o => token_binop hash th order o
  | KEdge o => edge_binop rx o
  | KSame => same_node_binop
  | KNegated o => negated (binop_of o)
  | KNone => BaseOp (λ _ _, false)
  end.
(** is_reflexive: TokenOps.v, operator.rs l.133-135, edge_op.rs l.320-322, negated_op.rs l.72-74 *)
Fixpoint reflexive_op (k : corpus_op) : bool :=
  match k with
  | KToken o => op_reflexive o
  | KEdge o => eo_reflexive o
  | KSame => true
  | KNegated o => reflexive_op o
  | KNone => true
  end.
(** get_inverse_operator: TokenOps.v, EdgeOps.v, identical_node.rs l.59-64; a negated operator has none *)
Definition inverse_op (k : corpus_op) : option corpus_op :=
  match k with
  | KToken o => KToken <$> op_inverse order same_cost o
  | KEdge o => KEdge <$> edge_inverse same_cost narrow o
  | KSame => Some KSame
  | KNegated _ | KNone => None
  end.
(** operator.rs l.137-145: retrieved nodes have the key DEFAULT_ANNO_KEY *)
Definition retrieve_op (k : corpus_op) : option (match_ → option (list match_)) :=
  match binop_of k with
  | IndexOp _ retrieve => Some (λ m, Some ((λ n, (n, AnnoKey [] [])) <$> retrieve m))
  | BaseOp _ => None
  end.
(** negated_op.rs l.27-37 *)
Definition create_for (o : aql_bop * bool) : corpus_op :=
  match create_op o.1 with Some k => if o.2 then KNegated k else k | None => KNone end.
(** negated_op.rs l.19-21, equal_value.rs l.45-47, operator.rs: is_binding *)
Definition binding (o : aql_bop * bool) : bool := negb o.2 && match o.1 with BCompare _ => false | _ => true end.
(** nodesearch.rs l.381-563: what the execution nodes use of a search *)
Definition search_for (sp : spec) : option Conjunction.search :=
  se ← from_spec rx exact db fuel rnd sp;
  Some (Conjunction.Search (match se_items se with Done l => (λ m, IOk [m]) <$> l | Failed | NoFuel => [IErr] end)
          (search_keys db se) (se_cond se) (se_const se)).
(** arity.rs l.68-88, non_existing.rs l.89-123 *)
Definition unary_for (u : unary spec aql_bop aql_uop) (m : match_) : option bool :=
  match u with
  | UOp (UArity range) => Some (arity_filter cs range m.1)
  | UNonExisting o target is_left =>
      k ← create_op o; not_exists rx exact db fuel rnd target is_left (binop_of k) (binop_of <$> inverse_op k) m
  end.
Definition corpus_engine : engine spec aql_bop aql_uop corpus_op :=
  Engine search_for unary_for create_for binding (λ k lhs rhs, Some (op_check (binop_of k) lhs rhs)) reflexive_op retrieve_op inverse_op.
End Engine.
