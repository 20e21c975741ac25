(** Model of negated operators: /repo/graphannis/src/annis/db/aql/operators/negated_op.rs and non_existing.rs.
    Simplifications: estimates, timeouts and the query text are left out; the check of an operator is a total function, see TokenOps.v
    and EdgeOps.v; its candidates are nodes since their annotation is ignored (non_existing.rs l.142-148). *)
From stdpp Require Import base list gmap.
From Coq Require Import NArith.
From Verif Require Import KeySer SortedMap Types SymbolTable AnnoMem Adjacency Storage GraphApply TokenHelper SortMatches QuickSort TokenSearch
  NodeSearch TokenOps EdgeOps.

(** /repo/graphannis/src/annis/operator.rs l.153-159: BinaryOperator *)
Inductive binop :=
| BaseOp (check : match_ → match_ → bool)
| IndexOp (check : match_ → match_ → bool) (retrieve : match_ → list N).
(** operator.rs l.170-180 *)
Definition op_check (op : binop) : match_ → match_ → bool := match op with BaseOp f | IndexOp f _ => f end.

(** negated_op.rs l.27-37 and l.63-68: a negated operator is never an index operator *)
Definition negated (op : binop) : binop := BaseOp (λ lhs rhs, negb (op_check op lhs rhs)).

Section NonExisting.
Context (rx : bytes → option (bytes → bool)) (exact : bytes → option bytes) (db : corpus) (fuel : nat) (rnd : nat → nat).

(** non_existing.rs l.168-177: all filters are evaluated; None is an error *)
Fixpoint all_filters (fs : list condition) (c : match_) (ok : bool) : option bool :=
  match fs with
  | [] => Some ok
  | f :: r => match f c with Some b => all_filters r c (if b then ok else false) | None => None end
  end.
(** l.166-184 *)
Fixpoint no_candidate (fs : list condition) (cands : list match_) : option bool :=
  match cands with
  | [] => Some true
  | c :: r => match all_filters fs c true with Some true => Some false | Some false => no_candidate fs r | None => None end
  end.
(** l.140-185: errors while creating the filters are ignored (unwrap_or_default) *)
Definition index_not_exists (target : spec) (retrieve : match_ → list N) (m : match_) : option bool :=
  let '(ns, name) := spec_qname target in
  let candidates := am_get_keys_for_iterator (cp_annos db) ns (Some name) (retrieve m) in
  no_candidate (default [] (value_filter rx db target)) candidates.

(** l.222-256 *)
Fixpoint no_item (test : match_ → bool) (items : list match_) : option bool :=
  match items with
  | [] => Some true
  | x :: r => if test x then Some false else no_item test r
  end.
Definition filter_not_exists (target : spec) (target_left : bool) (check : match_ → match_ → bool) (m : match_) : option bool :=
  match from_spec rx exact db fuel rnd target with
  | Some search =>
      match se_items search with
      | Done items => no_item (if target_left then (λ x, check x m) else (λ x, check m x)) items
      | Failed | NoFuel => None
      end
  | None => Some false
  end.

(** l.89-123; [inverse] is the result of get_inverse_operator *)
Definition not_exists (target : spec) (target_left : bool) (op : binop) (inverse : option binop) : match_ → option bool :=
  let '(op, target_left) :=
    if target_left then match inverse with Some inv => (inv, false) | None => (op, true) end else (op, false) in
  if negb target_left then
    match op with
    | IndexOp _ retrieve => index_not_exists target retrieve
    | BaseOp check => filter_not_exists target target_left check
    end
  else filter_not_exists target target_left (op_check op).
End NonExisting.

(** The operators of TokenOps.v and EdgeOps.v; all of them can be used with an index *)
Definition token_binop (hash : gset N → list N) (th : helper) (order : storage) (op : token_op) : binop :=
  IndexOp (op_filter th order op) (op_retrieve hash th order op).
Definition edge_binop (rx : bytes → option (bytes → bool)) (op : edge_op) : binop :=
  IndexOp (λ lhs rhs, edge_filter rx op lhs.1 rhs.1) (λ lhs, edge_retrieve rx op lhs.1).
Definition same_node_binop : binop := IndexOp (λ lhs rhs, identical_node_filter lhs.1 rhs.1) (λ lhs, identical_node_retrieve lhs.1).
