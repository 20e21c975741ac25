(** Model of the searches for single nodes: /repo/graphannis/src/annis/db/exec/nodesearch.rs.
    Simplifications: errors of the storages, timeouts and estimates are left out. The regular expression engine is a parameter [rx]
    (None: the pattern is invalid), and so is the extraction of the only string matched by a pattern, [exact]
    (/repo/graphannis/src/annis/util/mod.rs l.14-27). *)
From stdpp Require Import base list gmap.
From Coq Require Import NArith.
From Verif Require Import KeySer SortedMap Types SymbolTable AnnoMem Adjacency Storage GraphApply TokenHelper SortMatches QuickSort TokenSearch.

(** l.46-88: NodeSearchSpec *)
Inductive spec :=
| SExact (ns : option bytes) (name : bytes) (val : option bytes) (is_meta : bool)
| SNotExact (ns : option bytes) (name val : bytes) (is_meta : bool)
| SRegex (ns : option bytes) (name pat : bytes) (is_meta : bool)
| SNotRegex (ns : option bytes) (name pat : bytes) (is_meta : bool)
| STokExact (val : bytes) (leafs_only : bool)
| STokNotExact (val : bytes)
| STokRegex (pat : bytes) (leafs_only : bool)
| STokNotRegex (pat : bytes)
| SAnyTok
| SAnyNode.

Notation condition := (match_ → option bool).
(** "node" *)
Definition str_node : bytes := [110; 111; 100; 101]%N.

(** l.113-134 *)
Definition spec_qname (s : spec) : option bytes * bytes :=
  match s with
  | SExact ns name _ _ | SNotExact ns name _ _ | SRegex ns name _ _ | SNotRegex ns name _ _ => (ns, name)
  | STokExact _ _ | STokNotExact _ | STokRegex _ _ | STokNotRegex _ | SAnyTok => (Some (ak_ns tok_key), ak_name tok_key)
  | SAnyNode => (Some (ak_ns node_type_key), ak_name node_type_key)
  end.

Section Search.
Context (rx : bytes → option (bytes → bool)) (exact : bytes → option bytes) (db : corpus).

(** l.145-154 and the other filters on the value: the value of the annotation of the match is tested *)
Definition on_value (test : bytes → bool) : condition :=
  λ m, Some (match am_get_value (cp_annos db) m.1 m.2 with Some v => test v | None => false end).
(** l.355-378 *)
Definition is_leaf (n : N) : bool := negb (existsb (λ gs, gs_has_out gs n) (cov_edges db)).
Definition leaf_filter : condition := λ m, Some (is_leaf m.1).
Definition eq_value (x : bytes) : bytes → bool := λ v, bool_decide (v = x).
Definition neq_value (x : bytes) : bytes → bool := λ v, negb (bool_decide (v = x)).

(** l.136-295; None: the regular expression is not valid *)
Definition value_filter (s : spec) : option (list condition) :=
  match s with
  | SExact _ _ None _ => Some []
  | SExact _ _ (Some x) _ => Some [on_value (eq_value x)]
  | SNotExact _ _ x _ => Some [on_value (neq_value x)]
  | SRegex _ _ p _ => re ← rx p; Some [on_value re]
  | SNotRegex _ _ p _ => re ← rx p; Some [on_value (λ v, negb (re v))]
  | STokExact x leafs => Some (on_value (eq_value x) :: if leafs then [leaf_filter] else [])
  | STokNotExact x => Some [on_value (neq_value x); leaf_filter]
  | STokRegex p leafs => re ← rx p; Some (on_value re :: if leafs then [leaf_filter] else [])
  | STokNotRegex p => re ← rx p; Some [on_value (λ v, negb (re v)); leaf_filter]
  | SAnyTok => Some [leaf_filter]
  | SAnyNode => Some [on_value (eq_value str_node)]
  end.

(** l.19-27 (NodeSearch) and /repo/graphannis/src/annis/db/exec/mod.rs NodeSearchDesc *)
Record search := Search {
  se_items : out (list match_);
  se_qname : option bytes * bytes;
  se_cond : list condition;
  se_const : option anno_key;
  se_sorted : bool
}.

(** itertools unique_by with the match itself as key *)
Fixpoint unique (seen l : list match_) : list match_ :=
  match l with
  | [] => []
  | m :: r => if decide (m ∈ seen) then unique seen r else m :: unique (m :: seen) r
  end.
(** l.578-623 and l.700-741 *)
Definition meta_output (is_meta : bool) (name : bytes) (base : list match_) : list match_ :=
  if is_meta then
    (λ m, (m.1, node_type_key)) <$>
      (if decide (length (am_get_qnames (cp_annos db) name) <= 1) then base else unique [] base)
  else base.
(** l.565-681 *)
Definition annosearch_exact (ns : option bytes) (name : bytes) (val : value_search) (filters : list condition) (is_meta : bool) : search :=
  Search (Done (meta_output is_meta name (am_exact_search (cp_annos db) ns name val))) (ns, name) filters
    (if is_meta then Some node_type_key else None) false.
(** l.683-784 *)
Definition annosearch_regex (ns : option bytes) (name pat : bytes) (negated : bool) (filters : list condition) (is_meta : bool) : search :=
  Search (Done (meta_output is_meta name (am_regex_search (cp_annos db) ns name (rx pat) negated))) (ns, name) filters
    (if is_meta then Some node_type_key else None) false.
(** l.786-932; [val] is not ValueSearch::Any in any call *)
Definition tokensearch (val : bytes) (negated : bool) (filters : list condition) (leafs_only match_regex : bool) : search :=
  let ns := Some (ak_ns tok_key) in
  let name := ak_name tok_key in
  let base := if match_regex then am_regex_search (cp_annos db) ns name (rx val) negated
              else am_exact_search (cp_annos db) ns name (if negated then VNotSome val else VSome val) in
  let base := if leafs_only then filter (λ m, is_leaf m.1 = true) base else base in
  Search (Done ((λ m, (m.1, node_type_key)) <$> base)) (ns, name) filters (Some node_type_key) false.
(** l.934-987 *)
Definition anytoken_search (fuel : nat) (rnd : nat → nat) : search :=
  Search (token_search fuel rnd db) (Some (ak_ns tok_key), ak_name tok_key) [leaf_filter] (Some node_type_key) true.

(** l.381-563 *)
Definition from_spec (fuel : nat) (rnd : nat → nat) (s : spec) : option search :=
  filters ← value_filter s;
  Some match s with
  | SExact ns name val meta => annosearch_exact ns name (match val with Some v => VSome v | None => VAny end) filters meta
  | SNotExact ns name val meta => annosearch_exact ns name (VNotSome val) filters meta
  | SRegex ns name p meta =>
      match exact p with
      | Some v => annosearch_exact ns name (VSome v) filters meta
      | None => annosearch_regex ns name p false filters meta
      end
  | SNotRegex ns name p meta =>
      match exact p with
      | Some v => annosearch_exact ns name (VNotSome v) filters meta
      | None => annosearch_regex ns name p true filters meta
      end
  | STokExact v leafs => tokensearch v false filters leafs false
  | STokNotExact v => tokensearch v true filters true false
  | STokRegex p leafs => tokensearch p false filters leafs true
  | STokNotRegex p => tokensearch p true filters true true
  | SAnyTok => anytoken_search fuel rnd
  | SAnyNode =>
      Search (Done (am_exact_search (cp_annos db) (Some (ak_ns node_type_key)) (ak_name node_type_key) (VSome str_node)))
        (Some (ak_ns node_type_key), ak_name node_type_key) [on_value (eq_value str_node)] (Some node_type_key) false
  end.

(** The keys which are joined by an index join (Joins.v): indexjoin.rs l.100-112 *)
Definition search_keys (s : search) (n : N) : list anno_key :=
  am_get_all_keys (cp_annos db) n (se_qname s).1 (Some (se_qname s).2).

(** /repo/graphannis/src/annis/operator.rs l.8-29: EdgeAnnoSearchSpec::ExactValue; the other ones are not used by
    [component_search] *)
Record edge_anno := EdgeAnno { ea_ns : option bytes; ea_name : bytes; ea_val : option bytes }.
(** l.1003-1036 *)
Definition component_nodes (comps : list storage) (ea : option edge_anno) : list N :=
  mjoin ((λ gs, match ea with
                | Some e => (λ m, source m.1) <$> am_exact_search (gs_annos gs) (ea_ns e) (ea_name e)
                              (match ea_val e with Some v => VSome v | None => VAny end)
                | None => gs_sources gs
                end) <$> comps).
(** l.1037-1068 *)
Definition meets_all (cond : list condition) (m : match_) : bool := forallb (λ f, match f m with Some b => b | None => false end) cond.
(** l.989-1076: the search replaced by one for the source nodes of the components *)
Definition component_search (s : search) (comps : list storage) (ea : option edge_anno) : search :=
  Search (Done (filter (λ m, meets_all (se_cond s) m = true)
                  (mjoin ((λ n, (λ k, (n, k)) <$> search_keys s n) <$> component_nodes comps ea))))
    (se_qname s) (se_cond s) (se_const s) false.
End Search.
