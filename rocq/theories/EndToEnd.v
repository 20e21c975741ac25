(** Model of the way from the alternatives of a query to its results: the plans of all alternatives and the nodes of the output
    (/repo/graphannis/src/annis/db/aql/mod.rs l.64-105, 107-280, conjunction.rs l.286-368, plan.rs l.27-92).
    The parts of the engine are parameters: the node search for a description (NodeSearch::from_spec), the operators with their filter,
    retrieval and inverse (see Conjunction.v), and the unary operators, with the test for non-existing nodes as one of them.
    Simplifications: as in Query.v (no quirks mode), Conjunction.v and Plan.v; operators are created without the estimates of their
    operands, and their creation does not fail. *)
From Coq Require Import NArith String.
From stdpp Require Import base list gmap pretty.
From Verif Require Import KeySer CompPath Types SortMatches Joins JoinsSpec Conjunction ConjunctionSpec Plan Query.

Section EndToEnd.
Context {Spec Bop Uop Op : Type}.
(** [Bop] and [Uop] are descriptions of operators, [Op] the binary operators that are created for them; the flag tells if an operator is
    negated (negated_op.rs) *)
Record engine := Engine {
  e_search : Spec → option search;
  e_unary : unary Spec Bop Uop → match_ → option bool;
  e_create : Bop * bool → Op;
  e_binding : Bop * bool → bool;
  e_filter : Op → match_ → match_ → option bool;
  e_reflexive : Op → bool;
  e_retrieve : Op → option (match_ → option (list match_));
  e_inverse : Op → option Op }.
Context (E : engine).

(** conjunction.rs l.286-368 and l.551-662: the searches and operators of the conjunction; aql/mod.rs l.220-223 and 258: the restriction of
    operators that are not reflexive applies to the whole match *)
Definition compile (q : qconj Spec Bop Uop) : conj (Op := Op) :=
  Conj ((λ n, QNode n.2 (e_search E n.1.2)) <$> c_nodes q) ((λ u, (u.2, e_unary E u.1)) <$> c_unary q)
       ((λ b, Bin (e_create E b.1.1) b.1.2 b.2 true (e_binding E b.1.1)) <$> c_binary q) (c_offset q).
(** conjunction.rs l.293-299: the name of a variable *)
Definition var_text (v : vname) : list N := match v with Num k => str (pretty k) | Name s => s end.
(** conjunction.rs l.300-312, 390-404 *)
Definition vars_of (q : qconj Spec Bop Uop) : alt_vars :=
  AltVars (c_offset q) ((λ n, (var_text n.1.1, bool_decide (n.1.1 ∈ c_output q))) <$> c_nodes q).

(** A plan of a conjunction and what it yields: any order of the operators, any decision of the optimizer *)
Definition plan_yields (parallel : bool) (loop_buffer index_buffer : nat) (outer_left : exec → exec → bool) (switch : bin → bool)
    (q : conj (Op := Op)) (alt : alternative) : Prop :=
  ∃ order e out, order ≡ₚ seq 0 (length (q_binary q)) ∧ make_exec_plan_with_order (e_retrieve E) (e_inverse E) outer_left switch q order = Some e ∧
    emits (e_filter E) (e_reflexive E) (e_retrieve E) parallel loop_buffer index_buffer e out ∧ alt = AOk (node_pos e) out.
(** aql/mod.rs l.64-105 for the alternatives of a query: they are mapped, the parts of each are connected, each has a plan *)
Definition answers (parallel : bool) (loop_buffer index_buffer : nat) (outer_left : exec → exec → bool) (switch : bin → bool)
    (lits : list (list (literal Spec Bop Uop))) (alts : list alternative) (out : list item) : Prop :=
  ∃ qs, map_alternatives 0 lits = Some qs ∧ (∀ q, q ∈ qs → check_components_connected (compile q) = None) ∧
    Forall2 (plan_yields parallel loop_buffer index_buffer outer_left switch) (compile <$> qs) alts ∧
    execute_query alts (vars_of <$> qs) = Some out.
End EndToEnd.
Arguments engine : clear implicits.
