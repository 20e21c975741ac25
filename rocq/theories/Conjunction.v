(** Model of the planning of a conjunction (/repo/graphannis/src/annis/db/aql/conjunction.rs).
    Simplifications: a node search is given by the items it yields and its description for index joins (a search that was
    replaced by a search in the components of an operator, l.551-614, is given by the items of the latter); costs are left
    out: [outer_left] and [switch] are the decisions which depend on them (nestedloop.rs l.33-39, conjunction.rs l.705-718),
    [plan_cost] the cost of a plan; errors are None; names of variables and texts of errors are left out. *)
From stdpp Require Import base list gmap.
From Coq Require Import NArith.
From Verif Require Import Types SortMatches Joins JoinsSpec.

(** exec/nodesearch.rs: NodeSearch and NodeSearchDesc *)
Record search := Search { s_items : list item; s_keys : N → list anno_key; s_cond : list (match_ → option bool); s_const : option anno_key }.
(** l.60-66: NodeSearchSpecEntry; [n_search] is the result of NodeSearch::from_spec *)
Record qnode := QNode { n_optional : bool; n_search : option search }.

(** l.116-137 *)
Definition update_components (m : gmap nat nat) (from to : nat) : gmap nat nat :=
  if decide (from = to) then m else (λ v, if decide (v = from) then to else v) <$> m.

Section Conj.
(** operator.rs: a BinaryOperator with filter_match, is_reflexive, retrieve_matches (if it is an index operator) and
    get_inverse_operator *)
Context {Op : Type} (ofilter : Op → match_ → match_ → option bool) (oreflexive : Op → bool)
        (oretrieve : Op → option (match_ → option (list match_))) (oinverse : Op → option Op).

(** l.36-58: BinaryOperatorSpecEntry; the operands are numbers of nodes counted over all alternatives *)
Record bin := Bin { b_op : Op; b_left : nat; b_right : nat; b_global : bool; b_binding : bool }.
(** l.84-98 *)
Record conj := Conj { q_nodes : list qnode; q_unary : list (nat * (match_ → option bool)); q_binary : list bin; q_offset : nat }.

(** ** Check of the connections *)
(** l.900-912 *)
Definition initial_components (q : conj) : gmap nat nat :=
  list_to_map (omap (λ p, if n_optional p.2 then None else Some (q_offset q + p.1, q_offset q + p.1)) (imap pair (q_nodes q))).
(** l.914-936 *)
Definition merge_operands (m : gmap nat nat) (b : bin) : gmap nat nat :=
  if b_binding b then
    match m !! b_left b, m !! b_right b with
    | Some cl, Some cr => update_components (update_components m cl cl) cr cl
    | _, _ => m
    end
  else m.
(** l.938-957: the components in the order of the nodes *)
Fixpoint first_mismatch (first : option nat) (l : list (nat * nat)) : option nat :=
  match l with
  | [] => None
  | (n, c) :: r => match first with
                   | None => first_mismatch (Some c) r
                   | Some f => if decide (f = c) then first_mismatch first r else Some n
                   end
  end.
(** l.897-960: the number of the node which is not bound *)
Definition check_components_connected (q : conj) : option nat :=
  let m := fold_left merge_operands (q_binary q) (initial_components q) in
  first_mismatch None (omap (λ n, (λ c, (n, c)) <$> m !! n) (seq (q_offset q) (length (q_nodes q)))).

(** ** Execution nodes *)
Inductive exec :=
  | ESearch (nr : nat) (s : search)
  | EUnary (u : match_ → option bool) (idx : nat) (e : exec)
  | EFilter (o : Op) (li ri : nat) (e : exec)
  | ENested (o : Op) (glob left_is_outer : bool) (li ri : nat) (l r : exec)
  | EIndex (o : Op) (glob : bool) (li : nat) (l : exec) (nr : nat) (s : search).
(** exec/mod.rs: ExecutionNodeDesc: component_nr and node_pos; for node searches see conjunction.rs l.650-662 *)
Fixpoint component_nr (e : exec) : nat :=
  match e with
  | ESearch nr _ => nr
  | EUnary _ _ e | EFilter _ _ _ e => component_nr e
  | ENested _ _ lo _ _ l r => if lo then component_nr l else component_nr r
  | EIndex _ _ _ l _ _ => component_nr l
  end.
Fixpoint node_pos (e : exec) : gmap nat nat :=
  match e with
  | ESearch nr _ => {[nr := 0]}
  | EUnary _ _ e | EFilter _ _ _ e => node_pos e
  | ENested _ _ lo _ _ l r => if lo then join_pos (node_pos l) (node_pos r) else join_pos (node_pos r) (node_pos l)
  | EIndex _ _ _ l nr _ => join_pos (node_pos l) {[nr := 0]}
  end.
(** exec/mod.rs l.199, nodesearch.rs l.1092 *)
Definition as_nodesearch (e : exec) : option (nat * search) := match e with ESearch nr s => Some (nr, s) | _ => None end.

(** What an execution node yields; [parallel] is Config::use_parallel_joins *)
Context (parallel : bool) (loop_buffer index_buffer : nat).
Inductive emits : exec → list item → Prop :=
  | emits_search nr s : emits (ESearch nr s) (s_items s)
  | emits_unary u idx e l : emits e l → emits (EUnary u idx e) (filter_unary u idx l)
  | emits_filter o li ri e l : emits e l → emits (EFilter o li ri e) (filter_binary (ofilter o) li ri l)
  | emits_nested o glob lo li ri l r ol or out :
      emits l ol → emits r or →
      (if parallel then parallel_loop (ofilter o) (oreflexive o) glob lo loop_buffer li ri ol or out
       else sequential_loop (ofilter o) (oreflexive o) glob lo li ri ol or out) →
      emits (ENested o glob lo li ri l r) out
  | emits_index o glob li l nr s f ol out :
      emits l ol → oretrieve o = Some f →
      (if parallel then pij_yields (oreflexive o) glob li f (s_keys s) (s_cond s) (s_const s) index_buffer ol out
       else yields (ij_next (oreflexive o) glob li f (s_keys s) (s_cond s) (s_const s)) (ij_new ol) out) →
      emits (EIndex o glob li l nr s) out.

(** ** Planning *)
Context (outer_left : exec → exec → bool) (switch : bin → bool).
(** l.173-228 (and 139-171) *)
Definition create_join (o : Op) (glob : bool) (l r : exec) (li ri : nat) : exec :=
  let otherwise := ENested o glob (outer_left l r) li ri l r in
  let second := match as_nodesearch l, oinverse o with
                | Some (nr, s), Some o' => if oretrieve o' then EIndex o' glob ri r nr s else otherwise
                | _, _ => otherwise
                end in
  match as_nodesearch r, oretrieve o with
  | Some (nr, s), Some _ => EIndex o glob li l nr s
  | _, _ => second
  end.

(** l.100-114: node2component and component2exec *)
Record state := State { n2c : gmap nat nat; c2e : gmap nat exec }.
(** l.732-750: the operator and its operands in the order of execution *)
Definition oriented (q : conj) (b : bin) : Op * nat * nat :=
  match oinverse (b_op b) with
  | Some o' => if switch b then (o', b_right b - q_offset q, b_left b - q_offset q)
               else (b_op b, b_left b - q_offset q, b_right b - q_offset q)
  | None => (b_op b, b_left b - q_offset q, b_right b - q_offset q)
  end.
(** l.720-826 *)
Definition add_binary_operator (q : conj) (st : state) (b : bin) : option state :=
  let '(o, l, r) := oriented q b in
  cl ← n2c st !! l;
  cr ← n2c st !! r;
  el ← c2e st !! cl;
  il ← node_pos el !! l;
  new ← (if decide (cl = cr) then ir ← node_pos el !! r; Some (EFilter o il ir el)
         else er ← delete cl (c2e st) !! cr;
              ir ← node_pos er !! r;
              Some (create_join o (b_global b) el er il ir));
  let c := component_nr new in
  Some (State (update_components (update_components (n2c st) cl c) cr c)
              (<[c := new]> (if decide (cl = cr) then delete cl (c2e st) else delete cr (delete cl (c2e st))))).

(** l.616-687, 848-853: all the non-optional nodes; the second component tells whether a node search failed *)
Fixpoint add_nodes (i : nat) (ns : list qnode) (st : state) : state * bool :=
  match ns with
  | [] => (st, false)
  | n :: r => if n_optional n then add_nodes (S i) r st
              else match n_search n with
                   | Some s => add_nodes (S i) r (State (<[i := i]> (n2c st)) (<[i := ESearch i s]> (c2e st)))
                   | None => let '(st', _) := add_nodes (S i) r st in (st', true)
                   end
  end.
(** l.855-872 *)
Fixpoint add_unary (us : list (nat * (match_ → option bool))) (st : state) : option state :=
  match us with
  | [] => Some st
  | (i, u) :: r => e ← c2e st !! i; add_unary r (State (n2c st) (<[i := EUnary u 0 e]> (delete i (c2e st))))
  end.
(** l.874-884 *)
Fixpoint add_binary (q : conj) (order : list nat) (st : state) : option state :=
  match order with
  | [] => Some st
  | i :: r => b ← q_binary q !! i; st' ← add_binary_operator q st b; add_binary q r st'
  end.
(** l.828-895; the components have numbers of nodes *)
Definition make_exec_plan_with_order (q : conj) (order : list nat) : option exec :=
  let '(st, failed) := add_nodes 0 (q_nodes q) (State ∅ ∅) in
  st ← add_unary (q_unary q) st;
  st ← add_binary q order st;
  if failed then None else head (omap (λ c, c2e st !! c) (seq 0 (length (q_nodes q)))).

(** ** Optimization of the order *)
Context (plan_cost : exec → nat).
(** slice::swap *)
Definition swap (a b : nat) (l : list nat) : option (list nat) :=
  x ← l !! a; y ← l !! b; Some (<[a := y]> (<[b := x]> l)).
(** l.489-510: four new generations; [rnd] are the pairs of different positions *)
Fixpoint family (n : nat) (rnd : nat → nat * nat) (cur : list nat) : option (list (list nat)) :=
  match n with
  | 0 => Some []
  | S n' => next ← swap (rnd 0).1 (rnd 0).2 cur; r ← family n' (λ i, rnd (S i)) next; Some (next :: r)
  end.
(** l.512-541: the best order, its cost and whether it is better *)
Fixpoint best_of (q : conj) (orders : list (list nat)) (best : list nat) (cost : nat) (better : bool) : option (list nat * nat * bool) :=
  match orders with
  | [] => Some (best, cost, better)
  | o :: r => e ← make_exec_plan_with_order q o;
              if decide (plan_cost e < cost) then best_of q r o (plan_cost e) true else best_of q r best cost better
  end.
(** l.485-546; [fuel] bounds the number of rounds *)
Fixpoint optimize_loop (fuel : nat) (q : conj) (rnd : nat → nat * nat) (best : list nat) (cost unsuccessful : nat) : option (list nat) :=
  if decide (5 * length (q_binary q) <= unsuccessful) then Some best else
  match fuel with
  | 0 => None
  | S f => orders ← family 4 rnd best;
           '(best', cost', better) ← best_of q orders best cost false;
           optimize_loop f q (λ i, rnd (4 + i)) best' cost' (if (better : bool) then 0 else S unsuccessful)
  end.
(** l.445-549 *)
Definition optimize_join_order (fuel : nat) (q : conj) (rnd : nat → nat * nat) : option (list nat) :=
  match length (q_binary q) with
  | 0 => Some []
  | 1 => Some [0]
  | n => e ← make_exec_plan_with_order q (seq 0 n); optimize_loop fuel q rnd (seq 0 n) (plan_cost e) 0
  end.
(** l.962-975 *)
Definition make_exec_node (fuel : nat) (q : conj) (rnd : nat → nat * nat) : option exec :=
  match check_components_connected q with
  | Some _ => None
  | None => order ← optimize_join_order fuel q rnd; make_exec_plan_with_order q order
  end.
End Conj.
Arguments Bin {Op}. Arguments b_op {Op}. Arguments b_left {Op}. Arguments b_right {Op}. Arguments b_global {Op}. Arguments b_binding {Op}.
Arguments Conj {Op}. Arguments q_nodes {Op}. Arguments q_unary {Op}. Arguments q_binary {Op}. Arguments q_offset {Op}.
