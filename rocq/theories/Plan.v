(** Model of the execution of a query with alternatives (/repo/graphannis/src/annis/db/plan.rs,
    /repo/graphannis/src/annis/db/aql/mod.rs l.64-105, disjunction.rs).
    Simplifications: the items of a plan are given as list, and so are those of the execution plan (the iterator yields them
    one by one); the set of unique results (a BtreeIndex) is a finite set that does not fail. *)
From stdpp Require Import base list gmap.
From Coq Require Import NArith.
From Verif Require Import Types SymbolTable SortMatches Joins.

(** What make_exec_node returns for an alternative: a plan (the positions of its description and its items), a semantic
    error or another one *)
Inductive alternative := AOk (pos : gmap nat nat) (items : list item) | ASemantic | AOther.

(** plan.rs l.42-61 *)
Definition inverse_node_pos (pos : gmap nat nat) : option (list nat) :=
  if existsb (λ p, negb (bool_decide (p.1 = p.2))) (map_to_list pos) then
    let m : gmap nat nat := list_to_map ((λ p, (p.2, p.1)) <$> map_to_list pos) in
    Some ((λ i, default i (m !! i)) <$> seq 0 (size m))
  else None.
(** plan.rs l.36-78: None for an error *)
Fixpoint collect_plans (alts : list alternative) : option (list (option (list nat) * list item)) :=
  match alts with
  | [] => Some []
  | AOk pos items :: r => l ← collect_plans r; Some ((inverse_node_pos pos, items) :: l)
  | ASemantic :: r => None
  | AOther :: r => collect_plans r
  end.
(** Match::default() *)
Definition default_match : match_ := (0%N, AnnoKey [] []).
(** plan.rs l.110-113 *)
Fixpoint place (inv : list nat) (stream_pos : nat) (tmp result : group) : option group :=
  match tmp with
  | [] => Some result
  | m :: r => target ← inv !! stream_pos;
              if decide (target < length result) then place inv (S stream_pos) r (<[target := m]> result) else None
  end.
(** plan.rs l.94-118; None if an index is out of bounds *)
Definition reorder_match (inv : option (list nat)) (tmp : group) : option group :=
  match inv with
  | None => Some tmp
  | Some inv => let output_size := match inv with [] => 0 | _ => S (foldr max 0 inv) end in
                place inv 0 tmp (replicate output_size default_match)
  end.
(** core/src/annostorage/mod.rs l.31-40 and 68-75 *)
Fixpoint with_symbol_ids (t : symtab anno_key) (g : group) : symtab anno_key * option (list (N * nat)) :=
  match g with
  | [] => (t, Some [])
  | m :: r => match st_insert t m.2 with
              | (t', None) => (t', None)
              | (t', Some s) => let '(t'', l) := with_symbol_ids t' r in (t'', (λ l, (m.1, s) :: l) <$> l)
              end
  end.
(** plan.rs l.183-197: the items of one of the plans *)
Fixpoint unique_items (inv : option (list nat)) (items : list item) (t : symtab anno_key) (seen : gset (list (N * nat))) :
    list item * symtab anno_key * gset (list (N * nat)) :=
  match items with
  | [] => ([], t, seen)
  | IOk g :: r =>
      match reorder_match inv g with
      | None => ([IPanic], t, seen)
      | Some g' =>
          match with_symbol_ids t g' with
          | (t', None) => let '(out, t'', seen') := unique_items inv r t' seen in (IErr :: out, t'', seen')
          | (t', Some key) =>
              if decide (key ∈ seen) then unique_items inv r t' seen
              else let '(out, t'', seen') := unique_items inv r t' ({[key]} ∪ seen) in (IOk g' :: out, t'', seen')
          end
      end
  | e :: r => let '(out, t', seen') := unique_items inv r t seen in (e :: out, t', seen')
  end.
(** plan.rs l.178-202: all the plans *)
Fixpoint unique_plans (plans : list (option (list nat) * list item)) (t : symtab anno_key) (seen : gset (list (N * nat))) : list item :=
  match plans with
  | [] => []
  | (inv, items) :: r => let '(out, t', seen') := unique_items inv items t seen in out ++ unique_plans r t' seen'
  end.
(** plan.rs l.168-177: a single plan *)
Definition proxy_items (inv : option (list nat)) (items : list item) : list item :=
  (λ i, match i with
        | IOk g => match reorder_match inv g with Some g' => IOk g' | None => IPanic end
        | e => e
        end) <$> items.
(** plan.rs l.27-92, 165-203: None if the plan is an error *)
Definition execution_plan (alts : list alternative) : option (list item) :=
  plans ← collect_plans alts;
  Some match plans with
       | [] => []
       | [(inv, items)] => proxy_items inv items
       | _ => unique_plans plans st_new ∅
       end.

(** ** Nodes of the output *)
(** The variables of an alternative with their names and whether they are included in the output (conjunction.rs l.286-315),
    and the number of its first variable *)
Record alt_vars := AltVars { av_offset : nat; av_vars : list (list N * bool) }.
(** conjunction.rs l.401-404 and disjunction.rs l.38-46 *)
Definition variable_by_node_nr (alts : list alt_vars) (nr : nat) : option (list N) :=
  head (omap (λ a, if decide (av_offset a <= nr) then fst <$> av_vars a !! (nr - av_offset a) else None) alts).
(** conjunction.rs l.390-395 and disjunction.rs l.48-57 *)
Definition included_in_output (alts : list alt_vars) (var : list N) : bool :=
  existsb (λ a, bool_decide ((var, true) ∈ av_vars a)) alts.
(** aql/mod.rs l.82-96, also corpusstorage.rs l.1915-1925 *)
Definition output_nodes (alts : list alt_vars) (mg : group) : group :=
  omap (λ p, match variable_by_node_nr alts p.1 with
             | Some var => if included_in_output alts var then Some p.2 else None
             | None => None
             end) (imap pair mg).
(** aql/mod.rs l.97-103: unique_by; errors count as empty match group *)
Fixpoint unique_by (seen : gset group) (l : list item) : list item :=
  match l with
  | [] => []
  | IPanic :: r => [IPanic]
  | i :: r => let key := match i with IOk g => g | _ => [] end in
              if decide (key ∈ seen) then unique_by seen r else i :: unique_by ({[key]} ∪ seen) r
  end.
(** aql/mod.rs l.64-105 *)
Definition execute_query (alts : list alternative) (vars : list alt_vars) : option (list item) :=
  l ← execution_plan alts;
  Some (unique_by ∅ ((λ i, match i with IOk g => IOk (output_nodes vars g) | e => e end) <$> l)).
