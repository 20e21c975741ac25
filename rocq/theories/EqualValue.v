(** Model of the comparison of annotation values ("#1 == #2", "#1 != #2"):
    /repo/graphannis/src/annis/db/aql/operators/equal_value.rs. Errors of the storages and the estimates are left out. *)
From stdpp Require Import base list gmap.
From Coq Require Import NArith.
From Verif Require Import KeySer SortedMap Types SymbolTable AnnoMem GraphApply TokenHelper SortMatches NodeSearch.

(** l.60-66 *)
Record equal_value := EqualValue { ev_left : spec; ev_right : spec; ev_negated : bool }.

Section Op.
Context (annos : am N).
(** l.79-98 *)
Definition value_for_match (m : match_) (s : spec) : option bytes :=
  match s with
  | SExact _ _ _ _ | SNotExact _ _ _ _ | SRegex _ _ _ _ | SNotRegex _ _ _ _ => am_get_value annos m.1 m.2
  | SAnyTok | STokExact _ _ | STokNotExact _ | STokRegex _ _ | STokNotRegex _ => am_get_value annos m.1 tok_key
  | SAnyNode => None
  end.
(** l.100-120 *)
Definition anno_def_for_spec (s : spec) : option (option bytes * bytes) :=
  match s with
  | SExact ns name _ _ | SNotExact ns name _ _ | SRegex ns name _ _ | SNotRegex ns name _ _ => Some (ns, name)
  | SAnyTok | STokExact _ _ | STokNotExact _ | STokRegex _ _ | STokNotRegex _ => Some (Some (ak_ns tok_key), ak_name tok_key)
  | SAnyNode => None
  end.
(** l.124-137 *)
Definition ev_filter (op : equal_value) (lhs rhs : match_) : option bool :=
  Some match value_for_match lhs (ev_left op), value_for_match rhs (ev_right op) with
       | Some v, Some w => if ev_negated op then negb (bool_decide (v = w)) else bool_decide (v = w)
       | _, _ => false
       end.
(** l.164-175: the specifications are not swapped *)
Definition ev_inverse (op : equal_value) : equal_value := EqualValue (ev_left op) (ev_right op) (ev_negated op).
(** l.179-198 *)
Definition ev_retrieve (op : equal_value) (lhs : match_) : option (list match_) :=
  Some match value_for_match lhs (ev_left op) with
       | Some v => match anno_def_for_spec (ev_right op) with
                   | Some (ns, name) => am_exact_search annos ns name (if ev_negated op then VNotSome v else VSome v)
                   | None => []
                   end
       | None => []
       end.
End Op.
