(** Model of qualified names (/repo/core/src/util/mod.rs). Strings are UTF-8 byte lists. *)
From stdpp Require Import base list.
From Coq Require Import NArith.
From Verif Require Import KeySer Percent.

(** util/mod.rs l.10: QNAME_ENCODE_SET = CONTROLS + ' ' + ':' + '%' *)
Definition qname_set (b : N) : bool := (is_control b || (b =? 32) || (b =? 58) || (b =? 37))%N.

(** util/mod.rs l.12-22 *)
Definition join_qname (ns name : bytes) : bytes :=
  (match ns with [] => [] | _ => pct_encode qname_set ns ++ [58; 58]%N end)
  ++ pct_encode qname_set name.

(** [str::find("::")] and splitting there: the part before and after the first "::". *)
Fixpoint find_sep (s : bytes) : option (bytes * bytes) :=
  match s with
  | [] => None
  | b :: s' =>
      match s' with
      | c :: s'' =>
          if ((b =? 58) && (c =? 58))%N then Some ([], s'')
          else match find_sep s' with
               | Some (x, y) => Some (b :: x, y)
               | None => None
               end
      | [] => None
      end
  end.

(** util/mod.rs l.24-31 *)
Definition split_qname (q : bytes) : option bytes * bytes :=
  match find_sep q with
  | Some (x, y) => (Some x, y)
  | None => (None, q)
  end.
