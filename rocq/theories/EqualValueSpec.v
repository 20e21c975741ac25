(** The comparison of annotation values. *)
From stdpp Require Import base list gmap.
From Coq Require Import NArith.
From Verif Require Import KeySer SortedMap Types SymbolTable AnnoMem AnnoSpec GraphApply TokenHelper SortMatches TokenSearchSpec NodeSearch NodeSearchSpec EqualValue.

(** Descriptions of nodes by an annotation, by token text, or neither *)
Inductive kind := ByAnnotation | ByToken | Neither.
Definition kind_of (s : spec) : kind :=
  match s with
  | SExact _ _ _ _ | SNotExact _ _ _ _ | SRegex _ _ _ _ | SNotRegex _ _ _ _ => ByAnnotation
  | SAnyNode => Neither
  | _ => ByToken
  end.
(** The value of a match: the one of the annotation which was found, or the text of the token *)
Definition has_value (c : content) (s : spec) (m : match_) (v : bytes) : Prop :=
  match kind_of s with
  | ByAnnotation => label c m.1 m.2 v
  | ByToken => label c m.1 tok_key v
  | Neither => False
  end.
(** Both matches have a value, and these are equal or different *)
Definition compares (c : content) (op : equal_value) (a b : match_) : Prop :=
  ∃ v w, has_value c (ev_left op) a v ∧ has_value c (ev_right op) b w ∧ if ev_negated op then v ≠ w else v = w.
(** Search for metadata (legacy syntax): the reported annotation is not the one which was found *)
Definition is_meta (s : spec) : bool :=
  match s with SExact _ _ _ m | SNotExact _ _ _ m | SRegex _ _ _ m | SNotRegex _ _ _ m => m | _ => false end.
(** The name of the annotation which is compared *)
Definition compared_name (s : spec) : option bytes * bytes :=
  match s with
  | SExact ns name _ _ | SNotExact ns name _ _ | SRegex ns name _ _ | SNotRegex ns name _ _ => (ns, name)
  | _ => (Some (ak_ns tok_key), ak_name tok_key)
  end.
(** Nodes with one annotation of the compared name only *)
Definition compared_once (c : content) (s : spec) : Prop := one_namespace c (compared_name s).1 (compared_name s).2.
