(** Model of the comparison of matches (/repo/graphannis/src/annis/db/sort_matches.rs).
    Simplifications: errors of the storages are left out. [name] is the value of annis::node_name, [left] the result of
    TokenHelper::left_token_for, [conn] whether two tokens are connected by one or more steps of the token order,
    [with_order] whether there are a token helper and a token order, [coll] the comparison of strings (bytes for
    CollationType::Default, strcoll for CollationType::Locale) and [decode] percent decoding (only used in quirks mode).
    The cache is_connected of the code is never filled. *)
From stdpp Require Import base list.
From Coq Require Import NArith.
From Verif Require Import KeySer KeySerSpec Types.

Section Sort.
Context (name : N → option bytes) (left : N → option N) (conn : N → N → bool) (with_order : bool)
        (coll : bytes → bytes → comparison) (decode : bytes → bytes) (quirks : bool).

(** annostorage/mod.rs: Match *)
Definition match_ : Type := N * anno_key.

(** l.19-24, 27: the caches with 1000 entries, most recently used first *)
Record cache := Cache { c_name : list (N * bytes); c_left : list (N * option N) }.
Definition cache_new : cache := Cache [] [].
Definition cache_size : nat := 1000.
Definition assoc {V} (l : list (N * V)) (k : N) : option V := (λ p, p.2.2) <$> list_find (λ p, p.1 = k) l.
Definition put {V} (l : list (N * V)) (k : N) (v : V) : list (N * V) :=
  take cache_size ((k, v) :: filter (λ p, p.1 ≠ k) l).
(** l.80-88 *)
Definition get_name (c : cache) (n : N) : option bytes * cache :=
  match assoc (c_name c) n with
  | Some v => (Some v, Cache (put (c_name c) n v) (c_left c))
  | None => match name n with Some v => (Some v, Cache (put (c_name c) n v) (c_left c)) | None => (None, c) end
  end.
(** l.112-118 *)
Definition get_left (c : cache) (n : N) : option N * cache :=
  match assoc (c_left c) n with
  | Some v => (v, Cache (c_name c) (put (c_left c) n v))
  | None => (left n, Cache (c_name c) (put (c_left c) n (left n)))
  end.

(** rsplit_once *)
Fixpoint split_last (s : bytes) : option (bytes * bytes) :=
  match s with
  | [] => None
  | b :: r => match split_last r with
              | Some (x, y) => Some (b :: x, y)
              | None => if (b =? 35)%N then Some ([], r) else None
              end
  end.
(** l.172-176 *)
Definition split_path_and_nodename (s : bytes) : bytes * bytes := default (s, []) (split_last s).

(** str::split('/') without the empty parts *)
Fixpoint split_slash (s cur : bytes) : list bytes :=
  match s with
  | [] => [reverse cur]
  | b :: r => if (b =? 47)%N then reverse cur :: split_slash r [] else split_slash r (b :: cur)
  end.
Definition path_parts (s : bytes) : list bytes := filter (λ p, p ≠ []) (split_slash s []).
(** l.199-204 *)
Fixpoint compare_zip (l1 l2 : list bytes) : comparison :=
  match l1, l2 with
  | p1 :: r1, p2 :: r2 => match coll p1 p2 with Eq => compare_zip r1 r2 | c => c end
  | _, _ => Eq
  end.
(** l.178-216 *)
Definition compare_document_path (p1 p2 : bytes) : comparison :=
  let l1 := path_parts p1 in
  let l2 := path_parts p2 in
  match (if quirks then match last l1, last l2 with Some d1, Some d2 => coll (decode d1) (decode d2) | _, _ => Eq end
         else compare_zip l1 l2) with
  | Eq => Nat.compare (length l1) (length l2)
  | c => c
  end.

(** l.68-169 *)
Definition compare_match (c : cache) (m1 m2 : match_) : comparison * cache :=
  if (m1.1 =? m2.1)%N then (anno_key_compare m1.2 m2.2, c)
  else
    let '(v1, c) := get_name c m1.1 in
    let '(v2, c) := get_name c m2.1 in
    let ids := (m1.1 ?= m2.1)%N in
    match v1, v2 with
    | Some v1, Some v2 =>
        let '(p1, n1) := split_path_and_nodename v1 in
        let '(p2, n2) := split_path_and_nodename v2 in
        let names := match coll n1 n2 with Eq => ids | r => r end in
        match compare_document_path p1 p2 with
        | Eq =>
            if with_order then
              let '(t1, c) := get_left c m1.1 in
              let '(t2, c) := get_left c m2.1 in
              match t1, t2 with
              | Some t1, Some t2 => (if conn t1 t2 then Lt else if conn t2 t1 then Gt else names, c)
              | _, _ => (names, c)
              end
            else (names, c)
        | r => (r, c)
        end
    | _, _ => (ids, c)
    end.

(** l.39-66 *)
Fixpoint compare_elements (c : cache) (g1 g2 : list match_) : comparison * cache :=
  match g1, g2 with
  | m1 :: r1, m2 :: r2 => let '(r, c) := compare_match c m1 m2 in
                          match r with Eq => compare_elements c r1 r2 | _ => (r, c) end
  | _, _ => (Eq, c)
  end.
Definition compare_groups (c : cache) (g1 g2 : list match_) : comparison * cache :=
  let '(r, c) := compare_elements c g1 g2 in
  match r with Eq => (Nat.compare (length g2) (length g1), c) | _ => (r, c) end.

(** The comparison with an empty cache *)
Definition compare_fresh (g1 g2 : list match_) : comparison := (compare_groups cache_new g1 g2).1.
(** A sequence of comparisons with the same cache *)
Fixpoint compare_many (c : cache) (l : list (list match_ * list match_)) : list comparison :=
  match l with [] => [] | (g1, g2) :: r => let '(x, c) := compare_groups c g1 g2 in x :: compare_many c r end.
End Sort.
