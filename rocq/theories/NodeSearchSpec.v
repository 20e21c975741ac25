(** What the searches for single nodes have to find. *)
From stdpp Require Import base list gmap.
From Coq Require Import NArith.
From Verif Require Import KeySer SortedMap Types SymbolTable AnnoMem AnnoSpec Adjacency GraphApply TokenHelper TokenSearchSpec NodeSearch.

(** The value of an annotation [k] of node [n] *)
Definition label (c : content) (n : N) (k : anno_key) (v : bytes) : Prop := ct_labels c !! (n, k) = Some v.
(** Node [n] meets the description because of its annotation [k] *)
Definition meets (rx : bytes → option (bytes → bool)) (c : content) (s : spec) (n : N) (k : anno_key) : Prop :=
  match s with
  | SExact ns name val _ => key_matches ns name k ∧ ∃ v, label c n k v ∧ (val = None ∨ val = Some v)
  | SNotExact ns name val _ => key_matches ns name k ∧ ∃ v, label c n k v ∧ v ≠ val
  | SRegex ns name p _ => key_matches ns name k ∧ ∃ v re, label c n k v ∧ rx p = Some re ∧ re v = true
  | SNotRegex ns name p _ => key_matches ns name k ∧ ∃ v re, label c n k v ∧ rx p = Some re ∧ re v = false
  | STokExact val leafs => k = tok_key ∧ label c n tok_key val ∧ (leafs = true → token c n)
  | STokNotExact val => k = tok_key ∧ token c n ∧ ∃ v, label c n tok_key v ∧ v ≠ val
  | STokRegex p leafs => k = tok_key ∧ (∃ v re, label c n tok_key v ∧ rx p = Some re ∧ re v = true) ∧ (leafs = true → token c n)
  | STokNotRegex p => k = tok_key ∧ token c n ∧ ∃ v re, label c n tok_key v ∧ rx p = Some re ∧ re v = false
  | SAnyTok => k = tok_key ∧ token c n
  | SAnyNode => k = node_type_key ∧ label c n node_type_key str_node
  end.
(** The annotation which is reported: the one which was found, or the node type *)
Definition reported (s : spec) (k : anno_key) : anno_key :=
  match s with
  | SExact _ _ _ meta | SNotExact _ _ _ meta | SRegex _ _ _ meta | SNotRegex _ _ _ meta => if meta then node_type_key else k
  | _ => node_type_key
  end.
(** The regular expression of a description *)
Definition pattern (s : spec) : option bytes :=
  match s with SRegex _ _ p _ | SNotRegex _ _ p _ | STokRegex p _ | STokNotRegex p => Some p | _ => None end.
(** If a string is extracted from a pattern then the pattern matches nothing else *)
Definition exact_ok (rx : bytes → option (bytes → bool)) (exact : bytes → option bytes) : Prop :=
  ∀ p v re, exact p = Some v → rx p = Some re → ∀ w, re w = true ↔ w = v.
(** Searches for metadata without a namespace find a node once if its annotations with this name are in one namespace *)
Definition one_namespace (c : content) (ns : option bytes) (name : bytes) : Prop :=
  ∀ n k k', key_matches ns name k → key_matches ns name k' → is_Some (ct_labels c !! (n, k)) → is_Some (ct_labels c !! (n, k')) → k = k'.
Definition meta_unique (c : content) (s : spec) : Prop :=
  match s with
  | SExact ns name _ true | SNotExact ns name _ true | SRegex ns name _ true | SNotRegex ns name _ true => one_namespace c ns name
  | _ => True
  end.
