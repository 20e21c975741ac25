(** Specification: which nodes can be ordered. *)
From stdpp Require Import base list.
From Coq Require Import NArith.
From Verif Require Import KeySer KeySerSpec QuickSortSpec.

(** A total preorder of the elements with [P] *)
Record total_preorder_on {T} (P : T → Prop) (cmp : T → T → comparison) : Prop := {
  tpo_flip : ∀ x y, P x → P y → cmp y x = CompOpp (cmp x y);
  tpo_trans : ∀ x y z, P x → P y → P z → cmp x y ≠ Gt → cmp y z ≠ Gt → cmp x z ≠ Gt }.

(** The token order has no cycles. *)
Definition acyclic_order (conn : N → N → bool) : Prop :=
  (∀ t, conn t t = false) ∧ (∀ t u v, conn t u = true → conn u v = true → conn t v = true).
(** The first tokens of two nodes are the same, or one precedes the other. *)
Definition comparable (left : N → option N) (conn : N → N → bool) (a b : N) : Prop :=
  ∃ t u, left a = Some t ∧ left b = Some u ∧ (t = u ∨ conn t u = true ∨ conn u t = true).
(** No order between the first tokens (or they do not exist) *)
Definition unordered (left : N → option N) (conn : N → N → bool) (a b : N) : Prop :=
  ∀ t u, left a = Some t → left b = Some u → conn t u = false ∧ conn u t = false.
(** The nodes [S]: every node has a name, and in each document either all nodes of [S] are ordered by their first tokens, or none. [same_doc] tells whether two
    nodes belong to the same document. *)
Definition one_order_per_document (S : N → Prop) (name : N → option bytes) (left : N → option N) (conn : N → N → bool)
    (same_doc : N → N → Prop) : Prop :=
  (∀ a, S a → is_Some (name a)) ∧
  ∀ a, S a → (∀ b c, S b → S c → same_doc a b → same_doc a c → comparable left conn b c) ∨
             (∀ b c, S b → S c → same_doc a b → same_doc a c → unordered left conn b c).
(** Two nodes of the same document: the paths in front of the last "#" of their names compare as equal. *)
From Verif Require Import SortMatches.
Definition same_document (coll : bytes → bytes → comparison) (decode : bytes → bytes) (quirks : bool) (name : N → option bytes)
    (a b : N) : Prop :=
  ∃ v w, name a = Some v ∧ name b = Some w ∧
    compare_document_path coll decode quirks (split_path_and_nodename v).1 (split_path_and_nodename w).1 = Eq.
