(** What a client of the C interface relies on. *)
From stdpp Require Import base list.
From Coq Require Import NArith.
From Verif Require Import KeySer Types GraphUpdate CApi.

(** UTF-8: the encodings of Unicode scalar values *)
Definition scalar (c : N) : Prop := (c < 55296 ∨ (57344 ≤ c ∧ c ≤ 1114111))%N.
Definition encode (c : N) : bytes :=
  (if c <? 128 then [c]
   else if c <? 2048 then [192 + c / 64; 128 + c mod 64]
   else if c <? 65536 then [224 + c / 4096; 128 + (c / 64) mod 64; 128 + c mod 64]
   else [240 + c / 262144; 128 + (c / 4096) mod 64; 128 + (c / 64) mod 64; 128 + c mod 64])%N.
Definition utf8 (s : bytes) : Prop := ∃ cs, Forall scalar cs ∧ s = concat (encode <$> cs).
(** A string that can be a C string *)
Definition text (s : bytes) : Prop := utf8 s ∧ 0%N ∉ s.

(** The pointer [p] points to the C string [s]: the bytes before the first NUL *)
Definition points (p : cptr) (s : bytes) : Prop := 0%N ∉ s ∧ ∃ rest, p = Some (s ++ 0%N :: rest).
(** The argument [p] stands for [s]: a null pointer is the empty string *)
Definition holds (p : cptr) (s : bytes) : Prop := (p = None ∧ s = []) ∨ points p s.
(** Size and access functions of a vector show the strings of a list, and null pointers after its end *)
Definition shows (size : nat) (get : nat → cptr) (l : list bytes) : Prop :=
  size = length l ∧ ∀ i, match l !! i with Some s => points (get i) s | None => get i = None end.
Definition shows_rows (nrows ncols : nat) (get : nat → nat → cptr) (rows : list (list bytes)) : Prop :=
  nrows = length rows ∧ ∀ i, match rows !! i with Some r => shows ncols (get i) r | None => ∀ j, get i j = None end.
(** The list of errors shows the message and kind of the error, then the messages of its causes *)
Definition reports (l : error_list) (e : rerr) : Prop :=
  shows (vec_size l) (error_get_msg l) (re_msg e :: re_causes e) ∧ points (error_get_kind l 0) (re_kind e).
Definition no_nul (e : rerr) : Prop := 0%N ∉ re_msg e ∧ 0%N ∉ re_kind e ∧ ∀ m, m ∈ re_causes e → 0%N ∉ m.

(** The event that the client means with a call *)
Inductive call_means : update_call → event → Prop :=
| means_add_node n n' t t' : holds n n' → holds t t' → call_means (CAddNode n t) (AddNode n' t')
| means_delete_node n n' : holds n n' → call_means (CDeleteNode n) (DeleteNode n')
| means_add_label n n' ns ns' a a' v v' : holds n n' → holds ns ns' → holds a a' → holds v v' →
    call_means (CAddNodeLabel n ns a v) (AddNodeLabel n' ns' a' v')
| means_delete_label n n' ns ns' a a' : holds n n' → holds ns ns' → holds a a' → call_means (CDeleteNodeLabel n ns a) (DeleteNodeLabel n' ns' a')
| means_add_edge s s' t t' l l' c c' n n' : holds s s' → holds t t' → holds l l' → holds c c' → holds n n' →
    call_means (CAddEdge s t l c n) (AddEdge s' t' l' c' n')
| means_delete_edge s s' t t' l l' c c' n n' : holds s s' → holds t t' → holds l l' → holds c c' → holds n n' →
    call_means (CDeleteEdge s t l c n) (DeleteEdge s' t' l' c' n')
| means_add_edge_label s s' t t' l l' c c' n n' ns ns' a a' v v' : holds s s' → holds t t' → holds l l' → holds c c' → holds n n' →
    holds ns ns' → holds a a' → holds v v' → call_means (CAddEdgeLabel s t l c n ns a v) (AddEdgeLabel s' t' l' c' n' ns' a' v')
| means_delete_edge_label s s' t t' l l' c c' n n' ns ns' a a' : holds s s' → holds t t' → holds l l' → holds c c' → holds n n' →
    holds ns ns' → holds a a' → call_means (CDeleteEdgeLabel s t l c n ns a) (DeleteEdgeLabel s' t' l' c' n' ns' a').

(** A client calls the iterator until it returns a null pointer *)
Inductive drains {T} : list (rres T) → err_ptr → list T → err_ptr → Prop :=
| drain_end it p it' p' : iter_next it p = (it', None, p') → drains it p [] p'
| drain_item it p it' p' v vs q : iter_next it p = (it', Some v, p') → drains it' p' vs q → drains it p (v :: vs) q.

(** A vector of strings that a client fills *)
Definition filled (ptrs : list cptr) : list bytes := fold_left vec_str_push ptrs [].
(** Definitions joined with commas *)
Fixpoint join_comma (ds : list bytes) : bytes :=
  match ds with [] => [] | [d] => d | d :: r => d ++ 44%N :: join_comma r end.
(** What a call returns and reports: the error variable is a null pointer before *)
Definition outcome {T U} (r : rres T) (call : err_ptr → U * err_ptr) (failed : U) (good : T → U → Prop) : Prop :=
  match r with
  | ROk v => ∃ u, call (Some None) = (u, Some None) ∧ good v u
  | RFail e => ∃ l, call (Some None) = (failed, Some (Some l)) ∧ l ≠ [] ∧ (no_nul e → reports l e)
  end.
