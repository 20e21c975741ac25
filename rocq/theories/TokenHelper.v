(** Model of the access to tokens (/repo/graphannis/src/annis/db/token_helper.rs).
    Simplifications: errors of the storages are left out; [corpus] are the parts of an AnnotationGraph which are used by queries
    on tokens (/repo/core/src/graph/mod.rs l.58-80). *)
From stdpp Require Import base list gmap.
From Coq Require Import NArith.
From Verif Require Import KeySer SortedMap Types SymbolTable AnnoMem Adjacency Storage GraphApply.

(** /repo/graphannis/src/annis/db/aql/model.rs l.34-44: TOKEN_KEY, annis::tok *)
Definition tok_key : anno_key := AnnoKey [116; 111; 107]%N annis.

Record corpus := Corpus {
  cp_annos : am N;
  (** all existing components of the type Coverage *)
  cp_cov : list storage;
  (** the components LeftToken/annis/, RightToken/annis/ and Ordering/annis/ *)
  cp_left : option storage;
  cp_right : option storage;
  cp_order : option storage;
  (** global_statistics: all_token_in_order_component *)
  cp_all_in_order : option bool
}.

(** l.20-26 *)
Record helper := Helper { th_annos : am N; th_left : storage; th_right : storage; th_cov : list storage }.

(** l.54-64, also nodesearch.rs l.356-367: coverage components which are not known to be empty *)
Definition cov_edges (db : corpus) : list storage :=
  filter (λ gs, match gs_nodes gs with Some n => bool_decide (0 < n) | None => true end = true) (cp_cov db).
(** l.53-78 *)
Definition th_new (db : corpus) : option helper :=
  l ← cp_left db; r ← cp_right db; Some (Helper (cp_annos db) l r (cov_edges db)).
(** l.101-108 *)
Definition has_outgoing_coverage (th : helper) (n : N) : bool := existsb (λ gs, gs_has_out gs n) (th_cov th).
(** l.91-99 *)
Definition is_token (th : helper) (n : N) : bool :=
  if am_has_value (th_annos th) n tok_key then negb (has_outgoing_coverage th n) else false.
(** l.110-132 *)
Definition right_token_for (th : helper) (n : N) : option N :=
  if is_token th n then Some n else head (gs_out (th_right th) n).
Definition left_token_for (th : helper) (n : N) : option N :=
  if is_token th n then Some n else head (gs_out (th_left th) n).
(** l.134-151 *)
Definition left_right_token_for (th : helper) (n : N) : option N * option N :=
  if is_token th n then (Some n, Some n) else (head (gs_out (th_left th) n), head (gs_out (th_right th) n)).
