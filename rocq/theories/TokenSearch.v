(** Model of the search for all tokens (/repo/graphannis/src/annis/db/exec/tokensearch.rs) and of the statistics it uses
    (/repo/graphannis/src/annis/db/aql/model.rs l.623-683).
    Simplifications: errors of the storages are left out; the caches of the comparison do not matter (C29). The random numbers and
    the fuel are those of the sorting (QuickSort.v). *)
From stdpp Require Import base list gmap.
From Coq Require Import NArith.
From Verif Require Import KeySer KeySerSpec SortedMap Types SymbolTable AnnoMem Adjacency Storage GraphApply TokenHelper SortMatches QuickSort.

(** l.67-82 *)
Definition is_root_tok (db : corpus) (n : N) : bool :=
  if match cp_order db with Some gs => gs_has_in gs n | None => false end then false
  else match th_new db with Some th => negb (has_outgoing_coverage th n) | None => true end.

(** l.87-127 *)
Definition root_nodes (db : corpus) : list match_ :=
  match cp_order db, default false (cp_all_in_order db) with
  | Some gs, true => (λ n, (n, node_type_key)) <$> gs_roots gs
  | _, _ => filter (λ m, is_root_tok db m.1 = true) (am_exact_search (cp_annos db) (Some (ak_ns tok_key)) (ak_name tok_key) VAny)
  end.

(** sort_matches.rs l.68-169 with the default collation and without quirks mode *)
Definition text_pos (db : corpus) (m1 m2 : match_) : comparison :=
  (compare_match (λ n, am_get_value (cp_annos db) n node_name_key)
     (λ n, match th_new db with Some th => left_token_for th n | None => None end)
     (λ t u, match cp_order db with Some gs => gs_is_connected gs t u 1 Unbounded | None => false end)
     (match th_new db, cp_order db with Some _, Some _ => true | _, _ => false end)
     lex_compare id false cache_new m1 m2).1.

(** l.139-149 *)
Definition from_root (db : corpus) (root : N) : list N :=
  match cp_order db with Some gs => gs_connected gs root 0 Unbounded | None => [root] end.

(** l.84-152 and l.190-212: the roots are sorted in descending order, and the last one is used first *)
Definition token_search (fuel : nat) (rnd : nat → nat) (db : corpus) : out (list match_) :=
  match sort (λ a b, text_pos db b a) fuel rnd (root_nodes db) with
  | Done roots => Done (mjoin ((λ m, (λ n, (n, node_type_key)) <$> from_root db m.1) <$> reverse roots))
  | Failed => Failed
  | NoFuel => NoFuel
  end.

(** model.rs l.634-658: the statistic all_token_in_order_component; [&&] binds stronger than [||] *)
Definition all_token_in_order (db : corpus) : bool :=
  match cp_order db, th_new db with
  | Some gs, Some th =>
      fold_left (λ (acc : bool) (m : match_),
        if has_outgoing_coverage th m.1 then acc else (acc && gs_has_out gs m.1) || gs_has_in gs m.1)
        (am_exact_search (cp_annos db) (Some (ak_ns tok_key)) (ak_name tok_key) VAny) true
  | _, _ => false
  end.
