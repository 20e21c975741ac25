(** Model of the size of a corpus: the statistics (/repo/graphannis/src/annis/db/aql/model.rs l.98-122, l.623-683) and the size in the
    corpus configuration (/repo/graphannis/src/annis/db/corpusstorage.rs l.867-912, update_corpus_size_info; called by
    import_from_fs l.983 and reoptimize_implementation l.1526-1530).
    Simplifications: errors of the storages are left out except for missing components; numbers are not bounded by 64 bits; of the
    configuration only the size and the segmentation of the base text are kept. *)
From stdpp Require Import base list gmap.
From Coq Require Import NArith.
From Verif Require Import KeySer SortedMap Types SymbolTable AnnoMem Adjacency Storage GraphApply TokenHelper SortMatches TokenSearch.

(** Components of the type Ordering by layer and name *)
Notation order_name := (bytes * bytes)%type.

(** model.rs l.100-113: CorpusSize; l.115-121: AQLGlobalStatistics *)
Inductive corpus_size := Unknown | Tokens_counted (base_token_count : nat) (segmentation_count : gmap bytes nat).
Record global_stats := GlobalStats { gl_all_in_order : bool; gl_size : corpus_size }.

(** model.rs l.640-659: only counted if there is a default token order *)
Definition base_token_count (db : corpus) (th : helper) : nat :=
  match cp_order db with
  | Some _ => fold_left (λ (acc : nat) (m : match_), if has_outgoing_coverage th m.1 then acc else S acc)
                (am_exact_search (cp_annos db) (Some (ak_ns tok_key)) (ak_name tok_key) VAny) 0
  | None => 0
  end.
(** model.rs l.661-671: the other ordering components with statistics; a hash map with the component as key *)
Definition seg_entries (orders : list (order_name * storage)) : list (order_name * nat) :=
  omap (λ e : order_name * storage, match e.1.2 with [] => None | _ => n ← gs_nodes e.2; Some (e.1, n) end) orders.
(** model.rs l.675-679: the entries of the hash map in the order [l] of its iteration, by name *)
Definition by_name (l : list (order_name * nat)) : gmap bytes nat :=
  fold_left (λ m (e : order_name * nat), <[e.1.2 := e.2]> m) l ∅.
(** model.rs l.623-683: [l] is the order of the iteration. [None]: an error *)
Definition global_statistics (db : corpus) (l : list (order_name * nat)) : option global_stats :=
  th ← th_new db; Some (GlobalStats (all_token_in_order db) (Tokens_counted (base_token_count db th) (by_name l))).

(** /repo/graphannis/src/annis/types.rs l.73-89: CorpusSizeUnit, CorpusSizeInfo *)
Inductive size_unit := Tokens | Segmentation (s : bytes).
Record size_info := SizeInfo { si_quantity : nat; si_unit : size_unit }.
(** types.rs l.96-107 and l.167: corpus_size and view.base_text_segmentation of the configuration *)
Record size_config := SizeConfig { sc_size : option size_info; sc_base_text : option bytes }.

(** corpusstorage.rs l.882-893 *)
Definition chosen_unit (cfg : size_config) : size_unit :=
  match sc_size cfg with
  | Some s => si_unit s
  | None => match sc_base_text cfg with Some seg => Segmentation seg | None => Tokens end
  end.
(** corpusstorage.rs l.867-912 *)
Definition update_corpus_size_info (cfg : size_config) (st : option global_stats) : size_config * bool :=
  match st with
  | Some (GlobalStats _ (Tokens_counted n segs)) =>
      (SizeConfig (match chosen_unit cfg with
                   | Tokens => Some (SizeInfo n Tokens)
                   | Segmentation seg => k ← segs !! seg; Some (SizeInfo k (Segmentation seg))
                   end) (sc_base_text cfg), true)
  | _ => (cfg, false)
  end.
