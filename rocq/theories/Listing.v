(** Model of the listings of a corpus (/repo/graphannis/src/annis/db/corpusstorage.rs l.2384-2534: list_components,
    list_node_annotations, list_edge_annotations).
    Simplifications: a corpus that cannot be loaded, or a component that does not exist, is [None]; components are found on disk as in
    Persist.v (find_components_from_disk, /repo/core/src/graph/mod.rs l.116-173); the type of a component is a number. *)
From stdpp Require Import base list gmap.
From Coq Require Import NArith.
From Verif Require Import KeySer SortedMap Types SymbolTable AnnoMem AnnoDisk Adjacency GraphApply Persist.

(** l.2449-2474 and l.2503-2528: what one key contributes. [None]: an error of the storage *)
Definition list_key (all_values : anno_key → bool → option (list bytes)) (list_values most_frequent : bool) (k : anno_key) :
    option (list (anno_key * bytes)) :=
  if list_values then
    if most_frequent then
      match all_values k true with Some (v :: _) => Some [(k, v)] | Some [] => Some [] | None => None end
    else match all_values k false with Some vs => Some (map (λ v, (k, v)) vs) | None => None end
  else Some [(k, [])].
(** l.2448-2475 and l.2502-2529: the loop over the keys of an annotation storage *)
Fixpoint list_annotations (keys : list anno_key) (all_values : anno_key → bool → option (list bytes)) (list_values most_frequent : bool) :
    option (list (anno_key * bytes)) :=
  match keys with
  | [] => Some []
  | k :: keys =>
      match list_key all_values list_values most_frequent k, list_annotations keys all_values list_values most_frequent with
      | Some l, Some r => Some (l ++ r)
      | _, _ => None
      end
  end.
(** l.2437-2480 with node annotations in main memory, l.2486-2534 with the annotations of a graph storage *)
Definition list_am `{Countable T} (s : option (am T)) (list_values most_frequent : bool) : option (list (anno_key * bytes)) :=
  match s with
  | Some s => list_annotations (am_annotation_keys s) (λ k b, Some (am_get_all_values s k b)) list_values most_frequent
  | None => Some []
  end.
(** l.2437-2480 with node annotations on disk *)
Definition list_ad {T} (w : nat) (s : option (ad T)) (list_values most_frequent : bool) : option (list (anno_key * bytes)) :=
  match s with
  | Some s => list_annotations (ad_annotation_keys s) (λ k b, ad_get_all_values w s k b) list_values most_frequent
  | None => Some []
  end.

(** l.2388-2431: the components are read from the backup if there is one, then filtered by type and by name *)
Definition has_type (ctype : option N) (c : comp) : bool :=
  match ctype with Some t => bool_decide (c.1.1 = t) | None => true end.
Definition has_name (name : option bytes) (c : comp) : bool :=
  match name with Some n => bool_decide (c.2 = n) | None => true end.
Definition list_components (s : fs) (ctype : option N) (name : option bytes) : list comp :=
  match active s with
  | Some d =>
      List.filter (has_name name) (List.filter (has_type ctype) (map_to_list (omap listed (d_gs d))).*1)
  | None => []
  end.
