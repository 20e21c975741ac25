(** The interface of graph storages as seen by the execution of queries (/repo/core/src/graph/storage/mod.rs l.78-202: the
    traits EdgeContainer and GraphStorage).
    Simplifications: errors of a storage are left out; of the statistics only the number of nodes is kept. *)
From stdpp Require Import base list gmap.
From Coq Require Import NArith.
From Verif Require Import KeySer SortedMap Types SymbolTable AnnoMem Adjacency.

Record storage := Storage {
  (** l.79-83: get_outgoing_edges, l.95-99: get_ingoing_edges *)
  gs_out : N → list N;
  gs_in : N → list N;
  (** l.116: source_nodes, l.119-134: root_nodes *)
  gs_sources : list N;
  gs_roots : list N;
  (** l.140-154: find_connected, find_connected_inverse *)
  gs_connected : N → N → bound N → list N;
  gs_connected_inverse : N → N → bound N → list N;
  (** l.156-166: distance, is_connected *)
  gs_distance : N → N → option N;
  gs_is_connected : N → N → N → bound N → bool;
  (** l.168-169: get_anno_storage *)
  gs_annos : am edge;
  (** l.111-113: get_statistics, the number of nodes *)
  gs_nodes : option nat
}.
(** l.85-93, l.101-109 *)
Definition gs_has_out (gs : storage) (n : N) : bool := match gs_out gs n with [] => false | _ => true end.
Definition gs_has_in (gs : storage) (n : N) : bool := match gs_in gs n with [] => false | _ => true end.
