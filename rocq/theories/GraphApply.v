(** Model of applying updates to a graph in memory (/repo/core/src/graph/mod.rs l.382-647).
    Simplifications: every component is a writeable in-memory adjacency list (graph storages of other kinds are first
    copied into one, see Registry.v); the annotation storage of the nodes is the in-memory one; the component type is
    [DefaultComponentType], whose hooks before and after an event do nothing, but any function [ct] can translate the
    name of a component type; the statistics calculated at the end (l.636-639, see Adjacency.v and StatsProofs.v) and the
    progress messages are left out; the number of the last change is kept. *)
From stdpp Require Import base list gmap.
From Coq Require Import NArith.
From Verif Require Import KeySer KeySerSpec SortedMap Types SymbolTable AnnoMem Adjacency GraphUpdate.

(** /repo/core/src/types.rs l.203-212: a component is given by its type, layer and name. *)
Definition comp : Type := N * bytes * bytes.

(** /repo/core/src/graph/mod.rs l.31-56: ANNIS_NS, NODE_NAME_KEY ("node_name") and NODE_TYPE_KEY ("node_type") *)
Definition annis : bytes := [97; 110; 110; 105; 115]%N.
Definition node_name_key : anno_key := AnnoKey [110; 111; 100; 101; 95; 110; 97; 109; 101]%N annis.
Definition node_type_key : anno_key := AnnoKey [110; 111; 100; 101; 95; 116; 121; 112; 101]%N annis.

(** l.58-80 (the fields that matter here) *)
Record gstate := GState { g_node_annos : am N; g_comps : gmap comp adj; g_change : N }.
Definition g_empty : gstate := GState am_new ∅ 0.

(** [CLruCache] of the crate clru: the most recently used entry first. *)
Definition lru : Type := list (bytes * option N).
(** get: finds an entry and moves it to the front *)
Definition lru_get (c : lru) (n : bytes) : option (option N * lru) :=
  match list_find (λ x, x.1 = n) c with
  | Some (_, x) => Some (x.2, x :: filter (λ y, y.1 ≠ n) c)
  | None => None
  end.
(** put: adds or replaces an entry, dropping the least recently used one if the cache is full *)
Definition lru_put (cap : nat) (c : lru) (n : bytes) (v : option N) : lru :=
  take cap ((n, v) :: filter (λ y, y.1 ≠ n) c).

(** l.382-394 *)
Definition cached_id (cap : nat) (st : gstate) (c : lru) (n : bytes) : option N * lru :=
  match lru_get c n with
  | Some r => r
  | None => let id := am_node_id_from_name node_name_key (g_node_annos st) n in (id, lru_put cap c n id)
  end.

(** l.859-885 *)
Definition writable (st : gstate) (c : comp) : adj := default adj_new (g_comps st !! c).
Definition set_comp (st : gstate) (c : comp) (g : adj) : gstate :=
  GState (g_node_annos st) (<[c := g]> (g_comps st)) (g_change st).
Definition set_annos (st : gstate) (a : am N) : gstate := GState a (g_comps st) (g_change st).
(** [delete_node] on a component *)
Definition del_node_in (id : N) (st : gstate) (c : comp) : gstate := set_comp st c (adj_delete_node (writable st c) id).

(** largest id + 1 (l.424-429); an overflow of the 64 bit number panics in a debug build *)
Definition new_id (st : gstate) : option N :=
  match am_largest_item (g_node_annos st) with
  | Some i => if (i + 1 <? 2 ^ 64)%N then Some (i + 1)%N else None
  | None => Some 0%N
  end.

(** The common part of the four events about edges, e.g. l.509-531. *)
Definition on_edge (ct : bytes → option N) (cap : nat) (st : gstate) (c : lru) (src tgt layer ctype cname : bytes)
    (f : adj → edge → adj * bool) : option (gstate * lru) :=
  let '(i, c1) := cached_id cap st c src in
  let '(j, c2) := cached_id cap st c1 tgt in
  match i, j, ct ctype with
  | Some i, Some j, Some t =>
      let '(g, ok) := f (writable st (t, layer, cname)) (Edge i j) in
      if ok then Some (set_comp st (t, layer, cname) g, c2) else None
  | _, _, _ => Some (st, c2)
  end.

(** l.413-620: one event. [None] is an error or a panic. [all] are the components that existed before the update (l.407).
    The question [is_connected(source, target, 1, Included(1))] is whether the edge is in the list of outgoing edges,
    see [GraphApplyProps.C22_edge_test]. *)
Definition ev_step (ct : bytes → option N) (cap : nat) (all : list comp) (st : gstate) (c : lru) (e : event) :
    option (gstate * lru) :=
  match e with
  | AddNode n t =>
      if am_has_node_name node_name_key (g_node_annos st) n then Some (st, c)
      else i ← new_id st;
           let '(a1, ok1) := am_insert N.compare (g_node_annos st) i node_name_key n in
           if ok1 then
             let '(a2, ok2) := am_insert N.compare a1 i node_type_key t in
             if ok2 then Some (set_annos st a2, lru_put cap c n (Some i)) else None
           else None
  | DeleteNode n =>
      let '(r, c1) := cached_id cap st c n in
      match r with
      | Some i => Some (fold_left (del_node_in i) all (set_annos st (am_remove_item (g_node_annos st) i).1),
                        lru_put cap c1 n None)
      | None => Some (st, c1)
      end
  | AddNodeLabel n ns a v =>
      let '(r, c1) := cached_id cap st c n in
      match r with
      | Some i => let '(a', ok) := am_insert N.compare (g_node_annos st) i (AnnoKey a ns) v in
                  if ok then Some (set_annos st a', c1) else None
      | None => Some (st, c1)
      end
  | DeleteNodeLabel n ns a =>
      let '(r, c1) := cached_id cap st c n in
      match r with
      | Some i => Some (set_annos st (am_remove_annotation (g_node_annos st) i (AnnoKey a ns)).1, c1)
      | None => Some (st, c1)
      end
  | GraphUpdate.AddEdge s t l ty cn => on_edge ct cap st c s t l ty cn (λ g e, (adj_add_edge g e, true))
  | DeleteEdge s t l ty cn => on_edge ct cap st c s t l ty cn (λ g e, (adj_delete_edge g e, true))
  | AddEdgeLabel s t l ty cn ns a v =>
      on_edge ct cap st c s t l ty cn
        (λ g e, if decide (target e ∈ adj_out g (source e)) then adj_add_anno g e (AnnoKey a ns) v else (g, true))
  | DeleteEdgeLabel s t l ty cn ns a =>
      on_edge ct cap st c s t l ty cn
        (λ g e, if decide (target e ∈ adj_out g (source e)) then (adj_delete_anno g e (AnnoKey a ns), true) else (g, true))
  end.

(** l.413, 621-622: all events of an update; each event has the number it got when it was added to the list. *)
Fixpoint ev_loop (ct : bytes → option N) (cap : nat) (all : list comp) (st : gstate) (c : lru) (es : list (N * event)) :
    option gstate :=
  match es with
  | [] => Some st
  | (id, e) :: es' =>
      '(st', c') ← ev_step ct cap all st c e;
      ev_loop ct cap all (GState (g_node_annos st') (g_comps st') id) c' es'
  end.
(** l.397-647, with an empty cache of 1000 names *)
Definition apply_update (ct : bytes → option N) (st : gstate) (es : list (N * event)) : option gstate :=
  ev_loop ct 1000 (map_to_list (g_comps st)).*1 st [] es.
(** A history of updates, each returning without error *)
Fixpoint apply_updates (ct : bytes → option N) (st : gstate) (us : list (list (N * event))) : option gstate :=
  match us with
  | [] => Some st
  | u :: us' => st' ← apply_update ct st u; apply_updates ct st' us'
  end.

(** DefaultComponentType::from_str (types.rs l.189-199) accepts the name "Edge" only *)
Definition default_ctype (s : bytes) : option N := if decide (s = [69; 100; 103; 101]%N) then Some 0%N else None.
