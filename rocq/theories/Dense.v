(** Model of the dense adjacency list graph storage (/repo/core/src/graph/storage/dense_adjacency.rs).
    find_connected, find_connected_inverse, distance and is_connected (l.90-158) are the functions of Dfs.v
    applied to [da_out] and [da_in]: their code is the same as in adjacencylist.rs l.161-237. *)
From stdpp Require Import base list gmap fin_maps.
From Coq Require Import NArith.
From Verif Require Import KeySer KeySerSpec SortedMap Types SymbolTable AnnoMem Dfs Adjacency Linear.

(** l.21-26 *)
Record da := DA {
  da_edges : list (option N);
  da_inverse : gmap N (list N);
  da_annos : am edge;
  da_stats : option stats
}.
(** l.35-42 *)
Definition da_new : da := DA [] ∅ am_new None.

(** l.47-58 *)
Definition da_out (s : da) (x : N) : list N :=
  match da_edges s !! N.to_nat x with Some (Some y) => [y] | _ => [] end.
(** l.60-72 *)
Definition da_in (s : da) (x : N) : list N := adj_list (da_inverse s) x.
(** l.79-88 *)
Definition da_sources (s : da) : list N :=
  omap (λ ie : nat * option N, match ie.2 with Some _ => Some (N.of_nat ie.1) | None => None end)
       (imap (λ i e, (i, e)) (da_edges s)).
(** storage/mod.rs l.119-133 *)
Definition da_roots (s : da) : list N := filter (λ x, da_in s x = []) (da_sources s).

(** l.181-201: one source node. [None]: index out of bounds panic; the boolean is false if inserting an annotation
    failed, which ends the copy. *)
Definition da_copy_node (out : N → list N) (annos : edge → list (anno_key * bytes))
  (r : option (da * bool)) (x : N) : option (da * bool) :=
  match r with
  | Some (s, true) =>
      match head (out x) with
      | Some y =>
          if decide (N.to_nat x < length (da_edges s)) then
            let a := insert_annos annos (da_annos s, true) (Edge x y) in
            Some (DA (<[N.to_nat x := Some y]> (da_edges s))
                     (<[y := bs_insert x (adj_list (da_inverse s) y)]> (da_inverse s))
                     a.1 (da_stats s), a.2)
          else None
      | None => r
      end
  | _ => r
  end.
(** l.164-206: copy. [largest] is the largest node id of the node annotations. Without one, nothing is copied. *)
Definition da_copy (s : da) (largest : option N) (sources : list N) (out : N → list N)
  (annos : edge → list (anno_key * bytes)) (st : option stats) : option (da * bool) :=
  match largest with
  | Some i =>
      match fold_left (da_copy_node out annos) sources
              (Some (DA (replicate (S (N.to_nat i)) None) ∅ (am_clear (da_annos s)) (da_stats s), true)) with
      | Some (s', true) => Some (DA (da_edges s') (da_inverse s') (da_annos s') st, true)
      | r => r
      end
  | None => Some (DA [] ∅ (am_clear (da_annos s)) (da_stats s), true)
  end.
