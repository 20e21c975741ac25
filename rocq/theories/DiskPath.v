(** Model of the path graph storage on disk (/repo/core/src/graph/storage/disk_path.rs).
    Simplifications: an entry of the memory mapped file is its length byte and its 15 node ids (reading back the little endian
    bytes of a node id gives the node id); the disk map of inverse edges is the sorted list of its
    entries (what a disk map holds is the subject of C04 and C05) with an exclusive upper bound for ranges;
    edge annotations use the in-memory model (C09 compares the two implementations); I/O errors and the
    overflow of offsets for node ids larger than 2^64/121 are not modelled. *)
From stdpp Require Import base list gmap fin_maps.
From Coq Require Import NArith.
From Verif Require Import KeySer KeySerSpec SortedMap Types SymbolTable AnnoMem Dfs Adjacency Linear.

(** l.24 *)
Definition max_depth : nat := 15.

(** l.34-41. [t_size] is paths_file_size in entries (l.26: 121 bytes each). *)
Record dpath := DPath {
  t_size : N;
  t_paths : gmap N (nat * list N);
  t_inverse : list (edge * bool);
  t_annos : am edge;
  t_stats : option stats
}.
(** A new file is filled with zeros (l.295-297) *)
Definition zero_entry : nat * list N := (0, replicate max_depth 0%N).
Definition entry (s : dpath) (x : N) : nat * list N := default zero_entry (t_paths s !! x).

(** l.52-62 *)
Definition dp_new : dpath := DPath 0 ∅ [] am_new None.

(** l.87-111 path_for_node with l.82-85 max_node_id. [None]: number_of_entries - 1 underflows and the access to the
    empty file panics. *)
Definition dp_path (s : dpath) (x : N) : option (list N) :=
  if decide (t_size s = 0%N) then None
  else if (t_size s - 1 <? x)%N then Some [] else Some (take (entry s x).1 (entry s x).2).

(** l.64-80, l.115-124 *)
Definition dp_out (s : dpath) (x : N) : option (list N) :=
  if decide (t_size s = 0%N) then None
  else if (t_size s - 1 <? x)%N then Some []
  else Some (if decide ((entry s x).1 = 0) then [] else take 1 (entry s x).2).

(** l.126-142; l.144-161 tests whether this list is empty *)
Definition dp_in (s : dpath) (x : N) : list N :=
  target <$> (al_range edge_compare (t_inverse s) (Included (Edge x 0)) (Excluded (Edge x 18446744073709551615))).*1.
Definition dp_has_in (s : dpath) (x : N) : bool := match dp_in s x with [] => false | _ => true end.

(** l.163-181 *)
Definition dp_sources (s : dpath) : option (list N) :=
  if decide (t_size s = 0%N) then None
  else Some (filter (λ x, (entry s x).1 ≠ 0) (N.of_nat <$> seq 0 (N.to_nat (t_size s)))).
(** storage/mod.rs l.119-133 *)
Definition dp_roots (s : dpath) : option (list N) :=
  l ← dp_sources s; Some (filter (λ x, dp_has_in s x = false) l).

(** l.203-207, l.262-266: upper end of the part of the path *)
Definition path_end (max : bound N) (len : nat) : N :=
  N.min (match max with Included m => m | Excluded m => (m - 1)%N | Unbounded => N.of_nat len end) (N.of_nat len).
(** l.188-213 *)
Definition dp_find_connected (s : dpath) (x min : N) (max : bound N) : option (list N) :=
  path ← dp_path s x;
  let start := (min - 1)%N in
  let stop := path_end max (length path) in
  Some ((if decide (min = 0%N) then [x] else []) ++
        (if (start <? stop)%N then slice path (N.to_nat start) (N.to_nat stop) else [])).
(** l.215-237: find_connected_inverse is [Dfs.find_connected_inverse] on [dp_in] *)

Fixpoint position (t : N) (l : list N) : option nat :=
  match l with
  | [] => None
  | x :: l' => if decide (x = t) then Some 0 else S <$> position t l'
  end.
(** l.239-247 *)
Definition dp_distance (s : dpath) (x y : N) : option (option nat) :=
  path ← dp_path s x; Some (S <$> position y path).
(** l.249-271 *)
Definition dp_is_connected (s : dpath) (x y min : N) (max : bound N) : option bool :=
  path ← dp_path s x;
  let start := N.min (min - 1)%N (N.of_nat (length path)) in
  let stop := path_end max (length path) in
  Some (bool_decide (y ∈ drop (N.to_nat start) (take (N.to_nat stop) path))).

(** l.310-330: one step of the search from [x] *)
Definition dp_step (annos : edge → list (anno_key * bytes)) (x : N) (r : dpath * bool) (st : N * nat) : dpath * bool :=
  let '(s, ok) := r in
  if ok then
    let '(y, d) := st in
    let s1 := if decide (d = 1) then al_insert edge_compare (t_inverse s) (Edge y x) true else t_inverse s in
    let a := if decide (d = 1) then insert_annos annos (t_annos s, true) (Edge x y) else (t_annos s, true) in
    if a.2 then
      (DPath (t_size s) (<[x := (d, <[d - 1 := y]> (entry s x).2)]> (t_paths s)) s1 a.1 (t_stats s), true)
    else (DPath (t_size s) (t_paths s) s1 a.1 (t_stats s), false)
  else r.
(** l.300-331: one source node *)
Definition dp_copy_node (fuel : nat) (out : N → list N) (annos : edge → list (anno_key * bytes))
  (r : option (dpath * bool)) (x : N) : option (dpath * bool) :=
  '(s, ok) ← r;
  if ok : bool then
    '(steps, _) ← dfs_loop out 1 (N.of_nat max_depth) fuel (dfs_new x);
    Some (fold_left (dp_step annos x) steps (s, true))
  else Some (s, false).
(** l.277-342: copy. Note that the annotations of [s] are kept. The copy is written to a new file which replaces
    the old one at the end; on errors (the boolean is false) the old file stays, which is not modelled. *)
Definition dp_copy (fuel : nat) (s : dpath) (sources : list N) (out : N → list N)
  (annos : edge → list (anno_key * bytes)) (st : option stats) : option (dpath * bool) :=
  let size := (fold_left N.max sources 0 + 1)%N in
  '(s', ok) ← fold_left (dp_copy_node fuel out annos) (sort_list N.compare sources)
                (Some (DPath size ∅ [] (t_annos s) (t_stats s), true));
  Some (DPath (t_size s') (t_paths s') (t_inverse s') (t_annos s') st, ok).
