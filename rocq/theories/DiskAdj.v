(** Model of the adjacency list graph storage on disk (/repo/core/src/graph/storage/disk_adjacency.rs).
    Simplifications: a disk map is the sorted list of its entries (what a disk map holds is the subject of C04 and
    C05); edge annotations use the in-memory model (C09 compares the two implementations); I/O errors are not
    modelled. find_connected, find_connected_inverse, distance and is_connected (l.178-256) are the functions of
    Dfs.v applied to [dk_out] and [dk_in]: their code is the same as in adjacencylist.rs l.161-237. *)
From stdpp Require Import base list gmap fin_maps.
From Coq Require Import NArith.
From Verif Require Import KeySer KeySerSpec SortedMap Types SymbolTable AnnoMem Dfs Adjacency.

(** l.17-22 *)
Record dadj := DAdj {
  k_edges : list (edge * bool);
  k_inverse : list (edge * bool);
  k_annos : am edge;
  k_stats : option stats
}.
(** l.43-50 and l.52-58 *)
Definition dk_new : dadj := DAdj [] [] am_new None.
Definition dk_clear (s : dadj) : dadj := DAdj [] [] (am_clear (k_annos s)) None.

(** NodeID::MAX *)
Definition max_id : N := 18446744073709551615.
(** types.rs l.56-61: Edge::inverse *)
Definition inverse (e : edge) : edge := Edge (target e) (source e).

(** l.62-80, l.82-97, l.99-117. The upper bound of the range is exclusive. *)
Definition targets_of (l : list (edge * bool)) (x : N) : list N :=
  target <$> (al_range edge_compare l (Included (Edge x 0)) (Excluded (Edge x max_id))).*1.
Definition dk_out (s : dadj) (x : N) : list N := targets_of (k_edges s) x.
Definition dk_has_out (s : dadj) (x : N) : bool := match dk_out s x with [] => false | _ => true end.
Definition dk_in (s : dadj) (x : N) : list N := targets_of (k_inverse s) x.
(** l.118-127 *)
Fixpoint unique (seen : gset N) (l : list N) : list N :=
  match l with
  | [] => []
  | x :: l' => if decide (x ∈ seen) then unique seen l' else x :: unique ({[x]} ∪ seen) l'
  end.
Definition dk_sources (s : dadj) : list N := unique ∅ (source <$> (k_edges s).*1).
(** storage/mod.rs l.85-133: default implementations in the trait EdgeContainer *)
Definition dk_has_in (s : dadj) (x : N) : bool := match dk_in s x with [] => false | _ => true end.
Definition dk_roots (s : dadj) : list N := filter (λ x, dk_has_in s x = false) (dk_sources s).

(** l.295-303: add_edge *)
Definition dk_add_edge (s : dadj) (e : edge) : dadj :=
  if decide (source e = target e) then s
  else DAdj (al_insert edge_compare (k_edges s) e true) (al_insert edge_compare (k_inverse s) (inverse e) true)
            (k_annos s) None.
(** l.305-310: add_edge_annotation *)
Definition dk_add_anno (s : dadj) (e : edge) (k : anno_key) (v : bytes) : dadj * bool :=
  match al_get edge_compare (k_edges s) e with
  | Some _ =>
      let '(a, r) := am_insert edge_compare (k_annos s) e k v in
      (DAdj (k_edges s) (k_inverse s) a (k_stats s), r)
  | None => (s, true)
  end.
(** l.312-319: delete_edge *)
Definition dk_delete_edge (s : dadj) (e : edge) : dadj :=
  DAdj (al_remove edge_compare (k_edges s) e) (al_remove edge_compare (k_inverse s) (inverse e))
       (am_remove_item (k_annos s) e).1 (k_stats s).
(** l.320-323: delete_edge_annotation *)
Definition dk_delete_anno (s : dadj) (e : edge) (k : anno_key) : dadj :=
  DAdj (k_edges s) (k_inverse s) (am_remove_annotation (k_annos s) e k).1 (k_stats s).
(** l.324-349: delete_node *)
Definition dk_delete_node (s : dadj) (x : N) : dadj :=
  fold_left dk_delete_edge
    (((λ t, Edge x t) <$> dk_out s x) ++ ((λ y, Edge y x) <$> dk_in s x)) s.
(** l.138-176: load_from after save_to *)
Definition dk_reload (s : dadj) : dadj :=
  DAdj (k_edges s) (k_inverse s) (am_reload (k_annos s)) (k_stats s).

(** l.258-281: copy *)
Definition dk_copy_edge (annos : edge → list (anno_key * bytes)) (r : dadj * bool) (e : edge) : dadj * bool :=
  let '(s, ok) := r in
  if ok then
    fold_left (λ (r : dadj * bool) (a : anno_key * bytes), let '(s, ok) := r in
                 if ok then dk_add_anno s e a.1 a.2 else r)
              (annos e) (dk_add_edge s e, true)
  else r.
Definition dk_copy (s : dadj) (sources : list N) (out : N → list N)
  (annos : edge → list (anno_key * bytes)) (st : option stats) : dadj * bool :=
  let '(s1, ok) := fold_left (dk_copy_edge annos) (sources ≫= λ x, (λ y, Edge x y) <$> out x) (dk_clear s, true) in
  (DAdj (k_edges s1) (k_inverse s1) (k_annos s1) st, ok).

(** l.24-40: get_fan_outs *)
Definition dk_fan_outs (l : list (edge * bool)) : list nat :=
  let counts := fold_left (λ (m : gmap N nat) (e : edge), <[source e := S (default 0 (m !! source e))]> m) l.*1 ∅ in
  sort_list Nat.compare (map_to_list counts).*2.
(** l.351-466: calculate_statistics *)
Definition dk_calc_stats (fuel : nat) (s : dadj) : option stats :=
  stats_of fuel (dk_out s) (source <$> (k_edges s).*1) (target <$> (k_edges s).*1)
    (bool_decide (k_edges s ≠ [])) (dk_fan_outs (k_edges s)) (dk_fan_outs (k_inverse s)).

Definition dk_step (s : dadj) (o : adj_op) : dadj * bool :=
  match o with
  | AddEdge e => (dk_add_edge s e, true)
  | AddAnno e k v => dk_add_anno s e k v
  | DelEdge e => (dk_delete_edge s e, true)
  | DelAnno e k => (dk_delete_anno s e k, true)
  | DelNode x => (dk_delete_node s x, true)
  | ClearEdges => (dk_clear s, true)
  | ReloadEdges => (dk_reload s, true)
  end.
Fixpoint dk_run (s : dadj) (ops : list adj_op) : dadj * list bool :=
  match ops with
  | [] => (s, [])
  | o :: ops' => let '(s1, r) := dk_step s o in let '(s2, rs) := dk_run s1 ops' in (s2, r :: rs)
  end.
