(** Model of the linear graph storage (/repo/core/src/graph/storage/linear.rs). Arithmetic on usize and on
    the position type wraps around, as in release builds (debug builds panic instead). *)
From stdpp Require Import base list gmap fin_maps.
From Coq Require Import NArith.
From Verif Require Import KeySer KeySerSpec SortedMap Types SymbolTable AnnoMem Dfs Adjacency.

Definition usize_wrap (n : N) : N := (n mod (usize_max + 1))%N.

(** Copying edge annotations, as it is done by all specialised storages: l.57-73 for all outgoing edges of
    a node (with the outgoing edges given by [out] and the annotations by [annos]). The boolean is false if
    an insert failed. *)
Definition insert_annos (annos : edge → list (anno_key * bytes)) (r : am edge * bool) (e : edge) : am edge * bool :=
  fold_left (λ (r : am edge * bool) (a : anno_key * bytes),
               if r.2 then am_insert edge_compare r.1 e a.1 a.2 else r) (annos e) r.
Definition copy_node_annos (out : N → list N) (annos : edge → list (anno_key * bytes))
  (r : am edge * bool) (x : N) : am edge * bool :=
  fold_left (insert_annos annos) ((λ y, Edge x y) <$> out x) r.

(** l.18-30. [l_pos] maps a node to its root and position, [l_chains] a root to the nodes of its chain. *)
Record lin := Lin {
  l_pos : gmap N (N * N);
  l_chains : gmap N (list N);
  l_annos : am edge;
  l_stats : option stats
}.
(** l.36-43, l.45-51 *)
Definition lin_new : lin := Lin ∅ ∅ am_new None.
Definition lin_clear (s : lin) : lin := Lin ∅ ∅ (am_clear (l_annos s)) None.

Section lin.
(** Largest value of the position type (255, 65535 or 2^32-1) *)
Context (pmax : N).

(** l.90-106 *)
Definition lin_out (s : lin) (x : N) : list N :=
  match l_pos s !! x with
  | Some (root, pos) =>
      match l_chains s !! root with
      | Some chain =>
          let next := ((pos + 1) mod (pmax + 1))%N in
          match chain !! N.to_nat next with Some y => [y] | None => [] end
      | None => []
      end
  | None => []
  end.

(** l.108-122. The index into the chain panics if it is out of bounds; here the result is empty then. *)
Definition lin_in (s : lin) (x : N) : list N :=
  match l_pos s !! x with
  | Some (root, pos) =>
      match l_chains s !! root with
      | Some chain =>
          if decide (pos = 0%N) then []
          else match chain !! N.to_nat (pos - 1) with Some y => [y] | None => [] end
      | None => []
      end
  | None => []
  end.

(** l.124-131 *)
Definition lin_has_in (s : lin) (x : N) : bool :=
  match l_pos s !! x with Some (_, pos) => negb (pos =? 0)%N | None => false end.

(** l.133-144 *)
Definition lin_sources (s : lin) : list N :=
  (map_to_list (l_chains s)) ≫= λ rc, drop 1 (reverse rc.2).
(** l.146-149 *)
Definition lin_roots (s : lin) : list N := (map_to_list (l_chains s)).*1.

(** chain[a..b] *)
Definition slice {A} (l : list A) (a b : nat) : list A := take (b - a) (drop a l).

(** l.204-230 *)
Definition lin_find_connected (s : lin) (x min : N) (max : bound N) : list N :=
  match l_pos s !! x with
  | Some (root, offset) =>
      match l_chains s !! root with
      | Some chain =>
          let len := N.of_nat (length chain) in
          if (usize_max <? offset + min)%N then []  (* checked_add *)
          else
            let mi := (offset + min)%N in
            if (mi <? len)%N then
              match max with
              | Unbounded => drop (N.to_nat mi) chain
              | Included m =>
                  let ma := N.min len (usize_wrap (offset + m + 1)) in
                  if (mi <? ma)%N then slice chain (N.to_nat mi) (N.to_nat ma) else []
              | Excluded m =>
                  let ma := N.min len (usize_wrap (offset + m)) in
                  if (mi <? ma)%N then slice chain (N.to_nat mi) (N.to_nat ma) else []
              end
            else []
      | None => []
      end
  | None => []
  end.

(** l.232-259 *)
Definition lin_find_connected_inverse (s : lin) (x min : N) (max : bound N) : list N :=
  match l_pos s !! x with
  | Some (root, offset) =>
      match l_chains s !! root with
      | Some chain =>
          let len := N.of_nat (length chain) in
          let ma := match max with
                    | Unbounded => 0%N
                    | Included m => (offset - m)%N
                    | Excluded m => (offset - usize_wrap (m + 1))%N
                    end in
          if (offset <? min)%N then []  (* checked_sub *)
          else
            let mi := (offset - min)%N in
            if (mi <? len)%N && (ma <=? mi)%N then slice chain (N.to_nat ma) (S (N.to_nat mi))
            else if (ma <? len)%N then drop (N.to_nat ma) chain
            else []
      | None => []
      end
  | None => []
  end.

(** l.261-277 *)
Definition lin_distance (s : lin) (x y : N) : option N :=
  if decide (x = y) then Some 0%N
  else match l_pos s !! x, l_pos s !! y with
       | Some (r1, p1), Some (r2, p2) =>
           if decide (r1 = r2) then if (p1 <=? p2)%N then Some (p2 - p1)%N else None else None
       | _, _ => None
       end.

(** l.279-308 *)
Definition lin_is_connected (s : lin) (x y min : N) (max : bound N) : bool :=
  match l_pos s !! x, l_pos s !! y with
  | Some (r1, p1), Some (r2, p2) =>
      if decide (r1 = r2) then
        if (p1 <=? p2)%N then
          let diff := (p2 - p1)%N in
          match max with
          | Unbounded => (min <=? diff)%N
          | Included m => (min <=? diff)%N && (diff <=? m)%N
          | Excluded m => (min <=? diff)%N && (diff <? m)%N
          end
        else false
      else false
  | _, _ => false
  end.

(** l.330-346: the nodes found by the search from one root are appended to the chain; [i] is the length of
    the chain so far. *)
Fixpoint lin_positions (root : N) (i : nat) (l : list N) (m : gmap N (N * N)) : gmap N (N * N) :=
  match l with
  | [] => m
  | x :: l' =>
      lin_positions root (S i) l'
        (if (N.of_nat i <=? pmax)%N then <[x := (root, N.of_nat i)]> m else m)
  end.

(** l.319-349: one root. The annotations of all nodes on the chain are copied on the way. *)
Definition lin_copy_root (fuel : nat) (out : N → list N) (annos : edge → list (anno_key * bytes))
  (r : option (lin * bool)) (root : N) : option (lin * bool) :=
  '(s, ok) ← r;
  '(steps, _) ← dfs_loop out 1 usize_max fuel (dfs_new root);
  let nodes := root :: steps.*1 in
  let '(a, ok') := fold_left (copy_node_annos out annos) nodes (l_annos s, ok) in
  Some (Lin (lin_positions root 1 (steps.*1) (<[root := (root, 0%N)]> (l_pos s)))
            (<[root := nodes]> (l_chains s)) a (l_stats s), ok').

(** l.310-358: copy. [roots] are the root nodes of the original storage in any order. The outer [None]
    stands for missing fuel, the boolean is false if an annotation could not be inserted (then the real
    copy stops with an error). *)
Definition lin_copy (fuel : nat) (s : lin) (roots : list N) (out : N → list N)
  (annos : edge → list (anno_key * bytes)) (st : option stats) : option (lin * bool) :=
  '(s', ok) ← fold_left (lin_copy_root fuel out annos) roots (Some (lin_clear s, true));
  Some (Lin (l_pos s') (l_chains s') (l_annos s') st, ok).
End lin.
