(** Model of the pre/post-order graph storage (/repo/core/src/graph/storage/prepost.rs). Arithmetic on usize and
    on the order type wraps around, as in release builds (debug builds panic instead). *)
From stdpp Require Import base list gmap fin_maps.
From Coq Require Import NArith.
From Verif Require Import KeySer KeySerSpec SortedMap Types SymbolTable AnnoMem Dfs Adjacency Linear.

(** l.19-24: struct PrePost *)
Record ppo := PPO { pre_of : N; post_of : N; level_of : N }.
(** l.26-39: enum OrderVecEntry *)
Inductive ordentry := ONone | OPre (post level node : N) | OPost (pre level node : N).

(** l.41-47 *)
Record pp := PP {
  p_orders : gmap N (list ppo);
  p_vec : list ordentry;
  p_annos : am edge;
  p_stats : option stats
}.
(** l.70-77, l.79-85 *)
Definition pp_new : pp := PP ∅ [] am_new None.
Definition pp_clear (s : pp) : pp := PP ∅ [] (am_clear (p_annos s)) None.

(** a - b on usize *)
Definition usize_sub (a b : N) : N := if (b <=? a)%N then (a - b)%N else (usize_max + 1 + a - b)%N.

(** l.107-114: add an order to the list of the node *)
Definition push_order (m : gmap N (list ppo)) (xo : N * ppo) : gmap N (list ppo) :=
  <[xo.1 := default [] (m !! xo.1) ++ [xo.2]]> m.

Section pp.
(** Largest values of the order type and the level type *)
Context (omax lmax : N).

(** l.86-102 enter_node and l.104-117 exit_node. A state is the next order value, the stack with the node, its
    pre-order and its level (top first), and the map under construction. *)
Record nstate := NState { n_cur : N; n_stack : list (N * N * N); n_map : gmap N (list ppo) }.
Definition next_order (c : N) : N := ((c + 1) mod (omax + 1))%N.
Definition enter_node (s : nstate) (x level : N) : nstate :=
  NState (next_order (n_cur s)) ((x, n_cur s, level) :: n_stack s) (n_map s).
(** [exit_while d]: exit nodes as long as the stack is larger than [d] (l.510-512, l.528-530) *)
Fixpoint exit_while (d : nat) (c : N) (stack : list (N * N * N)) (m : gmap N (list ppo)) : nstate :=
  match stack with
  | [] => NState c [] m
  | (x, pre, level) :: stack' =>
      if d <? length stack then exit_while d (next_order c) stack' (push_order m (x, PPO pre c level))
      else NState c stack m
  end.
Definition exits (d : nat) (s : nstate) : nstate := exit_while d (n_cur s) (n_stack s) (n_map s).

(** l.498-525: one step of the search; the second component is last_distance. If the distance is no value of
    the level type, the node is skipped. *)
Definition copy_step (r : nstate * nat) (st : N * nat) : nstate * nat :=
  let '(s, lst) := r in
  let '(x, dist) := st in
  let s1 := if dist <=? lst then exits dist s else s in
  let s2 := if (N.of_nat dist <=? lmax)%N then enter_node s1 x (N.of_nat dist) else s1 in
  (s2, dist).

(** l.484-531: one root *)
Definition pp_copy_root (fuel : nat) (out : N → list N) (annos : edge → list (anno_key * bytes))
  (r : option (N * gmap N (list ppo) * (am edge * bool))) (root : N) :
  option (N * gmap N (list ppo) * (am edge * bool)) :=
  '(c, m, a) ← r;
  '(steps, _) ← dfs_loop out 1 usize_max fuel (dfs_new root);
  let s := (fold_left copy_step steps (enter_node (NState c [] m) root 0, 0)).1 in
  let s' := exits 0 s in
  Some (n_cur s', n_map s', fold_left (copy_node_annos out annos) (root :: steps.*1) a).

(** l.537-553: the entries of one order *)
Definition put_order (v : list ordentry) (xo : N * ppo) : list ordentry :=
  let '(x, o) := xo in
  <[N.to_nat (post_of o) := OPost (pre_of o) (level_of o) x]>
    (<[N.to_nat (pre_of o) := OPre (post_of o) (level_of o) x]> v).
Definition all_orders (m : gmap N (list ppo)) : list (N * ppo) :=
  map_to_list m ≫= λ xl, (λ o, (xl.1, o)) <$> xl.2.

(** l.466-560: copy. The outer [None] stands for missing fuel, the boolean is false if an annotation could not
    be inserted. *)
Definition pp_copy (fuel : nat) (s : pp) (roots : list N) (out : N → list N)
  (annos : edge → list (anno_key * bytes)) (st : option stats) : option (pp * bool) :=
  '(c, m, a) ← fold_left (pp_copy_root fuel out annos) roots (Some (0%N, ∅, (am_clear (p_annos s), true)));
  Some (PP m (fold_left put_order (all_orders m) (replicate (N.to_nat c) ONone)) a.1 st, a.2).
End pp.

(** l.273, l.372: filter by visited.insert *)
Fixpoint keep_first (visited : gset N) (l : list N) : list N :=
  match l with
  | [] => []
  | x :: l' => if decide (x ∈ visited) then keep_first visited l' else x :: keep_first ({[x]} ∪ visited) l'
  end.

(** l.237-291: find_connected. [None]: the upper bound Excluded(0) underflows. *)
Definition pp_find_connected (s : pp) (x min : N) (max : bound N) : option (list N) :=
  match p_orders s !! x with
  | Some orders =>
      m ← max_of_bound max;
      Some (keep_first ∅ (orders ≫= λ r,
        omap (λ e, match e with
                   | OPre post level node =>
                       let diff := usize_sub level (level_of r) in
                       if (post <=? post_of r)%N && (min <=? diff)%N && (diff <=? m)%N then Some node else None
                   | _ => None
                   end) (slice (p_vec s) (N.to_nat (pre_of r)) (S (N.to_nat (post_of r))))))
  | None => Some []
  end.

(** l.293-390: find_connected_inverse *)
Definition pp_find_connected_inverse (s : pp) (x min : N) (max : bound N) : option (list N) :=
  match p_orders s !! x with
  | Some orders =>
      m ← max_of_bound max;
      Some (keep_first ∅ (orders ≫= λ r,
        let len := N.of_nat (length (p_vec s)) in
        let use_post := (usize_sub len (post_of r) <? pre_of r)%N in
        let start := if use_post then N.to_nat (post_of r) else 0 in
        let stop := if use_post then length (p_vec s) else S (N.to_nat (pre_of r)) in
        omap (λ ie : nat * ordentry,
          let idx := N.of_nat (start + ie.1) in
          let cand := match ie.2 with
                      | OPost pre level node => if use_post then Some (pre, idx, level, node) else None
                      | OPre post level node => if use_post then None else Some (idx, post, level, node)
                      | ONone => None
                      end in
          match cand with
          | Some (pre, post, level, node) =>
              if (level_of r <? level)%N then None  (* checked_sub *)
              else
                let diff := (level_of r - level)%N in
                if (pre <=? pre_of r)%N && (post_of r <=? post)%N && (min <=? diff)%N && (diff <=? m)%N
                then Some node else None
          | None => None
          end) (imap (λ i e, (i, e)) (slice (p_vec s) start stop))))
  | None => Some []
  end.

(** l.147-159: outgoing and ingoing edges. The bound Included(1) cannot underflow. *)
Definition pp_out (s : pp) (x : N) : list N := default [] (pp_find_connected s x 1 (Included 1%N)).
Definition pp_in (s : pp) (x : N) : list N := default [] (pp_find_connected_inverse s x 1 (Included 1%N)).
(** l.161-175 *)
Definition pp_sources (s : pp) : list N :=
  filter (λ x, pp_out s x ≠ []) (map_to_list (p_orders s)).*1.
(** storage/mod.rs l.119-133: root_nodes, with the default has_ingoing_edges *)
Definition pp_roots (s : pp) : list N := filter (λ x, pp_in s x = []) (pp_sources s).

(** Pairs of orders of the two nodes such that the first contains the second, in the order of the two loops, with the
    difference of the levels (l.399-413, l.443-457) *)
Definition pp_diffs (s : pp) (x y : N) : list N :=
  match p_orders s !! x, p_orders s !! y with
  | Some ox, Some oy =>
      ox ≫= λ a, omap (λ b,
        if (pre_of a <=? pre_of b)%N && (post_of b <=? post_of a)%N && (level_of a <=? level_of b)%N
        then Some (level_of b - level_of a)%N else None) oy
  | _, _ => []
  end.
(** l.392-427: distance *)
Definition pp_distance (s : pp) (x y : N) : option N :=
  if decide (x = y) then Some 0%N
  else match pp_diffs s x y with
       | [] => None
       | l => Some (fold_left (λ m d, N.min d m) l usize_max)
       end.
(** l.428-464: is_connected decides by the first pair *)
Definition pp_is_connected (s : pp) (x y min : N) (max : bound N) : option bool :=
  match p_orders s !! x, p_orders s !! y with
  | Some _, Some _ =>
      m ← max_of_bound max;
      match pp_diffs s x y with
      | d :: _ => Some ((min <=? d)%N && (d <=? m)%N)
      | [] => Some false
      end
  | _, _ => Some false
  end.
