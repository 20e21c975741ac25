(** Model of the cycle safe depth first search (/repo/core/src/dfs.rs). The edge container is a function
    that gives the neighbours of a node (outgoing edges, or ingoing edges for the inverse search); errors of
    the container are not modelled. *)
From stdpp Require Import base list gmap.
From Coq Require Import NArith.
From Verif Require Import SymbolTable SortedMap.

(** l.4-15: struct CycleSafeDFS. The stack is kept with its top first. *)
Record dfs := DFS {
  d_stack : list (N * nat);
  d_path : list N;
  d_in_path : gset N;
  d_last : nat;
  d_cycle : bool
}.

(** l.23-40 [new] and l.42-59 [new_inverse], which starts with cycle_detected = true *)
Definition dfs_new (node : N) : dfs := DFS [(node, 0)] [] ∅ 0 false.
Definition dfs_new_inverse (node : N) : dfs := DFS [(node, 0)] [] ∅ 0 true.

Section dfs.
Context (nb : N → list N) (min max : N).

(** l.71-78: leave the completed subgraph *)
Definition dfs_leave (s : dfs) (dist : nat) : list N * gset N :=
  if decide (dist ≤ d_last s) then
    (take dist (d_path s), fold_left (λ (X : gset N) x, X ∖ {[x]}) (drop dist (d_path s)) (d_in_path s))
  else (d_path s, d_in_path s).

(** l.65-120: enter_node for the top of the stack; the boolean is the result *)
Definition dfs_enter (s : dfs) (node : N) (dist : nat) (rest : list (N * nat)) : dfs * bool :=
  let '(path, in_path) := dfs_leave s dist in
  if decide (node ∈ in_path) then (DFS rest path in_path dist true, false)
  else
    let found := (min <=? N.of_nat dist)%N && (N.of_nat dist <=? max)%N in
    let stack := if (N.of_nat dist <? max)%N
                 then reverse ((λ o, (o, S dist)) <$> nb node) ++ rest else rest in
    (DFS stack (path ++ [node]) ({[node]} ∪ in_path) dist (d_cycle s), found).

(** l.126-145: all items of the iterator and the final state. [None]: not finished with this fuel. *)
Fixpoint dfs_loop (fuel : nat) (s : dfs) : option (list (N * nat) * dfs) :=
  match d_stack s with
  | [] => Some ([], s)
  | (node, dist) :: rest =>
      match fuel with
      | 0 => None
      | S fuel' =>
          let '(s', found) := dfs_enter s node dist rest in
          match dfs_loop fuel' s' with
          | Some (l, s'') => Some (if found then (node, dist) :: l else l, s'')
          | None => None
          end
      end
  end.
End dfs.

(** adjacencylist.rs l.168-172 (and l.192-196, l.228-232): the maximal distance as usize. [Excluded 0]
    underflows ([None]). *)
Definition max_of_bound (b : bound N) : option N :=
  match b with
  | Unbounded => Some usize_max
  | Included m => Some m
  | Excluded m => if decide (m = 0%N) then None else Some (m - 1)%N
  end.

(** adjacencylist.rs l.173-181: keep the first occurrence of each node *)
Fixpoint first_visits (visited : gset N) (l : list (N * nat)) : list N :=
  match l with
  | [] => []
  | (x, _) :: l' => if decide (x ∈ visited) then first_visits visited l'
                    else x :: first_visits ({[x]} ∪ visited) l'
  end.

Section queries.
Context (fuel : nat) (out inn : N → list N).

(** adjacencylist.rs l.161-183: find_connected *)
Definition find_connected (node min : N) (max : bound N) : option (list N) :=
  m ← max_of_bound max;
  r ← dfs_loop out min m fuel (dfs_new node);
  Some (first_visits ∅ r.1).

(** adjacencylist.rs l.185-207: find_connected_inverse *)
Definition find_connected_inverse (node min : N) (max : bound N) : option (list N) :=
  m ← max_of_bound max;
  r ← dfs_loop inn min m fuel (dfs_new_inverse node);
  Some (first_visits ∅ r.1).

(** adjacencylist.rs l.209-220: distance, the first step that reaches the target. The iterator has no side
    effects, so that taking the first item of all items is the same as stopping there. *)
Definition distance (source target : N) : option (option nat) :=
  r ← dfs_loop out 0 usize_max fuel (dfs_new source);
  Some (snd <$> head (filter (λ x : N * nat, x.1 = target) r.1)).

(** adjacencylist.rs l.221-237: is_connected *)
Definition is_connected (source target min : N) (max : bound N) : option bool :=
  m ← max_of_bound max;
  r ← dfs_loop out min m fuel (dfs_new source);
  Some (match filter (λ x : N * nat, x.1 = target) r.1 with [] => false | _ => true end).
End queries.
