(** Model of sorting the result of a query (/repo/graphannis/src/annis/util/quicksort.rs,
    /repo/graphannis/src/annis/util/sortablecontainer.rs).
    Simplifications: the comparison does not fail (an error would be passed on at once). The random number generator is a
    sequence of numbers [rnd]; [k] is the number of those already used. An index out of bounds is [Failed]; the recursion has
    fuel, since it need not end. *)
From stdpp Require Import base list.
From Coq Require Import Arith.

Inductive out (A : Type) := Done (a : A) | Failed | NoFuel.
Arguments Done {A} a.
Arguments Failed {A}.
Arguments NoFuel {A}.

Section QuickSort.
Context {T : Type} (cmp : T → T → comparison).

Definition is_ge (c : comparison) : bool := match c with Lt => false | _ => true end.
Definition is_lt (c : comparison) : bool := match c with Lt => true | _ => false end.

(** sortablecontainer.rs l.21-32 *)
Definition try_swap (l : list T) (a b : nat) : option (list T) :=
  x ← l !! a; y ← l !! b; Some (if decide (a = b) then l else <[b := x]> (<[a := y]> l)).

(** quicksort.rs l.53-60: the inner loop of the insertion sort, [d] more steps, j = s + d - 1 *)
Fixpoint sift (s d : nat) (l : list T) : option (list T) :=
  match d with
  | 0 => Some l
  | S d' => x ← l !! (s + d'); y ← l !! (s + d' + 1);
            if is_ge (cmp x y) then l' ← try_swap l (s + d') (s + d' + 1); sift s d' l' else Some l
  end.
(** l.43-62: [n] more items from position [i] on *)
Fixpoint insertion_sort (s i n : nat) (l : list T) : option (list T) :=
  match n with
  | 0 => Some l
  | S n' => l' ← sift s (i - s) l; insertion_sort s (S i) n' l'
  end.

(** l.145-175: [n] more items from position [j] on *)
Fixpoint partition_loop (pv : T) (i j n : nat) (l : list T) : option (list T * nat) :=
  match n with
  | 0 => Some (l, i)
  | S n' => x ← l !! j;
            match cmp x pv with
            | Gt => partition_loop pv i (S j) n' l
            | _ => l' ← try_swap l i j; partition_loop pv (S i) (S j) n' l'
            end
  end.
Definition partition (s e : nat) (l : list T) : option (list T * nat) :=
  pv ← l !! (e - 1);
  '(l1, i) ← partition_loop pv s s (e - 1 - s) l;
  l2 ← try_swap l1 i (e - 1); Some (l2, i).

(** l.112-137 *)
Definition median3 (v1 v2 v3 : nat * T) : nat * T :=
  let '(a, b) := if is_lt (cmp v2.2 v1.2) then (v2, v1) else (v1, v2) in
  let '(a, c) := if is_lt (cmp v3.2 a.2) then (v3, a) else (a, v3) in
  if is_lt (cmp b.2 c.2) then b else c.
(** random_range *)
Definition random_range (rnd : nat → nat) (k s e : nat) : nat := s + rnd k mod (e - s).
(** l.101-143; only used for more than 20 items *)
Definition randomized_partition (rnd : nat → nat) (k s e : nat) (l : list T) : option (list T * nat) :=
  let i1 := random_range rnd k s e in
  let i2 := random_range rnd (k + 1) s e in
  let i3 := random_range rnd (k + 2) s e in
  v1 ← l !! i1; v2 ← l !! i2; v3 ← l !! i3;
  l1 ← try_swap l (e - 1) (median3 (i1, v1) (i2, v2) (i3, v3)).1;
  partition s e l1.

(** l.71-99 *)
Fixpoint quicksort (fuel : nat) (rnd : nat → nat) (k s e max : nat) (l : list T) : out (list T * nat) :=
  match fuel with
  | 0 => NoFuel
  | S f =>
      if decide (1 < e - s) then
        if decide (e - s ≤ 20) then
          match insertion_sort s s (e - s) l with Some l' => Done (l', k) | None => Failed end
        else
          match randomized_partition rnd k s e l with
          | None => Failed
          | Some (l1, q) =>
              match quicksort f rnd (k + 3) s q max l1 with
              | Done (l2, k2) => if decide (q < max) then quicksort f rnd k2 q e max l2 else Done (l2, k2)
              | Failed => Failed
              | NoFuel => NoFuel
              end
          end
      else Done (l, k)
  end.

(** l.26-40 *)
Definition sort_first_n_items (fuel : nat) (rnd : nat → nat) (l : list T) (n : nat) : out (list T) :=
  if decide (0 < length l) then
    match quicksort fuel rnd 0 0 (length l) n l with Done (l', _) => Done l' | Failed => Failed | NoFuel => NoFuel end
  else Done l.
(** l.10-20 *)
Definition sort (fuel : nat) (rnd : nat → nat) (l : list T) : out (list T) :=
  sort_first_n_items fuel rnd l (length l).
End QuickSort.
