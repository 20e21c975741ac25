(** Specification vocabulary for directed graphs: walks, simple paths and reachability. *)
From stdpp Require Import base list gmap.
From Coq Require Import NArith.
From Verif Require Import SortedMap.

Section graph.
Context (E : N → N → Prop).

(** [walk s p t]: following edges from [s] through the nodes of [p] ends in [t]. [p] does not contain the
    start, so its length is the number of edges. *)
Fixpoint walk (s : N) (p : list N) (t : N) : Prop :=
  match p with
  | [] => s = t
  | x :: p' => E s x ∧ walk x p' t
  end.

(** A cycle-free path: no node is visited twice. *)
Definition simple_path (s : N) (p : list N) (t : N) : Prop := walk s p t ∧ NoDup (s :: p).

Definition reachable (s t : N) : Prop := ∃ p, walk s p t.

(** There is a cycle that can be reached from [s]. *)
Definition on_cycle (x : N) : Prop := ∃ p, p ≠ [] ∧ walk x p x.
Definition acyclic : Prop := ∀ x, ¬ on_cycle x.

(** Length of a shortest path *)
Definition shortest (s t : N) (d : nat) : Prop :=
  (∃ p, walk s p t ∧ length p = d) ∧ ∀ p, walk s p t → d ≤ length p.
End graph.

(** Distance ranges as given by a caller: a minimum and an upper bound. *)
Definition in_distance (min : N) (max : bound N) (d : nat) : Prop :=
  (min <= N.of_nat d)%N ∧
  match max with
  | Unbounded => True
  | Included m => (N.of_nat d <= m)%N
  | Excluded m => (N.of_nat d < m)%N
  end.

(** Node identifiers are 64 bit numbers. *)
Definition node_bound : N := 18446744073709551616.
