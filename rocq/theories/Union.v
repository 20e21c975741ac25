(** Model of the union of edge containers (/repo/core/src/graph/storage/union.rs and the default methods of EdgeContainer in
    /repo/core/src/graph/storage/mod.rs l.85-133). The items of an iterator are [Some n] for Ok and [None] for an error. The
    iteration order of a hash set is the one of [elements]. *)
From stdpp Require Import base list gmap.
From Coq Require Import NArith.

Record container := Container { out_edges : N → list (option N); in_edges : N → list (option N); sources : list (option N) }.
(** Iterator::collect into a Result *)
Definition collect (l : list (option N)) : option (list N) := mapM id l.
(** union.rs l.23-40, and l.46-63 for the other direction: the targets and the number of errors *)
Fixpoint gather (ls : list (list (option N))) (targets : gset N) (errors : nat) : gset N * nat :=
  match ls with
  | [] => (targets, errors)
  | l :: r => match collect l with
              | Some l' => gather r (targets ∪ list_to_set l') errors
              | None => gather r targets (S errors)
              end
  end.
Definition union_items (ls : list (list (option N))) : list (option N) :=
  let '(targets, errors) := gather ls ∅ 0 in
  if decide (errors = 0) then Some <$> elements targets else replicate errors None.
(** union.rs l.66-77: the first error is the only item *)
Fixpoint gather_sources (l : list (option N)) (acc : gset N) : option (gset N) :=
  match l with
  | [] => Some acc
  | Some n :: r => gather_sources r ({[n]} ∪ acc)
  | None :: _ => None
  end.
Fixpoint union_sources (cs : list container) (acc : gset N) : list (option N) :=
  match cs with
  | [] => Some <$> elements acc
  | c :: r => match gather_sources (sources c) acc with Some acc' => union_sources r acc' | None => [None] end
  end.
Definition union_container (cs : list container) : container :=
  Container (λ x, union_items ((λ c, out_edges c x) <$> cs)) (λ x, union_items ((λ c, in_edges c x) <$> cs)) (union_sources cs ∅).
(** mod.rs l.86-93 and 102-109: None for an error *)
Definition has_edges (l : list (option N)) : option bool :=
  match l with [] => Some false | Some _ :: _ => Some true | None :: _ => None end.
(** mod.rs l.119-133 *)
Definition root_nodes (c : container) : list (option N) :=
  omap (λ n, match n with
             | None => Some None
             | Some n => match has_edges (in_edges c n) with Some true => None | Some false => Some (Some n) | None => Some None end
             end) (sources c).
