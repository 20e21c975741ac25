(** Model of counting and of finding with offset and limit
    (/repo/graphannis/src/annis/db/corpusstorage.rs l.1592-1617, 1691-1981, 1994-2072).
    Simplifications: the execution plan of a corpus (see Plan.v) is the list of the items its iterator yields, an error being
    [None]; [desc] gives the textual description of a match (l.1912-1973); the corpora are given in the order in which they
    are searched (l.2024-2037: by name; reversed for the inverted order); no timeout; the randomized order is left out;
    64 bit numbers, wrapping around as in release builds. *)
From stdpp Require Import base list.
From Coq Require Import NArith.
From Verif Require Import QuickSort.

Section Paging.
Context {M D : Type} (cmp : M → M → comparison) (desc : M → D).

(** The execution plan of a corpus; [s_direct] tells whether its order is used as it is (l.1730-1739) *)
Record search := Search { s_plan : list (option M); s_direct : bool }.

(** l.1592-1617 *)
Definition count (cs : list search) : N := fold_left (λ n c, n + N.of_nat (length (s_plan c)))%N cs 0%N.

Fixpoint dropN {A} (n : N) (l : list A) : list A :=
  match l with [] => [] | x :: r => if (n =? 0)%N then l else dropN (n - 1)%N r end.
Fixpoint takeN {A} (n : N) (l : list A) : list A :=
  match l with [] => [] | x :: r => if (n =? 0)%N then [] else x :: takeN (n - 1)%N r end.

(** l.1812-1820 *)
Definition sort_size (offset : N) (limit : option N) (len : nat) : nat :=
  match limit with Some n => N.to_nat ((offset + n) mod 2 ^ 64)%N | None => len end.
(** l.1691-1845 *)
Definition find_iterator (fuel : nat) (rnd : nat → nat) (c : search) (offset : N) (limit : option N) : out (list (option M)) :=
  if s_direct c then Done (s_plan c)
  else match mapM id (s_plan c) with
       | None => Failed
       | Some ms => match sort_first_n_items cmp fuel rnd ms (sort_size offset limit (length ms)) with
                    | Done l => Done (Some <$> l) | Failed => Failed | NoFuel => NoFuel
                    end
       end.
(** l.1847-1981: the descriptions and the number of skipped items *)
Definition find_single (fuel : nat) (rnd : nat → nat) (c : search) (offset : N) (limit : option N) : out (list D * N) :=
  match find_iterator fuel rnd c offset limit with
  | Done it =>
      let skipped := N.min offset (N.of_nat (length it)) in
      let rest := dropN offset it in
      match mapM id (match limit with Some n => takeN n rest | None => rest end) with
      | Some ms => Done (desc <$> ms, skipped)
      | None => Failed
      end
  | Failed => Failed
  | NoFuel => NoFuel
  end.
(** l.2039-2070; [cur] is the offset for the next corpus; each corpus is sorted with other random numbers *)
Fixpoint find_loop (fuel : nat) (rnds : nat → nat → nat) (k : nat) (offset : N) (limit : option N) (cur : N) (res : list D)
    (cs : list search) : out (list D) :=
  match cs with
  | [] => Done res
  | c :: cs' =>
      match find_single fuel (rnds k) c cur limit with
      | Done (single, skipped) =>
          let res' := match limit with
                      | Some n => let remaining := (n - N.of_nat (length res))%N in
                                  if (N.of_nat (length single) <=? remaining)%N then res ++ single
                                  else res ++ takeN remaining single
                      | None => res ++ single
                      end in
          if match limit with Some n => (N.of_nat (length res') =? n)%N | None => false end then Done res'
          else find_loop fuel rnds (S k) offset limit (if (skipped <? offset)%N then (cur - skipped)%N else 0%N) res' cs'
      | Failed => Failed
      | NoFuel => NoFuel
      end
  end.
(** l.1994-2072 *)
Definition find (fuel : nat) (rnds : nat → nat → nat) (cs : list search) (offset : N) (limit : option N) : out (list D) :=
  match cs with
  | [] => Done []
  | [c] => match find_single fuel (rnds 0) c offset limit with Done r => Done r.1 | Failed => Failed | NoFuel => NoFuel end
  | _ => find_loop fuel rnds 0 offset limit offset [] cs
  end.
End Paging.
Arguments search : clear implicits.
