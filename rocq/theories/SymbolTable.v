(** Model of [SymbolTable] (/repo/core/src/annostorage/symboltable.rs). *)
From stdpp Require Import base list gmap.
From Coq Require Import NArith.

(** usize::MAX on a 64 bit platform (l.58 of symboltable.rs uses [usize::MAX]). *)
Definition usize_max : N := 18446744073709551615%N.

Section symtab.
Context {V : Type} `{Countable V}.

(** symboltable.rs l.9-17: struct SymbolTable. [Arc<T>] is modelled by the value itself,
    the hash map by a finite map. [empty_slots] is a stack: push/pop happen at the head
    (the Vec's end in Rust). *)
Record symtab := SymTab {
  by_id : list (option V);
  by_value : gmap V nat;
  empty_slots : list nat
}.

(** symboltable.rs l.23-30 *)
Definition st_new : symtab := SymTab [] ∅ [].

(** symboltable.rs l.47-67: insert_shared. [None] in the second component is
    [Err(SymbolTableOverflow)]. *)
Definition st_insert (t : symtab) (v : V) : symtab * option nat :=
  match by_value t !! v with
  | Some existing => (t, Some existing)
  | None =>
      match empty_slots t with
      | slot :: rest =>
          (SymTab (<[slot := Some v]> (by_id t)) (<[v := slot]> (by_value t)) rest, Some slot)
      | [] =>
          if (N.of_nat (length (by_id t)) <? usize_max)%N then
            let bid := by_id t ++ [Some v] in
            let id := length bid - 1 in
            (SymTab bid (<[v := id]> (by_value t)) [], Some id)
          else (t, None)
      end
  end.

(** symboltable.rs l.69-83: remove *)
Definition st_remove (t : symtab) (s : nat) : symtab * option V :=
  if decide (s < length (by_id t)) then
    match by_id t !! s with
    | Some (Some existing) =>
        (SymTab (<[s := None]> (by_id t)) (delete existing (by_value t)) (s :: empty_slots t),
         Some existing)
    | _ => (SymTab (<[s := None]> (by_id t)) (by_value t) (empty_slots t), None)
    end
  else (t, None).

(** symboltable.rs l.85-101: get_value / get_value_ref *)
Definition st_get_value (t : symtab) (s : nat) : option V :=
  if decide (s < length (by_id t)) then
    match by_id t !! s with Some (Some v) => Some v | _ => None end
  else None.

(** symboltable.rs l.103-105: get_symbol *)
Definition st_get_symbol (t : symtab) (v : V) : option nat := by_value t !! v.

(** symboltable.rs l.107-109: len (number of slots, also counting the empty ones) *)
Definition st_len (t : symtab) : nat := length (by_id t).

(** symboltable.rs l.111-113 *)
Definition st_is_empty (t : symtab) : bool :=
  match by_id t with [] => true | _ => false end.

(** symboltable.rs l.115-119: clear *)
Definition st_clear (t : symtab) : symtab := SymTab [] ∅ [].

(** symboltable.rs l.35-39: loop of after_deserialization *)
Fixpoint st_rebuild (i : nat) (l : list (option V)) (m : gmap V nat) : gmap V nat :=
  match l with
  | [] => m
  | Some v :: l' => st_rebuild (S i) l' (<[v := i]> m)
  | None :: l' => st_rebuild (S i) l' m
  end.

(** symboltable.rs l.14 ([serde(skip)] on by_value) and l.32-40 (after_deserialization):
    effect of serialising and loading again. The bincode round trip of [by_id] and
    [empty_slots] itself is not modelled (identity). *)
Definition st_reload (t : symtab) : symtab :=
  SymTab (by_id t) (st_rebuild 0 (by_id t) ∅) (empty_slots t).

(** The operations a client can perform, and their visible results. *)
Inductive st_op := StInsert (v : V) | StRemove (s : nat) | StClear | StReload.
Inductive st_out := OutSym (s : option nat) | OutVal (v : option V) | OutUnit.

Definition st_step (t : symtab) (o : st_op) : symtab * st_out :=
  match o with
  | StInsert v => let '(t', r) := st_insert t v in (t', OutSym r)
  | StRemove s => let '(t', r) := st_remove t s in (t', OutVal r)
  | StClear => (st_clear t, OutUnit)
  | StReload => (st_reload t, OutUnit)
  end.

Fixpoint st_run (t : symtab) (ops : list st_op) : symtab * list st_out :=
  match ops with
  | [] => (t, [])
  | o :: ops' =>
      let '(t1, r) := st_step t o in
      let '(t2, rs) := st_run t1 ops' in (t2, r :: rs)
  end.
End symtab.
Arguments symtab V {_ _}.
Arguments st_op V : clear implicits.
Arguments st_out V : clear implicits.
