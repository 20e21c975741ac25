(** C01: symbol tables. *)
From stdpp Require Import base list gmap.
From Coq Require Import NArith.
From Verif Require Import SymbolTable SymbolTableSpec SymbolTableProofs.

(** For every history, the visible results are those of an abstract symbol map [m] and
    all later lookups agree with [m]. *)
Theorem C01_symbol_table_refines_map {V} `{Countable V} (ops : list (st_op V)) t outs :
  st_run st_new ops = (t, outs) →
  ∃ m : gmap nat V,
    sym_spec_run usize_max ∅ ops outs m ∧
    (∀ s, st_get_value t s = m !! s) ∧
    (∀ v s, st_get_symbol t v = Some s ↔ m !! s = Some v).
Proof. exact (symbol_table_refines_map_lemma ops t outs). Qed.
Print Assumptions C01_symbol_table_refines_map.

(** Different live symbols never stand for the same value. *)
Theorem C01_symbols_injective {V} `{Countable V} (ops : list (st_op V)) s1 s2 v :
  st_get_value (st_run st_new ops).1 s1 = Some v →
  st_get_value (st_run st_new ops).1 s2 = Some v → s1 = s2.
Proof. exact (symbol_table_injective_lemma ops s1 s2 v). Qed.
Print Assumptions C01_symbols_injective.

(** A non-trivial history: slot 0 is freed, reused for another value, and survives a reload. *)
Example C01_example :
  let '(t, outs) := st_run (V:=nat) st_new
     [StInsert 7; StInsert 8; StInsert 7; StRemove 0; StInsert 9; StReload; StInsert 9; StInsert 7] in
  outs = [OutSym (Some 0); OutSym (Some 1); OutSym (Some 0); OutVal (Some 7); OutSym (Some 0);
          OutUnit; OutSym (Some 0); OutSym (Some 2)]
  ∧ st_get_value t 0 = Some 9 ∧ st_get_symbol t 8 = Some 1.
Proof. vm_compute. auto. Qed.
