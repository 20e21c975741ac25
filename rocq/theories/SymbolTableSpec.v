(** Abstract specification of a symbol table: a finite map from symbols to values. A value
    gets some fresh symbol when it is first inserted, keeps it until removed, and the
    only way inserting may fail is that there are already [cap] live symbols. *)
From stdpp Require Import base list gmap.
From Coq Require Import NArith.
From Verif Require Import SymbolTable.

Section spec.
Context {V : Type} `{Countable V} (cap : N).

Inductive sym_spec : gmap nat V → st_op V → st_out V → gmap nat V → Prop :=
| spec_insert_known m v s :
    m !! s = Some v → sym_spec m (StInsert v) (OutSym (Some s)) m
| spec_insert_new m v s :
    (∀ s', m !! s' ≠ Some v) → m !! s = None →
    sym_spec m (StInsert v) (OutSym (Some s)) (<[s := v]> m)
| spec_insert_full m v :
    (∀ s', m !! s' ≠ Some v) → (cap <= N.of_nat (size m))%N →
    sym_spec m (StInsert v) (OutSym None) m
| spec_remove m s : sym_spec m (StRemove s) (OutVal (m !! s)) (delete s m)
| spec_clear m : sym_spec m StClear OutUnit ∅
| spec_reload m : sym_spec m StReload OutUnit m.

Inductive sym_spec_run : gmap nat V → list (st_op V) → list (st_out V) → gmap nat V → Prop :=
| spec_run_nil m : sym_spec_run m [] [] m
| spec_run_cons m o r m1 ops rs m2 :
    sym_spec m o r m1 → sym_spec_run m1 ops rs m2 →
    sym_spec_run m (o :: ops) (r :: rs) m2.
End spec.
