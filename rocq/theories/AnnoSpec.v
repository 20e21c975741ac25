(** Specification of an annotation storage: a finite map from (item, key) to value. *)
From stdpp Require Import base list gmap fin_maps.
From Verif Require Import KeySer Types AnnoMem.

Section spec.
Context {T : Type} `{Countable T}.
Implicit Types M : gmap (T * anno_key) bytes.

(** Effect of an operation on the content. An insert that reports an error has no effect. *)
Definition as_step M (o : am_op T) (out : am_out) : gmap (T * anno_key) bytes :=
  match o with
  | AmInsert i k v => match out with AmErr => M | _ => <[(i, k) := v]> M end
  | AmRemove i k => delete (i, k) M
  | AmRemoveItem i => filter (λ x, x.1.1 ≠ i) M
  | AmClear => ∅
  | AmReload => M
  end.

(** Result of an operation. *)
Definition as_out M (o : am_op T) (out : am_out) : Prop :=
  match o with
  | AmInsert _ _ _ => out = AmOk ∨ out = AmErr
  | AmRemove i k => out = AmVal (M !! (i, k))
  | AmRemoveItem i => ∃ b, out = AmBool b ∧ (b = true ↔ ∃ k, is_Some (M !! (i, k)))
  | AmClear | AmReload => out = AmOk
  end.

Fixpoint as_run M (ops : list (am_op T)) (outs : list am_out) : gmap (T * anno_key) bytes :=
  match ops, outs with
  | o :: ops', out :: outs' => as_run (as_step M o out) ops' outs'
  | _, _ => M
  end.
Fixpoint as_outs_ok M (ops : list (am_op T)) (outs : list am_out) : Prop :=
  match ops, outs with
  | [], [] => True
  | o :: ops', out :: outs' => as_out M o out ∧ as_outs_ok (as_step M o out) ops' outs'
  | _, _ => False
  end.

(** A key fits a search if the name is equal and the namespace is equal if one is given. *)
Definition key_matches (ns : option bytes) (name : bytes) (k : anno_key) : Prop :=
  ak_name k = name ∧ match ns with Some n => ak_ns k = n | None => True end.
Global Instance key_matches_dec ns name k : Decision (key_matches ns name k).
Proof. unfold key_matches. destruct ns; apply _. Defined.
Definition value_matches (vs : value_search) (v : bytes) : Prop :=
  match vs with VAny => True | VSome x => v = x | VNotSome x => v ≠ x end.

(** Number of items annotated with key [k]. *)
Definition count_key M (k : anno_key) : nat := size (filter (λ x, x.1.2 = k) M).
(** Number of items with value [v] for key [k]. *)
Definition count_value M (k : anno_key) (v : bytes) : nat :=
  size (filter (λ x, x.1.2 = k ∧ x.2 = v) M).
End spec.
