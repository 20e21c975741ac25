(** Specification of a map by its history. *)
From stdpp Require Import base list.
From Verif Require Import KeySer KeySerSpec SortedMap DiskMap.

Section spec.
Context {K V : Type} `{EqDecision K}.

(** The content of a map: for each key its value, if any. *)
Definition content := K → option V.
Definition empty_content : content := λ _, None.

Definition spec_step (c : content) (o : dm_op K V) : content :=
  match o with
  | DmInsert k v => λ k', if decide (k' = k) then Some v else c k'
  | DmRemove k => λ k', if decide (k' = k) then None else c k'
  | DmClear => empty_content
  | DmCompact | DmReopen => c
  end.

(** What an operation returns: [remove] returns the value it removed. *)
Definition spec_out (c : content) (o : dm_op K V) : option V :=
  match o with DmRemove k => c k | _ => None end.

Definition spec_run (c : content) (ops : list (dm_op K V)) : content := fold_left spec_step ops c.

Fixpoint spec_outs (c : content) (ops : list (dm_op K V)) : list (option V) :=
  match ops with
  | [] => []
  | o :: ops' => spec_out c o :: spec_outs (spec_step c o) ops'
  end.
End spec.

(** Being inside range bounds, in terms of the order. *)
Definition lower_ok {K} (cmp : K → K → comparison) (b : bound K) (k : K) : Prop :=
  match b with Included s => cmp s k ≠ Gt | Excluded s => cmp s k = Lt | Unbounded => True end.
Definition upper_ok {K} (cmp : K → K → comparison) (b : bound K) (k : K) : Prop :=
  match b with Included s => cmp k s ≠ Gt | Excluded s => cmp k s = Lt | Unbounded => True end.

(** Requirements on a key type: lawful [Ord], parsing inverts serialising and the byte order of
    serialised keys is the key order. (Proved for u64, Edge and byte strings in KeySer.) *)
Record key_ok {K} (P : K → Prop) (cmp : K → K → comparison) (ser : K → bytes) (parse : bytes → res K) : Prop := {
  key_cmp : CmpOrder cmp;
  key_parse : ∀ k, P k → parse (ser k) = Ok k;
  key_order : ∀ a b, P a → P b → lex_compare (ser a) (ser b) = cmp a b
}.

(** All keys used by an operation fulfil [P] (e.g. are 64 bit numbers). *)
Definition op_keys_ok {K V} (P : K → Prop) (o : dm_op K V) : Prop :=
  match o with DmInsert k _ | DmRemove k => P k | _ => True end.
Definition bound_ok {K} (P : K → Prop) (b : bound K) : Prop :=
  match b with Included k | Excluded k => P k | Unbounded => True end.
