(** Specification: names that can be used as the name of a file. *)
From Coq Require Import NArith String.
From stdpp Require Import base list.
From Verif Require Import KeySer CompPath.

Definition file_name (s : bytes) : Prop := slash ∉ s ∧ s ≠ str "." ∧ s ≠ str "..".
(** A component whose layer and name are file names; the layer is not "default_layer" (it may be empty, and so may the
    name). *)
Definition plain (c : component) : Prop :=
  file_name (c_layer c) ∧ c_layer c ≠ default_layer ∧ file_name (c_name c).
