(** Specification of frequency tables (C40). *)
From stdpp Require Import base list gmap.
From Coq Require Import NArith.
From Verif Require Import KeySer Types SortMatches Joins Frequency.

(** The matches of a list of corpora, each with its corpus; None if there is an error *)
Definition matches_of (c : fcorpus) : option (list (fcorpus * group)) :=
  items ← fc_plan c; mapM (λ i, match i with IOk g => Some (c, g) | _ => None end) items.
Definition all_matches (cs : list fcorpus) : option (list (fcorpus * group)) :=
  l ← mapM matches_of cs; Some (concat l).

(** [v] is the value of the label ns:name of the node [n], or the empty string without such a label; if no namespace is given, it
    is the value of one of the labels with the name. *)
Definition label_value (c : fcorpus) (n : N) (d : freq_def) (v : bytes) : Prop :=
  match fd_ns d with
  | Some ns => v = default [] (fc_value c n (AnnoKey (fd_name d) ns))
  | None => (∃ k, ak_name k = fd_name d ∧ fc_value c n k = Some v) ∨
            ((∀ k, ak_name k = fd_name d → fc_value c n k = None) ∧ v = [])
  end.
(** The contract of the annotation storage about qualified names, see C09 *)
Definition qnames_ok (c : fcorpus) : Prop :=
  ∀ name k, k ∈ fc_qnames c name ↔ ak_name k = name ∧ ∃ n, is_Some (fc_value c n k).
(** [row] are the values of the definitions for the match: definition by definition the value of the node at the position of the
    definition's variable, or the empty string if the match has no such node *)
Definition row_of (pos : bytes → option nat) (defs : list freq_def) (c : fcorpus) (g : group) (row : list bytes) : Prop :=
  Forall2 (λ d v, ∀ p, pos (fd_node_ref d) = Some p →
             match g !! p with Some m => label_value c m.1 d v | None => v = [] end)
    (filter (λ d, is_Some (pos (fd_node_ref d))) defs) row.
