(** What the frequency table of a query has to count. *)
From stdpp Require Import base list gmap.
From Coq Require Import NArith.
From Verif Require Import KeySer Types SymbolTable AnnoMem SortMatches Adjacency TokenHelper TokenSearchSpec NodeSearchSpec Joins JoinsSpec Query Frequency
  ResultPages ResultPagesSpec FrequencyResults.

(** A corpus with its labels, the results of the query in it and the items of the plan *)
Record source_ := Source { so_db : corpus; so_content : content; so_results : group → Prop; so_items : list item }.
(** The corpus has these labels, and the plan finds exactly the results *)
Definition source_ok (s : source_) : Prop := holds_content (so_db s) (so_content s) ∧ finds_exactly (so_results s) (Run (so_items s) true).
(** [v] is the value of the label which the definition asks for, or the empty string without such a label; if no namespace is given, it is
    the value of one of the labels with the name *)
Definition value_for (c : content) (n : N) (d : freq_def) (v : bytes) : Prop :=
  match fd_ns d with
  | Some ns => label c n (AnnoKey (fd_name d) ns) v ∨ (ct_labels c !! (n, AnnoKey (fd_name d) ns) = None ∧ v = [])
  | None => (∃ ns, label c n (AnnoKey (fd_name d) ns) v) ∨ ((∀ ns, ct_labels c !! (n, AnnoKey (fd_name d) ns) = None) ∧ v = [])
  end.
(** [row] has one value for each definition whose node is known, from the node of the result at its position *)
Definition row_for (pos : bytes → option nat) (defs : list freq_def) (c : content) (g : group) (row : list bytes) : Prop :=
  Forall2 (λ d v, ∀ p, pos (fd_node_ref d) = Some p → match g !! p with Some m => value_for c m.1 d v | None => v = [] end)
    (filter (λ d, is_Some (pos (fd_node_ref d))) defs) row.
(** [rows] are the rows of the results [L] *)
Definition rows_for (pos : bytes → option nat) (defs : list freq_def) (ss : list source_) (L : list (nat * group)) (rows : list (list bytes)) : Prop :=
  Forall2 (λ x row, ∃ s, ss !! x.1 = Some s ∧ row_for pos defs (so_content s) x.2 row) L rows.
