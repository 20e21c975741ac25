(** Model of the operators on edges (dominance, pointing, part of; /repo/graphannis/src/annis/db/aql/operators/edge_op.rs), of
    the number of children (arity.rs), of the same node (identical_node.rs) and of the lookup of components
    (/repo/core/src/graph/mod.rs l.1086-1132).
    Simplifications: errors of the storages and the estimates are left out; the regular expression engine is a parameter [rx]
    (None: the pattern is invalid); operators are called with nodes, since all of them ignore the annotation of a match and report
    the default one. *)
From stdpp Require Import base list gmap sorting.
From Coq Require Import NArith.
From Verif Require Import KeySer SortedMap Types SymbolTable AnnoMem Adjacency Storage GraphApply TokenOps.

(** /repo/core/src/types.rs l.201-212: the derived order compares the type, then the name and then the layer *)
Record cname := CName { cn_type : N; cn_name : bytes; cn_layer : bytes }.
Global Instance cname_eq_dec : EqDecision cname.
Proof. solve_decision. Defined.
Definition cname_compare (a b : cname) : comparison :=
  match N.compare (cn_type a) (cn_type b) with
  | Eq => anno_key_compare (AnnoKey (cn_name a) (cn_layer a)) (AnnoKey (cn_name b) (cn_layer b))
  | c => c
  end.
(** /repo/core/src/graph/mod.rs l.66: the components in a BTreeMap; None: not loaded *)
Notation components := (list (cname * option storage)).

(** the loops with break in l.1093-1098 and l.1106-1111 *)
Fixpoint take_while (p : cname → bool) (l : list cname) : list cname :=
  match l with
  | [] => []
  | c :: r => if p c then c :: take_while p r else []
  end.
Definition same_type (t : N) (c : cname) : bool := bool_decide (cn_type c = t).
Definition same_name (n : bytes) (c : cname) : bool := bool_decide (cn_name c = n).
(** l.1086-1132 *)
Definition all_components (cs : components) (ctype : option N) (name : option bytes) : list cname :=
  match ctype, name with
  | Some t, Some n => take_while (λ c, same_name n c && same_type t c) (al_range cname_compare cs (Included (CName t n [])) Unbounded).*1
  | Some t, None => take_while (same_type t) (al_range cname_compare cs (Included (CName t [] [])) Unbounded).*1
  | None, _ => filter (λ c, match name with Some n => same_name n c | None => true end = true) cs.*1
  end.
(** l.1057-1061: get_graphstorage *)
Definition get_storage (cs : components) (c : cname) : option storage := mjoin (al_get cname_compare cs c).

(** /repo/graphannis/src/annis/operator.rs l.8-29: EdgeAnnoSearchSpec *)
Inductive edge_label :=
| LExact (ns : option bytes) (name : bytes) (val : option bytes)
| LNotExact (ns : option bytes) (name val : bytes)
| LRegex (ns : option bytes) (name pat : bytes)
| LNotRegex (ns : option bytes) (name pat : bytes).

(** edge_op.rs l.133-241; an annotation has the right name *)
Definition right_key (ns : option bytes) (name : bytes) (k : anno_key) : bool :=
  bool_decide (name = ak_name k) && match ns with Some n => bool_decide (n = ak_ns k) | None => true end.
Section Ops.
Context (rx : bytes → option (bytes → bool)).
Definition check_edge_label (el : option edge_label) (gs : storage) (src tgt : N) : bool :=
  let annos := am_get_annotations (gs_annos gs) (Edge src tgt) in
  match el with
  | Some (LExact ns name val) =>
      existsb (λ a, right_key ns name a.1 && match val with Some v => bool_decide (v = a.2) | None => true end) annos
  | Some (LNotExact ns name val) => existsb (λ a, right_key ns name a.1 && negb (bool_decide (val = a.2))) annos
  | Some (LRegex ns name pat) =>
      match rx pat with Some re => existsb (λ a, right_key ns name a.1 && re a.2) annos | None => false end
  | Some (LNotRegex ns name pat) =>
      match rx pat with Some re => existsb (λ a, right_key ns name a.1 && negb (re a.2)) annos | None => false end
  | None => true
  end.

(** l.21-36: BaseEdgeOpSpec and BaseEdgeOp *)
Record edge_op := EdgeOp {
  eo_gs : list storage;
  eo_dist : range_spec;
  eo_label : option edge_label;
  eo_reflexive : bool;
  eo_cost_check : bool;
  eo_inverse : bool
}.
(** l.38-57; None: a component is not loaded, ImpossibleSearch *)
Definition new_edge_op (cs : components) (names : list cname) (dist : range_spec) (el : option edge_label) (reflexive cost_check : bool) :
    option edge_op :=
  gs ← mapM (get_storage cs) names; Some (EdgeOp gs dist el reflexive cost_check false).

(** l.287-318 *)
Definition edge_filter (op : edge_op) (lhs rhs : N) : bool :=
  existsb (λ gs,
    if eo_inverse op then
      gs_is_connected gs rhs lhs (min_dist (eo_dist op)) (max_dist (eo_dist op)) && check_edge_label (eo_label op) gs rhs lhs
    else
      gs_is_connected gs lhs rhs (min_dist (eo_dist op)) (max_dist (eo_dist op)) && check_edge_label (eo_label op) gs lhs rhs) (eo_gs op).

(** Vec::dedup: removes repeated neighbours *)
Fixpoint dedup_from (x : N) (l : list N) : list N :=
  match l with
  | [] => []
  | y :: r => if decide (x = y) then dedup_from x r else y :: dedup_from y r
  end.
Definition dedup (l : list N) : list N := match l with [] => [] | x :: r => x :: dedup_from x r end.
(** l.477-610: the candidates in one storage and in all of them *)
Definition edge_candidates (op : edge_op) (lhs : N) (gs : storage) : list N :=
  if eo_inverse op then
    filter (λ n, check_edge_label (eo_label op) gs n lhs = true) (gs_connected_inverse gs lhs (min_dist (eo_dist op)) (max_dist (eo_dist op)))
  else
    filter (λ n, check_edge_label (eo_label op) gs lhs n = true) (gs_connected gs lhs (min_dist (eo_dist op)) (max_dist (eo_dist op))).
Definition edge_retrieve (op : edge_op) (lhs : N) : list N :=
  match eo_gs op with
  | [gs] => edge_candidates op lhs gs
  | all => dedup (merge_sort N.le (mjoin (edge_candidates op lhs <$> all)))
  end.

(** l.324-352; [same_cost] is inverse_has_same_cost, [narrow] compares the statistics of the fan-out in both directions *)
Definition edge_inverse (same_cost narrow : storage → bool) (op : edge_op) : option edge_op :=
  if forallb (λ gs, (negb (eo_cost_check op) || same_cost gs) && narrow gs) (eo_gs op)
  then Some (EdgeOp (eo_gs op) (eo_dist op) (eo_label op) (eo_reflexive op) (eo_cost_check op) (negb (eo_inverse op)))
  else None.

(** /repo/graphannis/src/annis/db/aql/model.rs: the numbers of the component types *)
Definition t_dominance : N := 2.
Definition t_pointing : N := 3.
Definition t_part_of : N := 7.
(** l.617-660 *)
Definition dominance (cs : components) (name : bytes) (dist : range_spec) (el : option edge_label) : option edge_op :=
  new_edge_op cs (all_components cs (Some t_dominance) (Some name)) dist el true true.
(** l.668-712 *)
Definition pointing (cs : components) (name : bytes) (dist : range_spec) (el : option edge_label) : option edge_op :=
  new_edge_op cs (all_components cs (Some t_pointing) (Some name)) dist el true true.
(** l.720-777; [cheap]: the right operand has an estimated size of at most 1 *)
Definition part_of (cs : components) (dist : range_spec) (cheap : bool) : option edge_op :=
  new_edge_op cs [CName t_part_of [] annis] dist None false (negb cheap).

(** The operators of a query *)
Inductive edge_query :=
| QDominance (name : bytes) (dist : range_spec) (el : option edge_label)
| QPointing (name : bytes) (dist : range_spec) (el : option edge_label)
| QPartOf (dist : range_spec).
Definition create (cs : components) (cheap : bool) (q : edge_query) : option edge_op :=
  match q with
  | QDominance name dist el => dominance cs name dist el
  | QPointing name dist el => pointing cs name dist el
  | QPartOf dist => part_of cs dist cheap
  end.

(** arity.rs l.34-53: graph storages which are not loaded are ignored *)
Definition arity_storages (cs : components) : list storage :=
  omap (get_storage cs) (all_components cs (Some t_dominance) None) ++ omap (get_storage cs) (all_components cs (Some t_pointing) None).
(** arity.rs l.68-88 *)
Definition arity_filter (cs : components) (range : range_spec) (n : N) : bool :=
  let children : gset N := list_to_set (mjoin ((λ gs, gs_out gs n) <$> arity_storages cs)) in
  (min_dist range <=? N.of_nat (size children))%N &&
  match max_dist range with
  | Unbounded => true
  | Included m => (N.of_nat (size children) <=? m)%N
  | Excluded m => (N.of_nat (size children) <? m)%N
  end.

(** identical_node.rs l.51-80 *)
Definition identical_node_filter (lhs rhs : N) : bool := bool_decide (lhs = rhs).
Definition identical_node_retrieve (lhs : N) : list N := [lhs].
End Ops.
