(** Model of the operators on the tokens of two nodes: /repo/graphannis/src/annis/db/aql/operators/{precedence,near,overlap,inclusion,
    identical_cov,leftalignment,rightalignment}.rs.
    Simplifications: errors of the storages are left out; the elements of a HashSet are listed in an order [hash] which only depends on
    the set; candidates are the node ids (every candidate has the key DEFAULT_ANNO_KEY). *)
From stdpp Require Import base list gmap.
From Coq Require Import NArith.
From Verif Require Import KeySer SortedMap Types SymbolTable AnnoMem Adjacency Storage GraphApply TokenHelper.

(** operators/mod.rs l.3-23: RangeSpec *)
Inductive range_spec := RBound (min max : N) | RUnbound.
Definition max_dist (r : range_spec) : bound N := match r with RBound _ max => Included max | RUnbound => Unbounded end.
Definition min_dist (r : range_spec) : N := match r with RBound min _ => min | RUnbound => 1%N end.

(** The operators which can be created for a query, and the inverse precedence (precedence.rs l.258-264), which is only used by the
    planner. A segmentation is given by its ordering component in the default namespace (precedence.rs l.104-113, near.rs l.93-102). *)
Inductive token_op :=
  | OPrecedence (seg : option storage) (dist : range_spec)
  | OInversePrecedence (seg : option storage) (dist : range_spec)
  | ONear (seg : option storage) (dist : range_spec)
  | OOverlap (reflexive : bool)
  | OInclusion
  | OIdenticalCoverage
  | OLeftAlignment
  | ORightAlignment.

(** What the operators use of the corpus: token helper and ordering component *)
Section Ops.
Context (hash : gset N → list N) (th : helper) (order : storage).

(** precedence.rs l.150-171 *)
Definition precedence_filter (seg : option storage) (dist : range_spec) (lhs rhs : N) : bool :=
  match seg with
  | Some gs => gs_is_connected gs lhs rhs (min_dist dist) (max_dist dist)
  | None =>
      match right_token_for th lhs, left_token_for th rhs with
      | Some s, Some e => gs_is_connected order s e (min_dist dist) (max_dist dist)
      | _, _ => false
      end
  end.
(** precedence.rs l.214-249 *)
Definition precedence_retrieve (seg : option storage) (dist : range_spec) (lhs : N) : list N :=
  let gs_order := default order seg in
  match (match seg with Some _ => Some lhs | None => right_token_for th lhs end) with
  | None => []
  | Some s => mjoin ((λ t, t :: gs_in (th_left th) t) <$> gs_connected gs_order s (min_dist dist) (max_dist dist))
  end.
(** precedence.rs l.275-296 *)
Definition inverse_precedence_filter (seg : option storage) (dist : range_spec) (lhs rhs : N) : bool :=
  match seg with
  | Some gs => gs_is_connected gs rhs lhs (min_dist dist) (max_dist dist)
  | None =>
      match left_token_for th lhs, right_token_for th rhs with
      | Some s, Some e => gs_is_connected order e s (min_dist dist) (max_dist dist)
      | _, _ => false
      end
  end.
(** precedence.rs l.332-370 *)
Definition inverse_precedence_retrieve (seg : option storage) (dist : range_spec) (lhs : N) : list N :=
  let gs_order := default order seg in
  match (match seg with Some _ => Some lhs | None => left_token_for th lhs end) with
  | None => []
  | Some s => mjoin ((λ t, t :: gs_in (th_right th) t) <$> gs_connected_inverse gs_order s (min_dist dist) (max_dist dist))
  end.

(** near.rs l.128-168 *)
Definition near_filter (seg : option storage) (dist : range_spec) (lhs rhs : N) : bool :=
  match seg with
  | Some gs => gs_is_connected gs lhs rhs (min_dist dist) (max_dist dist) || gs_is_connected gs rhs lhs (min_dist dist) (max_dist dist)
  | None =>
      match right_token_for th lhs, left_token_for th rhs with
      | Some s, Some e =>
          match left_token_for th lhs, right_token_for th rhs with
          | Some s', Some e' =>
              gs_is_connected order s e (min_dist dist) (max_dist dist) || gs_is_connected order e' s' (min_dist dist) (max_dist dist)
          | _, _ => false
          end
      | _, _ => false
      end
  end.
(** near.rs l.199-274 *)
Definition near_retrieve (seg : option storage) (dist : range_spec) (lhs : N) : list N :=
  let gs_order := default order seg in
  let forward :=
    match (match seg with Some _ => Some lhs | None => right_token_for th lhs end) with
    | Some s => mjoin ((λ t, t :: gs_in (th_left th) t) <$> gs_connected gs_order s (min_dist dist) (max_dist dist))
    | None => []
    end in
  let backward :=
    match (match seg with Some _ => Some lhs | None => left_token_for th lhs end) with
    | Some s => mjoin ((λ t, t :: gs_in (th_right th) t) <$> gs_connected_inverse gs_order s (min_dist dist) (max_dist dist))
    | None => []
    end in
  hash (list_to_set (C := gset N) (forward ++ backward)).

(** overlap.rs l.101-122; the matches are compared with their annotation keys *)
Definition overlap_filter (reflexive : bool) (lhs rhs : N * anno_key) : bool :=
  if reflexive && bool_decide (lhs = rhs) then true
  else match left_token_for th lhs.1, right_token_for th lhs.1, left_token_for th rhs.1, right_token_for th rhs.1 with
       | Some start_lhs, Some end_lhs, Some start_rhs, Some end_rhs =>
           match gs_distance order start_lhs end_rhs with
           | Some _ => match gs_distance order start_rhs end_lhs with Some _ => true | None => false end
           | None => false
           end
       | _, _, _, _ => false
       end.
(** overlap.rs l.177-224; find_connected with the distance 1 are the outgoing edges *)
Definition overlap_retrieve (reflexive : bool) (lhs : N) : list N :=
  let start : gset N := if reflexive then {[lhs]} else ∅ in
  let lhs_is_token := is_token th lhs in
  let found :=
    if lhs_is_token && bool_decide (th_cov th = []) then [lhs]
    else mjoin ((λ gs, mjoin ((λ t, mjoin ((λ gs', gs_in gs' t) <$> th_cov th) ++ [t])
                              <$> (if lhs_is_token then [lhs] else gs_connected gs lhs 1 (Included 1%N)))) <$> th_cov th) in
  hash (start ∪ list_to_set found).

(** inclusion.rs l.96-118 *)
Definition inclusion_filter (lhs rhs : N) : bool :=
  match left_right_token_for th lhs, left_right_token_for th rhs with
  | (Some start_lhs, Some end_lhs), (Some start_rhs, Some end_rhs) =>
      match gs_distance order start_lhs end_lhs with
      | Some l => gs_is_connected order start_lhs start_rhs 0 (Included l) && gs_is_connected order end_rhs end_lhs 0 (Included l)
      | None => false
      end
  | _, _ => false
  end.
(** inclusion.rs l.164-232 *)
Definition inclusion_retrieve (lhs : N) : list N :=
  match left_right_token_for th lhs with
  | (Some start_lhs, Some end_lhs) =>
      match gs_distance order start_lhs end_lhs with
      | Some l =>
          mjoin ((λ t, t :: filter (λ n, match head (gs_out (th_right th) n) with
                                        | Some end_n => gs_is_connected order end_n end_lhs 0 (Included l)
                                        | None => false
                                        end = true) (gs_in (th_left th) t))
                 <$> gs_connected order start_lhs 0 (Included l))
      | None => []
      end
  | _ => []
  end.

(** identical_cov.rs l.108-125 *)
Definition identical_filter (lhs rhs : N) : bool :=
  match left_token_for th lhs, right_token_for th lhs, left_token_for th rhs, right_token_for th rhs with
  | Some start_lhs, Some end_lhs, Some start_rhs, Some end_rhs =>
      bool_decide (start_lhs = start_rhs) && bool_decide (end_lhs = end_rhs)
  | _, _, _, _ => false
  end.
(** identical_cov.rs l.159-199 *)
Definition identical_retrieve (lhs : N) : list N :=
  match left_token_for th lhs, right_token_for th lhs with
  | Some n_left, Some n_right =>
      (if decide (n_left = n_right) then [n_left] else []) ++
      filter (λ c, match right_token_for th c with Some r => bool_decide (n_right = r) | None => false end = true) (gs_in (th_left th) n_left)
  | _, _ => []
  end.

(** leftalignment.rs l.66-76 *)
Definition left_filter (lhs rhs : N) : bool :=
  match left_token_for th lhs, left_token_for th rhs with Some a, Some b => bool_decide (a = b) | _, _ => false end.
(** leftalignment.rs l.106-130 *)
Definition left_retrieve (lhs : N) : list N :=
  match left_token_for th lhs with Some t => t :: gs_in (th_left th) t | None => [] end.
(** rightalignment.rs l.66-76 *)
Definition right_filter (lhs rhs : N) : bool :=
  match right_token_for th lhs, right_token_for th rhs with Some a, Some b => bool_decide (a = b) | _, _ => false end.
(** rightalignment.rs l.106-130 *)
Definition right_retrieve (lhs : N) : list N :=
  match right_token_for th lhs with Some t => t :: gs_in (th_right th) t | None => [] end.

(** filter_match of each operator *)
Definition op_filter (op : token_op) (lhs rhs : N * anno_key) : bool :=
  match op with
  | OPrecedence seg dist => precedence_filter seg dist lhs.1 rhs.1
  | OInversePrecedence seg dist => inverse_precedence_filter seg dist lhs.1 rhs.1
  | ONear seg dist => near_filter seg dist lhs.1 rhs.1
  | OOverlap reflexive => overlap_filter reflexive lhs rhs
  | OInclusion => inclusion_filter lhs.1 rhs.1
  | OIdenticalCoverage => identical_filter lhs.1 rhs.1
  | OLeftAlignment => left_filter lhs.1 rhs.1
  | ORightAlignment => right_filter lhs.1 rhs.1
  end.
(** retrieve_matches of each operator *)
Definition op_retrieve (op : token_op) (lhs : N * anno_key) : list N :=
  match op with
  | OPrecedence seg dist => precedence_retrieve seg dist lhs.1
  | OInversePrecedence seg dist => inverse_precedence_retrieve seg dist lhs.1
  | ONear seg dist => near_retrieve seg dist lhs.1
  | OOverlap reflexive => overlap_retrieve reflexive lhs.1
  | OInclusion => inclusion_retrieve lhs.1
  | OIdenticalCoverage => identical_retrieve lhs.1
  | OLeftAlignment => left_retrieve lhs.1
  | ORightAlignment => right_retrieve lhs.1
  end.
(** get_inverse_operator: precedence.rs l.192-211 and l.298-310 ([same_cost] is inverse_has_same_cost of the ordering component),
    near.rs l.186-196, overlap.rs l.128-138, identical_cov.rs l.131-141, leftalignment.rs l.82-91, rightalignment.rs l.82-91;
    inclusion.rs has none (the default in /repo/graphannis/src/annis/operator.rs l.139-145) *)
Definition op_inverse (same_cost : storage → bool) (op : token_op) : option token_op :=
  match op with
  | OPrecedence seg dist => if same_cost (default order seg) then Some (OInversePrecedence seg dist) else None
  | OInversePrecedence seg dist => Some (OPrecedence seg dist)
  | ONear seg dist => Some (ONear seg dist)
  | OOverlap reflexive => Some (OOverlap reflexive)
  | OInclusion => None
  | OIdenticalCoverage => Some OIdenticalCoverage
  | OLeftAlignment => Some OLeftAlignment
  | ORightAlignment => Some ORightAlignment
  end.
(** is_reflexive: overlap.rs l.124-126, inclusion.rs l.120-122, identical_cov.rs l.127-129, leftalignment.rs l.78-80,
    rightalignment.rs l.78-80; true for all others (operator.rs l.133-135) *)
Definition op_reflexive (op : token_op) : bool :=
  match op with
  | OPrecedence _ _ | OInversePrecedence _ _ | ONear _ _ => true
  | OOverlap reflexive => reflexive
  | OInclusion | OIdenticalCoverage | OLeftAlignment | ORightAlignment => false
  end.
End Ops.
