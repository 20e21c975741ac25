(** Model of the edges which are derived from the annotations while an update is applied: inherited coverage and the edges to the
    left-most and right-most token (/repo/graphannis/src/annis/db/aql/model.rs l.123-170 and l.172-601), and of their part in applying
    updates (/repo/core/src/graph/mod.rs l.397-647).
    Simplifications: as in GraphApply.v, all components are adjacency lists in memory; the optimized version of the token order is given
    by the function [optimize]; errors of storages and progress messages are left out. DiskMaps used as sets are sets; the disk map of
    names is a map. The search loops have fuel; [None] is an error, a panic or missing fuel. *)
From stdpp Require Import base list gmap.
From Coq Require Import NArith.
From Verif Require Import KeySer KeySerSpec SortedMap Types SymbolTable AnnoMem Dfs Adjacency Storage CompPath GraphUpdate GraphApply TokenHelper QuickSort.

(** model.rs l.60-77 *)
Definition ctype_number (t : actype) : N :=
  match t with Coverage => 0 | Dominance => 2 | Pointing => 3 | Ordering => 4 | LeftToken => 5 | RightToken => 6 | PartOf => 7 end.
(** AnnotationComponentType::from_str *)
Definition aql_ctype (s : bytes) : option N := ctype_number <$> actype_parse s.
Definition t_coverage : N := 0.
Definition t_dominance : N := 2.
Definition t_ordering : N := 4.
Definition t_left : N := 5.
Definition t_right : N := 6.

(** l.222-236, l.275-279, l.581-585 *)
Definition left_comp : comp := (t_left, annis, []).
Definition right_comp : comp := (t_right, annis, []).
Definition inherited : comp := (t_coverage, annis, [105; 110; 104; 101; 114; 105; 116; 101; 100; 45; 99; 111; 118; 101; 114; 97; 103; 101]%N).
Definition order_comp : comp := (t_ordering, annis, []).
(** l.406-430: a new graph with the default components *)
Definition default_comps : list comp :=
  [(t_coverage, annis, []); order_comp; left_comp; right_comp; (7%N, annis, [])].
Definition g_default : gstate := GState am_new (list_to_map ((λ c, (c, adj_new)) <$> default_comps)) 0.

(** get_all_components, see EdgeOps.v for its implementation *)
Definition comps_of (st : gstate) (t : N) (name : option bytes) : list comp :=
  filter (λ c, c.1.1 = t ∧ match name with Some n => bool_decide (c.2 = n) | None => true end = true) (map_to_list (g_comps st)).*1.

(** UnionEdgeContainer, see Union.v: the edges of all existing components, without duplicates *)
Definition union_edges (edges : adj → N → list N) (st : gstate) (cs : list comp) (x : N) : list N :=
  elements (⋃ ((λ g, list_to_set (edges g x)) <$> omap (λ c, g_comps st !! c) cs) : gset N).

(** l.172-180 *)
Record index := Index {
  ix_ids : gmap bytes N;
  ix_empty : bool;
  ix_invalid : gset N;
  ix_text : gset comp
}.
Definition with_id (ix : index) (n : bytes) (i : N) : index := Index (<[n := i]> (ix_ids ix)) (ix_empty ix) (ix_invalid ix) (ix_text ix).
Definition with_invalid (ix : index) (X : gset N) : index := Index (ix_ids ix) (ix_empty ix) (X ∪ ix_invalid ix) (ix_text ix).
Definition with_text (ix : index) (c : comp) : index := Index (ix_ids ix) (ix_empty ix) (ix_invalid ix) ({[c]} ∪ ix_text ix).

(** l.432-465 *)
Definition ix_init (st : gstate) : index :=
  Index ∅ (am_is_empty (g_node_annos st)) ∅ (list_to_set (comps_of st t_dominance (Some [])) ∪ list_to_set (comps_of st t_coverage None)).
(** l.187-201 *)
Definition ix_id (st : gstate) (ix : index) (n : bytes) : option (N * index) :=
  match ix_ids ix !! n with
  | Some i => Some (i, ix)
  | None => match am_node_id_from_name node_name_key (g_node_annos st) n with
            | Some i => Some (i, with_id ix n i)
            | None => None
            end
  end.

Section Index.
Context (fuel : nat) (rnd : nat → nat) (hash : gset N → list N) (optimize : adj → storage).

(** l.203-225 *)
Definition invalidate (st : gstate) (ix : index) (n : N) : option index :=
  r ← dfs_loop (union_edges adj_in st (elements (ix_text ix))) 0 usize_max fuel (dfs_new_inverse n);
  Some (with_invalid ix (list_to_set r.1.*1)).
Definition invalidate_name (st : gstate) (ix : index) (n : bytes) : option index :=
  match ix_id st ix n with Some (i, ix1) => invalidate st ix1 i | None => None end.
Definition in_text (t : N) : bool := bool_decide (t ∈ [t_coverage; t_dominance; t_ordering; t_left; t_right]).
(** l.486-502 and l.537-553 *)
Definition invalidate_edge (st : gstate) (ix : index) (t : N) (src tgt : bytes) : option index :=
  match (if in_text t then invalidate_name st ix src else Some ix) with
  | Some ix1 => if decide (t = t_ordering) then invalidate_name st ix1 tgt else Some ix1
  | None => None
  end.
(** l.467-511 *)
Definition before_event (st : gstate) (ix : index) (e : event) : option index :=
  match e with
  | DeleteNode n =>
      if ix_empty ix then Some ix
      else match ix_id st ix n with
           | Some (i, ix1) => if decide (i ∈ ix_invalid ix1) then Some ix1 else invalidate st ix1 i
           | None => None
           end
  | DeleteEdge s t _ ty _ =>
      if ix_empty ix then Some ix
      else match aql_ctype ty with Some k => invalidate_edge st ix k s t | None => Some ix end
  | _ => Some ix
  end.
(** l.513-558 *)
Definition after_event (st : gstate) (ix : index) (e : event) : option index :=
  match e with
  | GraphUpdate.AddEdge s t l ty cn =>
      match aql_ctype ty with
      | Some k =>
          let ix1 := if bool_decide (k = t_dominance ∨ k = t_coverage) && bool_decide (cn = []) then with_text ix (k, l, cn) else ix in
          if ix_empty ix1 then Some ix1 else invalidate_edge st ix1 k s t
      | None => Some ix
      end
  | _ => Some ix
  end.

(** l.228-265 *)
Definition clear_comp (st : gstate) (c : comp) : gstate := set_comp st c (adj_clear (writable st c)).
Definition clear_nodes (ns : list N) (st : gstate) (c : comp) : gstate := set_comp st c (fold_left adj_delete_node ns (writable st c)).
Definition clear_index (st : gstate) (ix : index) (ns : list N) : gstate :=
  fold_left (if ix_empty ix then clear_comp else clear_nodes ns) [left_comp; right_comp; inherited] st.

(** TokenHelper::is_token, see TokenHelper.v; TokenHelper::new is an error without the components for the left-most and right-most tokens *)
Definition token_in (st : gstate) (n : N) : bool :=
  if am_has_value (g_node_annos st) n tok_key then
    negb (existsb (λ g, match g_stats g with Some s => bool_decide (0 < s_nodes s) | None => true end && adj_has_out g n)
                  (omap (λ c, g_comps st !! c) (comps_of st t_coverage None)))
  else false.
Definition has_token_helper (st : gstate) : bool := bool_decide (is_Some (g_comps st !! left_comp)) && bool_decide (is_Some (g_comps st !! right_comp)).

(** l.123-170 *)
Definition inherit_coverage (st : gstate) (n : N) (cov text : list comp) : option (gstate * gset N) :=
  if has_token_helper st then
    match dfs_loop (union_edges adj_out st text) 1 usize_max fuel (dfs_new n) with
    | Some (steps, _) =>
        let covered : gset N := list_to_set (filter (λ x, token_in st x = true) steps.*1) in
        let direct : gset N := list_to_set (union_edges adj_out st cov n) in
        let g := fold_left (λ g t, if decide (n ≠ t ∧ t ∉ direct) then adj_add_edge g (Edge n t) else g) (hash covered) (writable st inherited) in
        Some (set_comp st inherited g, covered)
    | None => None
    end
  else None.

(** l.361-371: the position in the text *)
Definition text_cmp (order : storage) (a b : N) : comparison :=
  if decide (a = b) then Eq
  else if gs_is_connected order a b 1 Unbounded then Lt
  else if gs_is_connected order b a 1 Unbounded then Gt
  else Eq.
(** l.334-395 *)
Definition align (st : gstate) (n : N) (c : comp) (right : bool) (order : storage) (covered : gset N) : option gstate :=
  if am_has_value (g_node_annos st) n tok_key && bool_decide (covered = ∅) then Some st
  else match (match g_comps st !! c with Some g => head (adj_out g n) | None => None end) with
       | Some _ => Some st
       | None =>
           match sort (text_cmp order) fuel rnd (hash covered) with
           | Done l => match (if right then last l else head l) with
                       | Some t => Some (set_comp st c (adj_add_edge (writable st c) (Edge n t)))
                       | None => Some st
                       end
           | Failed | NoFuel => None
           end
       end.
(** l.301-331 *)
Fixpoint reindex_nodes (st : gstate) (cov text : list comp) (order : storage) (ns : list N) : option gstate :=
  match ns with
  | [] => Some st
  | n :: r =>
      match inherit_coverage st n cov text with
      | Some (st1, covered) =>
          match align st1 n left_comp false order covered with
          | Some st2 => match align st2 n right_comp true order covered with
                        | Some st3 => reindex_nodes st3 cov text order r
                        | None => None
                        end
          | None => None
          end
      | None => None
      end
  end.
(** l.267-331; the keys of a DiskMap are in ascending order *)
Definition reindex (st : gstate) (ix : index) (order : storage) : option gstate :=
  let ns := sort_list N.compare (elements (ix_invalid ix)) in
  let st1 := clear_index st ix ns in
  let cov := filter (λ c, c ≠ inherited) (comps_of st1 t_coverage None) in
  reindex_nodes st1 cov (cov ++ comps_of st1 t_dominance None) order ns.
(** l.560-601 *)
Definition apply_index (st : gstate) (ix : index) : option gstate :=
  let ix := if ix_empty ix
            then with_invalid ix (list_to_set (am_exact_search (g_node_annos st) (Some (ak_ns node_type_key)) (ak_name node_type_key) VAny).*1)
            else ix in
  match g_comps st !! order_comp with
  | Some g => reindex st ix (optimize g)
  | None => Some st
  end.

(** /repo/core/src/graph/mod.rs l.413-632 *)
Fixpoint aql_loop (all : list comp) (st : gstate) (c : lru) (ix : index) (es : list (N * event)) : option (gstate * index) :=
  match es with
  | [] => Some (st, ix)
  | (id, e) :: es' =>
      match before_event st ix e with
      | Some ix1 =>
          match ev_step aql_ctype 1000 all st c e with
          | Some (st', c') =>
              match after_event st' ix1 e with
              | Some ix2 => aql_loop all (GState (g_node_annos st') (g_comps st') id) c' ix2 es'
              | None => None
              end
          | None => None
          end
      | None => None
      end
  end.
(** l.636-639: statistics of all components, missing fuel means no statistics *)
Definition with_stats (st : gstate) : gstate :=
  GState (g_node_annos st) ((λ g, Adj (g_edges g) (g_inverse g) (g_annos g) (calc_stats fuel g)) <$> g_comps st) (g_change st).
(** l.397-647 *)
Definition aql_update (update_statistics : bool) (st : gstate) (es : list (N * event)) : option gstate :=
  match aql_loop (map_to_list (g_comps st)).*1 st [] (ix_init st) es with
  | Some (st1, ix) => apply_index (if update_statistics then with_stats st1 else st1) ix
  | None => None
  end.
Fixpoint aql_updates (st : gstate) (us : list (bool * list (N * event))) : option gstate :=
  match us with
  | [] => Some st
  | (b, u) :: us' => match aql_update b st u with Some st' => aql_updates st' us' | None => None end
  end.
End Index.
