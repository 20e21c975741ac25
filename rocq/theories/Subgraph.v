(** Model of copying a subgraph: /repo/graphannis/src/annis/db/corpusstorage/subgraph.rs l.461-592.
    Simplifications: errors of the storages of the original graph are left out; the labels of its nodes are given by a function; the
    BTreeSet of matches is a set which is listed in an arbitrary order; the names of index components are compared as bytes. *)
From stdpp Require Import base list gmap.
From Coq Require Import NArith.
From Verif Require Import KeySer SortedMap Types SymbolTable AnnoMem Adjacency Storage GraphApply TokenHelper SortMatches Joins EdgeOps.

(** The loops with [?]: [None] is an error *)
Fixpoint fold_opt {A B} (f : A → B → option A) (a : A) (l : list B) : option A :=
  match l with
  | [] => Some a
  | b :: r => match f a b with Some a' => fold_opt f a' r | None => None end
  end.
(** type, layer and name, as in the components of the new graph *)
Definition comp_of (c : cname) : comp := (cn_type c, cn_layer c, cn_name c).
(** l.479-483: Ordering/annis/datasource-gap *)
Definition gap_comp : comp := (4%N, annis, [100; 97; 116; 97; 115; 111; 117; 114; 99; 101; 45; 103; 97; 112]%N).
(** l.555-560: Coverage in the layer annis with a name, RightToken and LeftToken *)
Definition is_index (c : cname) : bool :=
  (bool_decide (cn_type c = 0%N) && bool_decide (cn_layer c = annis) && negb (bool_decide (cn_name c = []))) ||
  bool_decide (cn_type c = 6%N) || bool_decide (cn_type c = 5%N).

Section Subgraph.
Context (labels : N → list (anno_key * bytes)) (cs : components) (th : option helper) (order : option storage).

(** l.535-545 *)
Definition create_node (st : gstate) (n : N) : option gstate :=
  fold_opt (λ st a, let '(m, ok) := am_insert N.compare (g_node_annos st) n a.1 a.2 in if ok then Some (set_annos st m) else None)
    st (labels n).
(** l.563-586: the edge to one target; get_or_create_writable does not fail in a new graph in memory *)
Definition create_edge_to (c : cname) (gs : storage) (src : N) (st : gstate) (tgt : N) : option gstate :=
  match am_get_all_keys (g_node_annos st) tgt None None with
  | [] => Some st
  | _ =>
      let e := Edge src tgt in
      fold_opt (λ st a, let '(g, ok) := adj_add_anno (writable st (comp_of c)) e a.1 a.2 in
                        if ok then Some (set_comp st (comp_of c) g) else None)
        (set_comp st (comp_of c) (adj_add_edge (writable st (comp_of c)) e)) (am_get_annotations (gs_annos gs) e)
  end.
(** l.546-592 *)
Definition create_edges (comps : list cname) (st : gstate) (src : N) : option gstate :=
  fold_opt (λ st c,
    if is_index c then Some st
    else match get_storage cs c with
         | Some gs => fold_opt (create_edge_to c gs src) st (gs_out gs src)
         | None => Some st
         end) st comps.

(** match_result, previous_token and result *)
Record building := Building { b_seen : gset match_; b_prev : option N; b_graph : gstate }.
(** l.502-513 *)
Definition gap_edge (prev : option N) (n : N) : list edge :=
  match order, prev with
  | Some gs, Some p => match gs_distance gs p n with Some d => if decide (1 < d)%N then [Edge p n] else [] | None => [] end
  | _, _ => []
  end.
Definition add_gap (st : gstate) (e : edge) : gstate := set_comp st gap_comp (adj_add_edge (writable st gap_comp) e).
(** l.494-520 *)
Definition add_match (b : building) (m : match_) : option building :=
  if decide (m ∈ b_seen b) then Some b
  else
    let '(prev, st) :=
      if match th with Some t => is_token t m.1 | None => false end
      then (Some m.1, fold_left add_gap (gap_edge (b_prev b) m.1) (b_graph b))
      else (b_prev b, b_graph b) in
    match create_node st m.1 with
    | Some st' => Some (Building ({[m]} ∪ b_seen b) prev st')
    | None => None
    end.
(** l.488-524 *)
Definition add_group (idx : list nat) (b : building) (r : item) : option building :=
  match r with
  | IOk r => fold_opt add_match b (omap (λ i, r !! i) idx)
  | IErr | IPanic => None
  end.
(** l.461-533 *)
Definition subgraph (it : list item) (idx : list nat) (ctype : option N) : option gstate :=
  match fold_opt (add_group idx) (Building ∅ None g_empty) it with
  | None => None
  | Some b => fold_opt (λ st (m : match_), create_edges (all_components cs ctype None) st m.1) (b_graph b) (elements (b_seen b))
  end.
End Subgraph.
