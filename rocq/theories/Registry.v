(** Model of the choice of a graph storage implementation (/repo/core/src/graph/storage/registry.rs) and of the
    conversion of a component (/repo/core/src/graph/mod.rs, optimize_gs_impl, ensure_writeable and
    calculate_component_statistics).
    Simplifications: the two comparisons of f64 ratios are arbitrary functions [ge75] and [le103] of the numbers
    they are computed from, so that nothing depends on rounding (nor on the 32 bit counter used for the visits); a
    storage is always referenced exclusively and loaded. *)
From stdpp Require Import base list gmap fin_maps.
From Coq Require Import NArith.
From Verif Require Import KeySer KeySerSpec SortedMap Types SymbolTable AnnoMem Dfs Adjacency DiskAdj Dense DiskPath Linear PrePost.

Definition u8_max : N := 255.
Definition u16_max : N := 65535.
Definition u32_max : N := 4294967295.
Definition u64_max : N := 18446744073709551615.

(** registry.rs l.14-58: the registered implementations. The numeric parameters are the largest values of the position,
    order and level types. *)
Inductive impl :=
| IAdj | IDiskAdj | IDense | IDiskPath
| ILinear (pmax : N)
| IPrePost (omax lmax : N).
Global Instance impl_eq_dec : EqDecision impl.
Proof. solve_decision. Defined.

(** registry.rs l.127-152 *)
Definition prepost_by_size (st : stats) : impl :=
  let nodes := N.of_nat (s_nodes st) in
  let depth := N.of_nat (s_max_depth st) in
  if s_rooted_tree st then
    if (nodes <? u16_max / 2)%N then
      if (depth <? u8_max)%N then IPrePost u16_max u8_max
      else if (depth <? u32_max)%N then IPrePost u16_max u32_max
      else IPrePost u64_max u64_max
    else if (nodes <? u32_max / 2)%N then
      if (depth <? u8_max)%N then IPrePost u32_max u8_max
      else if (depth <? u32_max)%N then IPrePost u32_max u32_max
      else IPrePost u64_max u64_max
    else if (depth <? u8_max)%N then IPrePost u64_max u8_max
    else if (depth <? u32_max)%N then IPrePost u64_max u32_max
    else IPrePost u64_max u64_max
  else if (depth <? u8_max)%N then IPrePost u64_max u8_max
  else IPrePost u64_max u64_max.

(** registry.rs l.154-164 *)
Definition linear_by_size (st : stats) : impl :=
  let depth := N.of_nat (s_max_depth st) in
  if (depth <? u8_max)%N then ILinear u8_max
  else if (depth <? u16_max)%N then ILinear u16_max
  else if (depth <? u32_max)%N then ILinear u32_max
  else ILinear u64_max.

Section heuristic.
(** nodes / largest_node_id >= 0.75 (l.118) and dfs_visit_ratio <= 1.03 (l.100) *)
Context (ge75 : nat → N → bool) (le103 : nat → nat → bool).

(** registry.rs l.111-125. [largest]: the largest node id of the node annotations *)
Definition adjacencylist_impl (disk : bool) (largest : option N) (st : stats) : impl :=
  if disk then IDiskAdj
  else match largest with
       | Some i => if bool_decide (s_max_fan_out st ≤ 1) && ge75 (s_nodes st) i then IDense else IAdj
       | None => IAdj
       end.

(** registry.rs l.76-109 *)
Definition optimal_impl (disk : bool) (largest : option N) (st : stats) : impl :=
  if disk && bool_decide (s_max_depth st ≤ max_depth) && bool_decide (s_max_fan_out st = 1) && negb (s_cyclic st) then IDiskPath
  else if bool_decide (s_max_depth st ≤ 1) then adjacencylist_impl disk largest st
  else if s_rooted_tree st then
    if bool_decide (s_max_fan_out st ≤ 1) then linear_by_size st else prepost_by_size st
  else if negb (s_cyclic st) && le103 (s_visits st) (s_nodes st) then prepost_by_size st
  else adjacencylist_impl disk largest st.

(** A component in one of the implementations *)
Inductive gs :=
| GAdj (s : adj)
| GDiskAdj (s : dadj)
| GDense (s : da)
| GDiskPath (s : dpath)
| GLinear (pmax : N) (s : lin)
| GPrePost (omax lmax : N) (s : pp).

(** serialization_id of each implementation *)
Definition gs_impl (g : gs) : impl :=
  match g with
  | GAdj _ => IAdj
  | GDiskAdj _ => IDiskAdj
  | GDense _ => IDense
  | GDiskPath _ => IDiskPath
  | GLinear p _ => ILinear p
  | GPrePost o l _ => IPrePost o l
  end.

(** What the interface EdgeContainer/GraphStorage shows of a component. [None]: a panic (see DiskPath.v) *)
Record view := View {
  v_sources : list N;
  v_roots : list N;
  v_out : N → list N;
  v_in : N → list N;
  v_annos : edge → list (anno_key * bytes);
  v_stats : option stats
}.
Definition gs_view (g : gs) : option view :=
  match g with
  | GAdj s => Some (View (adj_sources s) (adj_roots s) (adj_out s) (adj_in s) (am_get_annotations (g_annos s)) (g_stats s))
  | GDiskAdj s => Some (View (dk_sources s) (dk_roots s) (dk_out s) (dk_in s) (am_get_annotations (k_annos s)) (k_stats s))
  | GDense s => Some (View (da_sources s) (da_roots s) (da_out s) (da_in s) (am_get_annotations (da_annos s)) (da_stats s))
  | GDiskPath s =>
      sources ← dp_sources s; roots ← dp_roots s;
      Some (View sources roots (λ x, default [] (dp_out s x)) (dp_in s) (am_get_annotations (t_annos s)) (t_stats s))
  | GLinear p s => Some (View (lin_sources s) (lin_roots s) (lin_out p s) (lin_in s) (am_get_annotations (l_annos s)) (l_stats s))
  | GPrePost _ _ s => Some (View (pp_sources s) (pp_roots s) (pp_out s) (pp_in s) (am_get_annotations (p_annos s)) (p_stats s))
  end.

(** A new storage of the given implementation into which the other storage is copied *)
Definition gs_copy (fuel : nat) (i : impl) (largest : option N) (v : view) : option (gs * bool) :=
  match i with
  | IAdj => let '(s, ok) := adj_copy adj_new (v_sources v) (v_out v) (v_annos v) (v_stats v) in Some (GAdj s, ok)
  | IDiskAdj => let '(s, ok) := dk_copy dk_new (v_sources v) (v_out v) (v_annos v) (v_stats v) in Some (GDiskAdj s, ok)
  | IDense => '(s, ok) ← da_copy da_new largest (v_sources v) (v_out v) (v_annos v) (v_stats v); Some (GDense s, ok)
  | IDiskPath => '(s, ok) ← dp_copy fuel dp_new (v_sources v) (v_out v) (v_annos v) (v_stats v); Some (GDiskPath s, ok)
  | ILinear p => '(s, ok) ← lin_copy p fuel lin_new (v_roots v) (v_out v) (v_annos v) (v_stats v); Some (GLinear p s, ok)
  | IPrePost o l => '(s, ok) ← pp_copy o l fuel pp_new (v_roots v) (v_out v) (v_annos v) (v_stats v); Some (GPrePost o l s, ok)
  end.

(** graph/mod.rs l.833-855: only writable storages calculate statistics *)
Definition gs_calc_stats (fuel : nat) (g : gs) : option gs :=
  match g with
  | GAdj s => st ← calc_stats fuel s; Some (GAdj (Adj (g_edges s) (g_inverse s) (g_annos s) (Some st)))
  | GDiskAdj s => st ← dk_calc_stats fuel s; Some (GDiskAdj (DAdj (k_edges s) (k_inverse s) (k_annos s) (Some st)))
  | _ => Some g
  end.

(** graph/mod.rs l.1023-1058: optimize_gs_impl. The boolean is false for an error. *)
Definition optimize_gs (fuel : nat) (disk : bool) (largest : option N) (g : gs) : option (gs * bool) :=
  v ← gs_view g;
  match v_stats v with
  | Some st =>
      let i := optimal_impl disk largest st in
      if decide (i = gs_impl g) then Some (g, true)
      else '(g', ok) ← gs_copy fuel i largest v; Some (if (ok : bool) then g' else g, ok)
  | None => Some (g, true)
  end.
(** graph/mod.rs l.981-1021: the part of optimize_impl that concerns one component *)
Definition optimize (fuel : nat) (disk : bool) (largest : option N) (g : gs) : option (gs * bool) :=
  g1 ← gs_calc_stats fuel g; optimize_gs fuel disk largest g1.

(** graph/mod.rs l.777-813 ensure_writeable with registry.rs l.56-74 create_writeable *)
Definition make_writable (fuel : nat) (disk : bool) (g : gs) : option (gs * bool) :=
  match g with
  | GAdj _ | GDiskAdj _ => Some (g, true)
  | _ =>
      v ← gs_view g;
      '(g', ok) ← gs_copy fuel (if disk then IDiskAdj else IAdj) None v; Some (if (ok : bool) then g' else g, ok)
  end.
(** graph/mod.rs l.397-647: an update event on an existing component *)
Definition update_gs (fuel : nat) (disk : bool) (g : gs) (o : adj_op) : option (gs * bool) :=
  '(g1, ok) ← make_writable fuel disk g;
  if ok : bool then
    match g1 with
    | GAdj s => let '(s', ok') := adj_step s o in Some (GAdj s', ok')
    | GDiskAdj s => let '(s', ok') := dk_step s o in Some (GDiskAdj s', ok')
    | _ => None
    end
  else Some (g1, false).

(** The life of a component. *)
Inductive comp_op :=
| CUpdate (o : adj_op)
| CStatistics
| COptimize (disk : bool) (largest : option N).
(** The boolean of the state is disk_based. *)
Definition comp_step (fuel : nat) (c : bool * gs) (o : comp_op) : option ((bool * gs) * bool) :=
  match o with
  | CUpdate u => '(g, ok) ← update_gs fuel c.1 c.2 u; Some ((c.1, g), ok)
  | CStatistics => g ← gs_calc_stats fuel c.2; Some ((c.1, g), true)
  | COptimize disk largest => '(g, ok) ← optimize fuel disk largest c.2; Some ((disk, g), ok)
  end.
Fixpoint comp_run (fuel : nat) (c : bool * gs) (ops : list comp_op) : option ((bool * gs) * list bool) :=
  match ops with
  | [] => Some (c, [])
  | o :: ops' =>
      '(c1, ok) ← comp_step fuel c o; '(c2, oks) ← comp_run fuel c1 ops'; Some (c2, ok :: oks)
  end.
End heuristic.
(** registry.rs l.56-74: create_writeable for a new component *)
Definition comp_new (disk : bool) : bool * gs := (disk, if disk then GDiskAdj dk_new else GAdj adj_new).
