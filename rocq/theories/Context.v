(** Model of the context of matches: /repo/graphannis/src/annis/db/corpusstorage/subgraph.rs l.22-459.
    Simplifications: errors of the storages are left out; the matched nodes are given by their ids (l.417-425 maps the names to ids);
    the elements of a HashSet are listed in an order [hash] which only depends on the set. *)
From stdpp Require Import base list gmap.
From Coq Require Import NArith.
From Verif Require Import KeySer SortedMap Types SymbolTable AnnoMem Adjacency Storage GraphApply TokenHelper QuickSort.

(** Results: a value, GraphAnnisError::NoCoveredTokenForSubgraph, another error, or the sorting has not ended *)
Inductive result (A : Type) := ROk (a : A) | RNoToken | RError | RNoFuel.
Arguments ROk {A} a.
Arguments RNoToken {A}.
Arguments RError {A}.
Arguments RNoFuel {A}.

(** l.263-274 and l.174-185: the position in the text *)
Definition order_cmp (order : storage) (a b : N) : comparison :=
  if decide (a = b) then Eq
  else if gs_is_connected order a b 1 Unbounded then Lt
  else if gs_is_connected order b a 1 Unbounded then Gt
  else N.compare a b.

(** l.104-113, l.115-127, l.197-216: for ctx in (0..=ctx).rev(), [find] gives the nodes with exactly this distance *)
Fixpoint clip (find : N → list N) (start : N) (ctx : nat) : N :=
  match head (find (N.of_nat ctx)) with
  | Some r => r
  | None => match ctx with 0 => start | S k => clip find start k end
  end.
Definition clip_left (order : storage) (x : N) (ctx : nat) : N := clip (λ d, gs_connected_inverse order x d (Included d)) x ctx.
Definition clip_right (order : storage) (x : N) (ctx : nat) : N := clip (λ d, gs_connected order x d (Included d)) x ctx.

(** l.88-129 *)
Definition window_tokens (order : storage) (covered : list N) (ctx_left ctx_right : nat) : result (N * N) :=
  match head covered, last covered with
  | Some l, Some r => ROk (clip_left order l ctx_left, clip_right order r ctx_right)
  | _, _ => RNoToken
  end.

Section Region.
Context (hash : gset N → list N) (fuel : nat) (rnd : nat → nat).
(** l.154-171: nodes of the segmentation which cover one of the tokens *)
Definition segments (th : helper) (seg : storage) (covered : list N) : list N :=
  hash (list_to_set (C := gset N)
    (mjoin ((λ gs, mjoin ((λ t, filter (λ n, gs_has_out seg n || gs_has_in seg n = true) (gs_in gs t)) <$> covered)) <$> th_cov th))).
(** l.131-222; the ordering component of the segmentation is [seg] *)
Definition window_segments (th : helper) (seg : storage) (covered : list N) (ctx_left ctx_right : nat) : result (N * N) :=
  match head covered, last covered with
  | Some l, Some r =>
      match sort (order_cmp seg) fuel rnd (segments th seg covered) with
      | Done [] => ROk (l, r)
      | Done (s :: ss) =>
          let s' := default s (last ss) in
          ROk (default l (left_token_for th (clip_left seg s ctx_left)), default r (right_token_for th (clip_right seg s' ctx_right)))
      | Failed => RError
      | NoFuel => RNoFuel
      end
  | _, _ => RNoToken
  end.
(** l.250-262 *)
Definition covered_tokens (th : helper) (n : N) : list N :=
  if is_token th n then [n]
  else hash (list_to_set (C := gset N) (mjoin ((λ gs, filter (λ t, is_token th t = true) (gs_out gs n)) <$> th_cov th))).
(** l.233-303; [seg] is None without a segmentation and Some None if its component is missing *)
Definition region (db : corpus) (n : N) (ctx_left ctx_right : nat) (seg : option (option storage)) : result (N * N) :=
  match th_new db, cp_order db with
  | Some th, Some order =>
      match sort (order_cmp order) fuel rnd (covered_tokens th n) with
      | Done covered =>
          match seg with
          | None => window_tokens order covered ctx_left ctx_right
          | Some (Some gs) => window_segments th gs covered ctx_left ctx_right
          | Some None => match covered with [] => RNoToken | _ => RError end
          end
      | Failed => RError
      | NoFuel => RNoFuel
      end
  | _, _ => RError
  end.

(** ** Token iterator, l.22-86 *)
(** The nodes covering the current token which are still to be emitted, and the current token *)
Record token_iter := TokenIter { ti_covering : list N; ti_current : option N }.
(** l.31-46 *)
Definition covering_nodes (th : helper) (t : option N) : list N :=
  match t with
  | Some t => hash (list_to_set (C := gset N) (mjoin ((λ gs, gs_in gs t) <$> th_cov th)))
  | None => []
  end.
(** l.51-85 *)
Definition token_next (th : helper) (order : storage) (end_token : N) (st : token_iter) : option N * token_iter :=
  match ti_covering st with
  | n :: r => (Some n, TokenIter r (ti_current st))
  | [] =>
      match ti_current st with
      | None => (None, st)
      | Some t => if decide (t = end_token) then (Some t, TokenIter [] None)
                  else let next := head (gs_out order t) in (Some t, TokenIter (covering_nodes th next) next)
      end
  end.
(** l.305-316 *)
Definition token_iter_new (th : helper) (start : N) : token_iter := TokenIter (covering_nodes th (Some start)) (Some start).
(** All the nodes an iterator with the function [next] emits when it is called until it gives None *)
Inductive emits {S : Type} (next : S → option N * S) : S → list N → Prop :=
  | emits_end st st' : next st = (None, st') → emits next st []
  | emits_node st x st' l : next st = (Some x, st') → emits next st' l → emits next st (x :: l).

(** ** Nodes of the subgraph *)
(** l.346-372: the order of the regions *)
Definition region_cmp (order : storage) (a b : N * N) : comparison :=
  if decide (a = b) then Eq
  else if gs_is_connected order a.2 b.1 1 Unbounded then Lt
  else if gs_is_connected order b.2 a.1 1 Unbounded then Gt
  else match N.compare a.1 b.1 with Eq => N.compare a.2 b.2 | o => o end.
(** l.326-340 *)
Fixpoint regions (db : corpus) (ns : list N) (ctx_left ctx_right : nat) (seg : option (option storage)) : result (list (N * N)) :=
  match ns with
  | [] => ROk []
  | n :: ns' =>
      match region db n ctx_left ctx_right seg with
      | ROk r => match regions db ns' ctx_left ctx_right seg with ROk rs => ROk (r :: rs) | e => e end
      | RNoToken => regions db ns' ctx_left ctx_right seg
      | RError => RError
      | RNoFuel => RNoFuel
      end
  end.
(** l.319-383: what the iterator emits; the iterators of the sorted regions one after the other *)
Inductive overlapped (db : corpus) (ns : list N) (ctx_left ctx_right : nat) (seg : option (option storage)) : list N → Prop :=
  | overlapped_intro th order rs rs' ls :
      th_new db = Some th → cp_order db = Some order →
      regions db ns ctx_left ctx_right seg = ROk rs → sort (region_cmp order) fuel rnd rs = Done rs' →
      Forall2 (λ r l, emits (token_next th order r.2) (token_iter_new th r.1) l) rs' ls →
      overlapped db ns ctx_left ctx_right seg (mjoin ls).
(** l.387-407 *)
Definition parents (part_of : storage) (ns : list N) : list N :=
  hash (list_to_set (C := gset N) (mjoin ((λ n, gs_connected part_of n 1 Unbounded) <$> ns))).
(** l.409-459: the ids of the nodes *)
Inductive subgraph_nodes (db : corpus) (part_of : storage) (ns : list N) (ctx_left ctx_right : nat) (seg : option (option storage)) : list N → Prop :=
  | subgraph_intro th o :
      th_new db = Some th → overlapped db ns ctx_left ctx_right seg o →
      subgraph_nodes db part_of ns ctx_left ctx_right seg (filter (λ n, is_token th n = false) ns ++ o ++ parents part_of ns).
End Region.

(** ** Gaps between the tokens of a subgraph *)
(** l.488-524, only the edges of Ordering/annis/datasource-gap; [seen] are the ids of match_result (all matches have the same key) *)
Fixpoint gap_edges (th : helper) (order : storage) (seen : gset N) (prev : option N) (l : list N) : list edge :=
  match l with
  | [] => []
  | n :: l' =>
      if decide (n ∈ seen) then gap_edges th order seen prev l'
      else if is_token th n then
        (match prev with
         | Some p => match gs_distance order p n with Some d => if decide (1 < d)%N then [Edge p n] else [] | None => [] end
         | None => []
         end) ++ gap_edges th order ({[n]} ∪ seen) (Some n) l'
      else gap_edges th order ({[n]} ∪ seen) prev l'
  end.
