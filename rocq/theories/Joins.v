(** Model of the execution nodes which join matches: /repo/graphannis/src/annis/db/exec/nestedloop.rs, indexjoin.rs,
    parallel/nestedloop.rs, parallel/indexjoin.rs and filter.rs.
    Simplifications: the iterators which are joined are the lists of the items they yield (they end for good after the
    last one); access outside of a match group, which panics in the code, is an item [IPanic]; timeouts and costs are left
    out (the decision which operand is the outer one is a parameter). Worker threads: see [interleave]. *)
From stdpp Require Import base list gmap.
From Coq Require Import NArith.
From Verif Require Import KeySer Types SortMatches.

(** annostorage/mod.rs: MatchGroup *)
Notation group := (list match_).
(** What a Box<dyn ExecutionNode<Item = Result<MatchGroup>>> yields *)
Inductive item := IOk (g : group) | IErr | IPanic.

Global Instance match_eq_dec : EqDecision match_ := _.

(** annostorage/mod.rs l.111-113 *)
Definition different_to (m1 m2 : match_) : bool := negb (bool_decide (m1 = m2)).
(** annostorage/mod.rs l.99-106 *)
Definition different_to_all (m : match_) (g : group) : bool := forallb (different_to m) g.

(** All the items an iterator with the function [next] yields when it is called until it gives None *)
Inductive yields {S : Type} (next : S → option item * S) : S → list item → Prop :=
  | yields_end st st' : next st = (None, st') → yields next st []
  | yields_item st x st' l : next st = (Some x, st') → yields next st' l → yields next st (x :: l).

(** What several threads put into one channel: the items of each thread stay in their order *)
Inductive interleave : list (list item) → list item → Prop :=
  | interleave_end ls : Forall (λ l, l = []) ls → interleave ls []
  | interleave_item ls1 x l ls2 out :
      interleave (ls1 ++ l :: ls2) out → interleave (ls1 ++ (x :: l) :: ls2) (x :: out).

Section Op.
(** [op] is filter_match of the operator (None: an error), [reflexive] is_reflexive, [global] global_reflexivity *)
Context (op : match_ → match_ → option bool) (reflexive global : bool).

(** ** Nested loop *)
Section NestedLoop.
(** nestedloop.rs l.10-23: the outer and the inner iterator can be the left or the right operand *)
Context (left_is_outer : bool) (outer_idx inner_idx : nat).

(** nestedloop.rs l.122-128 and 149-155 *)
Definition nl_filter (mo mi : match_) : option bool := if left_is_outer then op mo mi else op mi mo.
(** nestedloop.rs l.131-137: the rule for matches found with the cached inner ones *)
Definition nl_allowed (o i : group) (mo mi : match_) : bool :=
  reflexive || (global && different_to_all mo i && different_to_all mi o) || (negb global && different_to mo mi).
(** nestedloop.rs l.158-162: the rule for the first pass *)
Definition nl_allowed_first (o i : group) (mo mi : match_) : bool :=
  reflexive || negb (bool_decide (mo.1 = mi.1)) || negb (bool_decide (mo.2 = mi.2)).
(** One combination: None if it is not a match *)
Definition nl_check (allowed : group → group → match_ → match_ → bool) (o i : group) : option item :=
  match o !! outer_idx, i !! inner_idx with
  | Some mo, Some mi => match nl_filter mo mi with
                        | None => Some IErr
                        | Some ok => if ok && allowed o i mo mi then Some (IOk (o ++ i)) else None
                        end
  | _, _ => Some IPanic
  end.

(** nestedloop.rs l.10-23; the head of [outer] is what peek() gives *)
Record nl := NL { nl_outer : list item; nl_inner : list item; nl_cache : list group; nl_pos : option nat }.
(** nestedloop.rs l.26-102 *)
Definition nl_new (outer inner : list item) : nl := NL outer inner [] None.

(** nestedloop.rs l.118-142 *)
Fixpoint scan_cached (o : group) (l : list group) (p : nat) : option item * nat :=
  match l with
  | [] => (None, p)
  | i :: r => match nl_check nl_allowed o i with Some x => (Some x, S p) | None => scan_cached o r (S p) end
  end.
(** nestedloop.rs l.144-168 *)
Fixpoint scan_first (o : group) (inner : list item) (cache : list group) : option item * list item * list group :=
  match inner with
  | [] => (None, [], cache)
  | IOk i :: r => match nl_check nl_allowed_first o i with
                  | Some x => (Some x, r, cache ++ [i])
                  | None => scan_first o r (cache ++ [i])
                  end
  | e :: r => (Some e, r, cache)
  end.
(** nestedloop.rs l.114-183 *)
Fixpoint nl_loop (outer inner : list item) (cache : list group) (pos : option nat) : option item * nl :=
  match outer with
  | [] => (None, NL [] inner cache pos)
  | IOk o :: r =>
      match pos with
      | Some p => match scan_cached o (drop p cache) p with
                  | (Some x, p') => (Some x, NL outer inner cache (Some p'))
                  | (None, _) => nl_loop r inner cache (Some 0)
                  end
      | None => match scan_first o inner cache with
                | (Some x, inner', cache') => (Some x, NL outer inner' cache' None)
                | (None, inner', cache') => nl_loop r inner' cache' (Some 0)
                end
      end
  | e :: r => (Some e, NL r inner cache pos)
  end.
Definition nl_next (st : nl) : option item * nl := nl_loop (nl_outer st) (nl_inner st) (nl_cache st) (nl_pos st).

(** ** Parallel nested loop *)
(** parallel/nestedloop.rs l.13, 118-214: [buffer_size] is MAX_BUFFER_SIZE *)
Context (buffer_size : nat).
Record pnl := PNL { p_outer : list item; p_current : option group; p_inner : list item; p_cache : list group; p_pos : option nat }.
Definition pnl_new (outer inner : list item) : pnl := PNL outer None inner [] None.

(** parallel/nestedloop.rs l.118-135: None for no more outer match, Some None for an error *)
Definition peek_outer (outer : list item) (current : option group) : option (option group) * list item * option group :=
  match current with
  | Some o => (Some (Some o), outer, current)
  | None => match outer with
            | [] => (None, [], None)
            | IOk o :: r => (Some (Some o), r, Some o)
            | _ :: r => (Some None, r, None)
            end
  end.
(** parallel/nestedloop.rs l.147-164: the new position and the new buffer, which is complete when it is full *)
Fixpoint fill_cached (o : group) (l : list group) (p : nat) (buf : list (group * group)) : nat * list (group * group) * bool :=
  match l with
  | [] => (p, buf, false)
  | i :: r => let buf := buf ++ [(o, i)] in
              if decide (buffer_size <= length buf) then (S p, buf, true) else fill_cached o r (S p) buf
  end.
(** parallel/nestedloop.rs l.165-191; [errs] are the errors sent to the channel *)
Fixpoint fill_first (o : group) (inner : list item) (cache : list group) (buf : list (group * group)) (errs : list item)
  : list item * list group * list (group * group) * list item * bool :=
  match inner with
  | [] => ([], cache, buf, errs, false)
  | IOk i :: r => let cache := cache ++ [i] in
                  let buf := buf ++ [(o, i)] in
                  if decide (buffer_size <= length buf) then (r, cache, buf, errs, true) else fill_first o r cache buf errs
  | _ :: r => fill_first o r cache buf (errs ++ [IErr])
  end.
(** parallel/nestedloop.rs l.137-214; the loop consumes at least one outer match in each round, [fuel] bounds the rounds *)
Fixpoint next_match_buffer (fuel : nat) (st : pnl) (buf : list (group * group)) (errs : list item)
  : option (pnl * list (group * group) * list item) :=
  match fuel with
  | 0 => None
  | S f =>
    if decide (buffer_size <= length buf) then Some (st, buf, errs) else
    (* l.201-211: consume the current outer match *)
    let advance outer inner cache pos buf errs :=
      match peek_outer outer None with
      | (None, outer', cur) => Some (PNL outer' cur inner cache pos, buf, errs)
      | (Some (Some _), outer', cur) => next_match_buffer f (PNL outer' cur inner cache pos) buf errs
      | (Some None, outer', cur) => next_match_buffer f (PNL outer' cur inner cache pos) buf (errs ++ [IErr])
      end in
    match peek_outer (p_outer st) (p_current st) with
    | (None, outer, _) => advance outer (p_inner st) (p_cache st) (p_pos st) buf errs
    | (Some None, outer, _) => advance outer (p_inner st) (p_cache st) (p_pos st) buf (errs ++ [IErr])
    | (Some (Some o), outer, cur) =>
        match p_pos st with
        | Some p => match fill_cached o (drop p (p_cache st)) p buf with
                    | (p', buf', true) => Some (PNL outer cur (p_inner st) (p_cache st) (Some p'), buf', errs)
                    | (_, buf', false) => advance outer (p_inner st) (p_cache st) (Some 0) buf' errs
                    end
        | None => match fill_first o (p_inner st) (p_cache st) buf errs with
                  | (inner', cache', buf', errs', true) => Some (PNL outer cur inner' cache' None, buf', errs')
                  | (inner', cache', buf', errs', false) => advance outer inner' cache' (Some 0) buf' errs'
                  end
        end
    end
  end.
(** parallel/nestedloop.rs l.216-308: the receivers are emptied one after the other; the items of a buffer are checked by
    several threads. Errors of a filling which gives no candidates are dropped with the channel *)
Inductive pnl_yields : pnl → list item → Prop :=
  | pnl_end st st' errs :
      next_match_buffer (2 + length (p_outer st)) st [] [] = Some (st', [], errs) → pnl_yields st []
  | pnl_buffer st st' buf errs out rest :
      next_match_buffer (2 + length (p_outer st)) st [] [] = Some (st', buf, errs) → buf ≠ [] →
      interleave ((λ p, option_list (nl_check nl_allowed p.1 p.2)) <$> buf) out →
      pnl_yields st' rest → pnl_yields st (errs ++ out ++ rest).
End NestedLoop.

(** ** Index join *)
Section IndexJoin.
(** [retrieve] is retrieve_matches of the operator (None: an error), [keys] the annotation keys of a node with the name of
    the node search, [cond] and [const_output] are those of the node search *)
Context (lhs_idx : nat) (retrieve : match_ → option (list match_)) (keys : N → list anno_key)
        (cond : list (match_ → option bool)) (const_output : option anno_key).

(** indexjoin.rs l.90-115, parallel/indexjoin.rs l.208-234 *)
Inductive cands := CNone | CErr | CPanic | COk (l : list match_).
Definition candidates (g : group) : cands :=
  match g !! lhs_idx with
  | None => CPanic
  | Some m => match retrieve m with
              | None => CErr
              | Some ms => COk (mjoin ((λ m', (λ k, (m'.1, k)) <$> keys m'.1) <$> ms))
              end
  end.
Definition next_candidates (lhs : list item) : cands := match lhs with IOk g :: _ => candidates g | _ => CNone end.

(** indexjoin.rs l.139-146 *)
Fixpoint all_cond (fs : list (match_ → option bool)) (m : match_) : option bool :=
  match fs with
  | [] => Some true
  | f :: r => match f m with None => None | Some false => Some false | Some true => all_cond r m end
  end.
(** indexjoin.rs l.150-153 *)
Definition output_match (m : match_) : match_ := match const_output with Some k => (m.1, k) | None => m end.
(** indexjoin.rs l.155-159 *)
Definition ij_allowed (g : group) (ml m : match_) : bool :=
  reflexive || (global && different_to_all m g || (negb global && different_to m ml)).
(** indexjoin.rs l.164-178 *)
Fixpoint skip_same (n : N) (l : list match_) : list match_ :=
  match l with m :: r => if decide (m.1 = n) then skip_same n r else l | [] => [] end.
Definition after_match (n : N) (l : list match_) : list match_ := if const_output then skip_same n l else l.

(** indexjoin.rs l.137-183 *)
Fixpoint ij_scan (g : group) (ml : match_) (l : list match_) : option item * list match_ :=
  match l with
  | [] => (None, [])
  | m :: r => match all_cond cond m with
              | None => (Some IErr, r)
              | Some false => ij_scan g ml r
              | Some true => let m := output_match m in
                             if ij_allowed g ml m then (Some (IOk (g ++ [m])), after_match m.1 r) else ij_scan g ml r
              end
  end.
(** indexjoin.rs l.17-26 *)
Record ij := IJ { ij_lhs : list item; ij_cand : option (list match_) }.
Definition ij_new (lhs : list item) : ij := IJ lhs None.
(** indexjoin.rs l.134-193 *)
Fixpoint ij_loop (lhs : list item) (cand : option (list match_)) : option item * ij :=
  match lhs with
  | [] => (None, IJ [] cand)
  | IOk g :: r =>
      match cand with
      | None => (None, IJ lhs cand)
      | Some l => match g !! lhs_idx with
                  | None => (Some IPanic, IJ lhs cand)
                  | Some ml => match ij_scan g ml l with
                               | (Some x, l') => (Some x, IJ lhs (Some l'))
                               | (None, l') =>
                                   match next_candidates r with
                                   | CErr => (Some IErr, IJ r (Some l'))
                                   | CPanic => (Some IPanic, IJ r (Some l'))
                                   | COk l'' => ij_loop r (Some l'')
                                   | CNone => ij_loop r None
                                   end
                               end
                  end
      end
  | e :: r => (Some e, IJ r cand)
  end.
(** indexjoin.rs l.127-133: the first candidates *)
Definition ij_next (st : ij) : option item * ij :=
  match ij_cand st with
  | Some l => ij_loop (ij_lhs st) (Some l)
  | None => match next_candidates (ij_lhs st) with
            | CErr => (Some IErr, st)
            | CPanic => (Some IPanic, st)
            | COk l => ij_loop (ij_lhs st) (Some l)
            | CNone => ij_loop (ij_lhs st) None
            end
  end.

(** parallel/indexjoin.rs l.126-180: what one thread sends for one item of the left-hand side; a condition with an error is
    reported, but does not exclude the match *)
Fixpoint all_cond_par (fs : list (match_ → option bool)) (m : match_) : list item * bool :=
  match fs with
  | [] => ([], true)
  | f :: r => match f m with
              | Some true => all_cond_par r m
              | Some false => ([], false)
              | None => let '(es, b) := all_cond_par r m in (IErr :: es, b)
              end
  end.
Fixpoint thread_scan (fuel : nat) (g : group) (ml : match_) (l : list match_) : list item :=
  match fuel, l with
  | S f, m :: r => let '(es, inc) := all_cond_par cond m in
                   es ++ (if inc then
                            let m := output_match m in
                            if ij_allowed g ml m then IOk (g ++ [m]) :: thread_scan f g ml (after_match m.1 r)
                            else thread_scan f g ml r
                          else thread_scan f g ml r)
  | _, _ => []
  end.
Definition thread (i : item) : list item :=
  match i with
  | IOk g => match candidates g with
             | COk l => match g !! lhs_idx with Some ml => thread_scan (length l) g ml l | None => [IPanic] end
             | CErr => [IErr]
             | CPanic => [IPanic]
             | CNone => []
             end
  | e => [e]
  end.
(** parallel/indexjoin.rs l.91-104, 106-205, 243-268; [size] is MAX_BUFFER_SIZE *)
Inductive pij_yields (size : nat) : list item → list item → Prop :=
  | pij_end lhs : take size lhs = [] → pij_yields size lhs []
  | pij_buffer lhs out rest :
      take size lhs ≠ [] → interleave (thread <$> take size lhs) out →
      pij_yields size (drop size lhs) rest → pij_yields size lhs (out ++ rest).
End IndexJoin.

(** ** Filter *)
(** filter.rs l.73-81 *)
Definition filter_binary (lhs_idx rhs_idx : nat) (l : list item) : list item :=
  mjoin ((λ i, match i with
               | IOk g => match g !! lhs_idx, g !! rhs_idx with
                          | Some a, Some b => match op a b with
                                              | None => [IErr] | Some true => [IOk g] | Some false => []
                                              end
                          | _, _ => [IPanic]
                          end
               | e => [e]
               end) <$> l).
End Op.

(** filter.rs l.119-129 *)
Definition filter_unary (uop : match_ → option bool) (idx : nat) (l : list item) : list item :=
  mjoin ((λ i, match i with
               | IOk g => match g !! idx with
                          | Some a => match uop a with None => [IErr] | Some true => [IOk g] | Some false => [] end
                          | None => [IPanic]
                          end
               | e => [e]
               end) <$> l).

(** ** Positions of the query nodes *)
(** exec/mod.rs l.99-112: node_pos of the description of a join *)
Definition join_pos (p q : gmap nat nat) : gmap nat nat := ((λ x, x + size p) <$> q) ∪ p.
