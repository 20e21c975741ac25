(** Model of frequency queries (/repo/graphannis/src/annis/db/corpusstorage.rs l.207-223 and 2274-2356, disjunction.rs l.31-38).
    Simplifications: timeouts are left out; a hash map is a finite map, so the order of its entries is arbitrary; the matches of a
    corpus are the items of its execution plan (Plan.v), None if the plan can not be created; a panic is an error. *)
From stdpp Require Import base list gmap.
From Coq Require Import NArith.
From Verif Require Import KeySer Types AnnoMem QName SortMatches Joins Query.

(** l.197-205 *)
Record freq_def := FreqDef { fd_ns : option bytes; fd_name : bytes; fd_node_ref : bytes }.
(** l.207-223; None for the error InvalidFrequencyDefinition *)
Fixpoint split_colon (s : bytes) : option (bytes * bytes) :=
  match s with
  | [] => None
  | b :: r => if decide (b = 58%N) then Some ([], r) else p ← split_colon r; Some (b :: p.1, p.2)
  end.
Definition freq_def_from_str (s : bytes) : option freq_def :=
  p ← split_colon s;
  let '(ns, name) := split_qname p.2 in Some (FreqDef ns name p.1).

(** disjunction.rs l.31-38 *)
Fixpoint get_variable_pos {S B U} (alts : list (qconj S B U)) (v : vname) : option nat :=
  match alts with
  | [] => None
  | a :: r => match resolve_variable_pos a v with Some p => Some p | None => get_variable_pos r v end
  end.

(** A corpus as far as it is needed here: its annotation storage (values and qualified names) and the matches of the query *)
Record fcorpus := FCorpus {
  fc_value : N → anno_key → option bytes;
  fc_qnames : bytes → list anno_key;
  fc_plan : option (list item) }.

Section frequency.
(** position of the node of a definition *)
Context (pos : bytes → option nat).
(** l.2292-2311 *)
Definition anno_keys_of (c : fcorpus) (defs : list freq_def) : list (nat * list anno_key) :=
  omap (λ d, node_ref ← pos (fd_node_ref d);
             Some (node_ref, match fd_ns d with Some ns => [AnnoKey (fd_name d) ns] | None => fc_qnames c (fd_name d) end)) defs.
(** l.2321-2333 *)
Definition tuple_val (c : fcorpus) (g : group) (d : nat * list anno_key) : bytes :=
  match g !! d.1 with
  | Some m => fold_left (λ v k, match fc_value c m.1 k with Some x => x | None => v end) d.2 []
  | None => []
  end.
(** l.2315-2343 *)
Fixpoint count_items (c : fcorpus) (keys : list (nat * list anno_key)) (items : list item) (freq : gmap (list bytes) nat) :
  option (gmap (list bytes) nat) :=
  match items with
  | [] => Some freq
  | IOk g :: r =>
      let tuple := tuple_val c g <$> keys in
      count_items c keys r (<[tuple := S (default 0 (freq !! tuple))]> freq)
  | _ :: _ => None
  end.
(** l.2283-2344 *)
Fixpoint count_corpora (defs : list freq_def) (cs : list fcorpus) (freq : gmap (list bytes) nat) : option (gmap (list bytes) nat) :=
  match cs with
  | [] => Some freq
  | c :: r => items ← fc_plan c; freq' ← count_items c (anno_keys_of c defs) items freq; count_corpora defs r freq'
  end.
(** l.2274-2356 *)
Definition frequency (defs : list freq_def) (cs : list fcorpus) : option (list (list bytes * nat)) :=
  freq ← count_corpora defs cs ∅;
  Some (sort_list (λ a b : list bytes * nat, CompOpp (Nat.compare a.2 b.2)) (map_to_list freq)).
End frequency.
