(** Model of [DiskMap] (/repo/core/src/util/disk_collections.rs): a map with three levels
    C0 (memory), C1 (temporary B-tree index on disk) and C2 (immutable sorted table file). *)
From stdpp Require Import base list.
From Verif Require Import KeySer KeySerSpec SortedMap.

Section diskmap.
(** The key type with its [Ord] and its [KeySerializer]. *)
Context {K V : Type} (kcmp : K → K → comparison) (ser : K → bytes) (parse : bytes → res K).

(** disk_collections.rs l.34-47. [None] as value of an entry is a tombstone. The
    [BTreeMap] C0 and the [BtreeIndex] C1 are sorted association lists, the sorted table C2 is a
    list sorted by the serialised key. Block caches and bincode (de)serialisation of values are not
    modelled. [dm_max] is the n of EvictionStrategy::MaximumItems(n) (default: 10000, l.24-32). *)
Record diskmap := DM {
  dm_max : nat;
  dm_c0 : list (K * option V);
  dm_c1 : option (list (K * option V));
  dm_c2 : option (list (bytes * option V))
}.

(** l.58-82 without file and l.84-98 (new_temporary); a table file given to [new] becomes C2. *)
Definition dm_new (n : nat) (file : option (list (bytes * option V))) : diskmap := DM n [] None file.

(** l.332-350: compact. All entries of C0, including tombstones, are inserted into C1. *)
Definition dm_compact (m : diskmap) : diskmap :=
  let c1 := match dm_c1 m with Some c1 => c1 | None => [] end in
  DM (dm_max m) [] (Some (fold_left (λ c e, al_insert kcmp c e.1 e.2) (dm_c0 m) c1)) (dm_c2 m).

(** l.352-362 *)
Definition dm_evict (m : diskmap) : diskmap :=
  if decide (dm_max m ≤ length (dm_c0 m)) then dm_compact m else m.

(** l.102-108 *)
Definition dm_insert (m : diskmap) (k : K) (v : V) : diskmap :=
  dm_evict (DM (dm_max m) (al_insert kcmp (dm_c0 m) k (Some v)) (dm_c1 m) (dm_c2 m)).

(** l.110-149: get. The outer option of the level lookups tells whether there is an entry. *)
Definition dm_get (m : diskmap) (k : K) : option V :=
  match al_get kcmp (dm_c0 m) k with
  | Some entry => entry
  | None =>
      match (match dm_c1 m with Some c1 => al_get kcmp c1 k | None => None end) with
      | Some entry => entry
      | None =>
          match dm_c2 m with
          | Some c2 => match al_get lex_compare c2 (ser k) with Some entry => entry | None => None end
          | None => None
          end
      end
  end.

(** TableIterator::seek: position at the first entry whose key is >= the given one. *)
Fixpoint table_seek (t : list (bytes * option V)) (k : bytes) : list (bytes * option V) :=
  match t with
  | [] => []
  | (k', v) :: t' => match lex_compare k' k with Lt => table_seek t' k | _ => t end
  end.

(** l.151-183: contains_key. In C1 only the presence of an entry is checked (l.162-167), in C2 the
    entry at the seeked position is compared. *)
Definition dm_contains_key (m : diskmap) (k : K) : bool :=
  match al_get kcmp (dm_c0 m) k with
  | Some (Some _) => true
  | Some None => false
  | None =>
      match (match dm_c1 m with Some c1 => al_get kcmp c1 k | None => None end) with
      | Some _ => true
      | None =>
          match dm_c2 m with
          | Some c2 =>
              match table_seek c2 (ser k) with
              | (k', _) :: _ => match lex_compare k' (ser k) with Eq => true | _ => false end
              | [] => false
              end
          | None => false
          end
      end
  end.

(** l.185-195: remove returns the existing value and leaves a tombstone in C0. *)
Definition dm_remove (m : diskmap) (k : K) : diskmap * option V :=
  match dm_get m k with
  | Some v => (dm_evict (DM (dm_max m) (al_insert kcmp (dm_c0 m) k None) (dm_c1 m) (dm_c2 m)), Some v)
  | None => (m, None)
  end.

(** l.301-305 *)
Definition dm_clear (m : diskmap) : diskmap := DM (dm_max m) [] None None.

(** Skipping the tombstones of a level (e.g. l.201-204, l.222-225). *)
Definition live (l : list (K * option V)) : list (K * V) :=
  omap (λ e, match e.2 with Some v => Some (e.1, v) | None => None end) l.

(** Decoding the entries of C2: parse the key and skip deleted values (l.372-394). [None]: some key
    cannot be parsed; the real iterator returns an error item at this position. *)
Fixpoint decode_table (t : list (bytes * option V)) : option (list (K * V)) :=
  match t with
  | [] => Some []
  | (k, ov) :: t' =>
      match parse k with
      | Ok k' =>
          match ov with
          | Some v => option_map (λ l, (k', v) :: l) (decode_table t')
          | None => decode_table t'
          end
      | _ => None
      end
  end.

Definition map_bound (b : bound K) : bound bytes :=
  match b with
  | Included k => Included (ser k)
  | Excluded k => Excluded (ser k)
  | Unbounded => Unbounded
  end.

(** l.596-697: SimplifiedRange::new: position of the table iterator, and whether it is exhausted.
    l.617-640 and 660-683: the checks of the seeked entry. *)
Definition sr_check (s e : bound bytes) (t : list (bytes * option V)) : bool :=
  match t with
  | (k, _) :: _ => negb (above lex_compare s k) || negb (below lex_compare e k)
  | [] => true
  end.
(** l.646-655: for an excluded start bound an entry equal to the bound is skipped. *)
Definition sr_skip_equal (start : bytes) (p : list (bytes * option V)) : list (bytes * option V) :=
  match p with
  | (k, _) :: p' => match lex_compare k start with Eq => p' | _ => p end
  | [] => p
  end.
Definition sr_new (s e : bound bytes) (t : list (bytes * option V)) : list (bytes * option V) * bool :=
  match s with
  | Included start => let p := table_seek t start in (p, sr_check s e p)
  | Excluded start =>
      let p := sr_skip_equal start (table_seek t start) in
      (p, sr_check s e p)
  | Unbounded => (t, match t with [] => true | _ => false end)
  end.

(** l.699-709 range_contains and l.719-749 next: entries are returned until the first one outside the range. *)
Fixpoint sr_take (s e : bound bytes) (t : list (bytes * option V)) : list (bytes * option V) :=
  match t with
  | (k, v) :: t' =>
      if above lex_compare s k && below lex_compare e k then (k, v) :: sr_take s e t' else []
  | [] => []
  end.
Definition simplified_range (s e : bound bytes) (t : list (bytes * option V)) : option (list (K * V)) :=
  let '(p, exhausted) := sr_new s e t in
  if exhausted then Some [] else decode_table (sr_take s e p).

(** l.488: smallest key of the three peeked entries ([Iterator::min]). *)
Definition min_key (a b : option K) : option K :=
  match a, b with
  | Some x, Some y => match kcmp x y with Gt => Some y | _ => Some x end
  | Some x, None => Some x
  | None, y => y
  end.

(** l.490-509: advance an iterator if its current key is the minimal one. *)
Definition pop_if {A} (mk : K) (l : list (K * A)) : option (K * A) * list (K * A) :=
  match l with
  | (k, x) :: l' => match kcmp k mk with Eq => (Some (k, x), l') | _ => (None, l) end
  | [] => (None, [])
  end.

(** l.471-546: one iteration of the loop in CombinedRange::next. [None]: all iterators are finished;
    [Some (Some e, _)]: e is returned; [Some (None, _)]: continue. Error items of the
    underlying files are not modelled. *)
Definition combined_step (l0 l1 : list (K * option V)) (l2 : list (K * V)) :
  option (option (K * V) * (list (K * option V) * list (K * option V) * list (K * V))) :=
  match min_key (min_key (fst <$> head l0) (fst <$> head l1)) (fst <$> head l2) with
  | None => None
  | Some mk =>
      let '(e0, l0') := pop_if mk l0 in
      let '(e1, l1') := pop_if mk l1 in
      let '(e2, l2') := pop_if mk l2 in
      let out :=
        match e0 with
        | Some (k, Some v) => Some (k, v)
        | Some (_, None) => None
        | None =>
            match e1 with
            | Some (k, Some v) => Some (k, v)
            | Some (_, None) => None
            | None => e2
            end
        end in
      Some (out, (l0', l1', l2'))
  end.

(** Collecting all items of the iterator; [None] if the fuel does not suffice. *)
Fixpoint combined_collect (fuel : nat) (l0 l1 : list (K * option V)) (l2 : list (K * V)) :
  option (list (K * V)) :=
  match fuel with
  | O => None
  | S fuel' =>
      match combined_step l0 l1 l2 with
      | None => Some []
      | Some (out, (l0', l1', l2')) =>
          match combined_collect fuel' l0' l1' l2' with
          | None => None
          | Some rest => Some (match out with Some e => e :: rest | None => rest end)
          end
      end
  end.

(** l.231-291: range. [None] stands for an error item or a panic. [BTreeMap::range] (C0) panics for
    inverted bounds. *)
Definition dm_range (m : diskmap) (s e : bound K) : option (list (K * V)) :=
  let combined :=
    if range_panics kcmp s e then None
    else
      match (match dm_c2 m with Some c2 => simplified_range (map_bound s) (map_bound e) c2 | None => Some [] end) with
      | None => None
      | Some l2 =>
          let l0 := al_range kcmp (dm_c0 m) s e in
          let l1 := match dm_c1 m with Some c1 => al_range kcmp c1 s e | None => [] end in
          combined_collect (S (length l0 + length l1 + length l2)) l0 l1 l2
      end in
  match dm_c1 m with
  | Some c1 =>
      match dm_c0 m, dm_c2 m with
      | [], None => Some (live (al_range kcmp c1 s e))
      | _, _ => combined
      end
  | None =>
      match dm_c2 m with
      | Some c2 =>
          match dm_c0 m with
          | [] => simplified_range (map_bound s) (map_bound e) c2
          | _ => combined
          end
      | None => if range_panics kcmp s e then None else Some (live (al_range kcmp (dm_c0 m) s e))
      end
  end.

(** l.197-229: iter *)
Definition dm_iter (m : diskmap) : option (list (K * V)) :=
  match dm_c1 m with
  | Some c1 =>
      match dm_c0 m, dm_c2 m with
      | [], None => Some (live c1)
      | _, _ => dm_range m Unbounded Unbounded
      end
  | None =>
      match dm_c2 m with
      | Some c2 =>
          match dm_c0 m with
          | [] => decode_table c2
          | _ => dm_range m Unbounded Unbounded
          end
      | None => Some (live (dm_c0 m))
      end
  end.

(** l.293-299: is_empty *)
Definition dm_is_empty (m : diskmap) : option bool :=
  match dm_c0 m, dm_c1 m, dm_c2 m with
  | [], None, None => Some true
  | _, _, _ => option_map (λ l, match l with [] => true | _ => false end) (dm_iter m)
  end.

(** l.307-329: write_to writes the iterated entries to a sorted table. *)
Definition dm_write_to (m : diskmap) : option (list (bytes * option V)) :=
  option_map (map (λ e, (ser e.1, Some e.2))) (dm_iter m).

(** Operations of a client. [DmReopen]: write to a file and continue with a map opened on this file. *)
Inductive dm_op := DmInsert (k : K) (v : V) | DmRemove (k : K) | DmClear | DmCompact | DmReopen.

(** Result: the new map ([None]: an error or panic happened) and what [remove] returned. *)
Definition dm_step (m : diskmap) (o : dm_op) : option (diskmap * option V) :=
  match o with
  | DmInsert k v => Some (dm_insert m k v, None)
  | DmRemove k => Some (dm_remove m k)
  | DmClear => Some (dm_clear m, None)
  | DmCompact => Some (dm_compact m, None)
  | DmReopen => option_map (λ t, (dm_new (dm_max m) (Some t), None)) (dm_write_to m)
  end.

Fixpoint dm_run (m : diskmap) (ops : list dm_op) : option (diskmap * list (option V)) :=
  match ops with
  | [] => Some (m, [])
  | o :: ops' =>
      match dm_step m o with
      | Some (m1, r) =>
          match dm_run m1 ops' with
          | Some (m2, rs) => Some (m2, r :: rs)
          | None => None
          end
      | None => None
      end
  end.
End diskmap.
Arguments diskmap K V : clear implicits.
Arguments dm_op K V : clear implicits.
