(** Model of the on-disk annotation storage (/repo/core/src/annostorage/ondisk.rs), on top of the model
    of the disk maps. An option result [None] stands for an I/O or parse error (propagated with [?]) or a
    panic; iterators of results are modelled by the list of their items or [None] if one of them is
    an error. Histogram and estimation functions are not part of this file. *)
From stdpp Require Import base list gmap fin_maps.
From Coq Require Import NArith.
From Verif Require Import KeySer KeySerSpec SortedMap DiskMap Types SymbolTable AnnoMem.

Section annodisk.
(** The item type with its order and its fixed size serialisation into [w] bytes. *)
Context {T : Type} (tcmp : T → T → comparison) (w : nat) (ser : T → bytes) (parse : bytes → res T).

(** l.36-57: struct AnnoStorageImpl (location, temp_dir and histogram left out) *)
Record ad := AD {
  d_container : diskmap bytes bytes;
  d_qname : diskmap bytes bool;
  d_symbols : symtab anno_key;
  d_sizes : list (anno_key * nat);
  d_largest : option T
}.

(** Disk maps with ByteBuf keys *)
Notation bget := (dm_get (V:=bytes) lex_compare (λ b : bytes, b)).
Notation bcontains := (dm_contains_key (V:=bytes) lex_compare (λ b : bytes, b)).
Notation bremove := (dm_remove (V:=bytes) lex_compare (λ b : bytes, b)).
Notation brange := (dm_range (V:=bytes) lex_compare (λ b : bytes, b) (λ b : bytes, Ok b)).
Notation qremove := (dm_remove (V:=bool) lex_compare (λ b : bytes, b)).
Notation qrange := (dm_range (V:=bool) lex_compare (λ b : bytes, b) (λ b : bytes, Ok b)).

(** l.65-69: create_by_container_key; serializer.rs: usize keys are 8 bytes big endian *)
Definition container_key (item : T) (symbol : nat) : bytes := ser item ++ be_bytes 8 (N.of_nat symbol).
Definition container_key_max (item : T) : bytes := ser item ++ be_bytes 8 usize_max.

(** l.80-94: create_by_anno_qname_key; [raw] is the serialised item or node id *)
Definition qname_key (raw : bytes) (symbol : nat) (value : bytes) : bytes :=
  be_bytes 8 (N.of_nat symbol) ++ value ++ [0%N] ++ raw.
(** NodeID::MIN and NodeID::MAX as keys *)
Definition node_min : bytes := be_bytes 8 0.
Definition node_max : bytes := be_bytes 8 18446744073709551615.

(** l.144-167: new(None); [n] is the maximum of EVICTION_STRATEGY (10000, l.26) *)
Definition ad_new (n : nat) : ad := AD (dm_new n None) (dm_new n None) st_new [] None.

(** l.353-394: insert. The boolean is false for an overflow of the symbol table. *)
Definition ad_insert (s : ad) (item : T) (ak : anno_key) (av : bytes) : ad * bool :=
  match st_insert (d_symbols s) ak with
  | (symbols, None) => (AD (d_container s) (d_qname s) symbols (d_sizes s) (d_largest s), false)
  | (symbols, Some k) =>
      let ckey := container_key item k in
      let smaller := match d_largest s with
                     | None => true
                     | Some l => match tcmp item l with Gt => false | _ => true end
                     end in
      let already_existed := smaller && bcontains (d_container s) ckey in
      let container := dm_insert lex_compare (d_container s) ckey av in
      let qname := dm_insert lex_compare (d_qname s) (qname_key (ser item) k av) true in
      if already_existed then (AD container qname symbols (d_sizes s) (d_largest s), true)
      else (AD container qname symbols
              (al_insert anno_key_compare (d_sizes s) ak
                 (S (default 0 (al_get anno_key_compare (d_sizes s) ak))))
              (grow_largest tcmp (d_largest s) item), true)
  end.

(** l.441-456 and l.484-499: decrease the count of a key and remove it when it is unused *)
Definition drop_key (sizes : list (anno_key * nat)) (symbols : symtab anno_key) (ak : anno_key) :=
  let '(sizes1, n) :=
    match al_get anno_key_compare sizes ak with
    | Some n => (al_insert anno_key_compare sizes ak (n - 1), n - 1)
    | None => (sizes, 0)
    end in
  if decide (n = 0) then
    (al_remove anno_key_compare sizes1 ak,
     match st_get_symbol symbols ak with Some id => (st_remove symbols id).1 | None => symbols end)
  else (sizes1, symbols).

(** l.422-459: body of the loop in remove_item, l.472-500: remove_annotation_for_item after the symbol is
    known. [ckey] is the key in by_container. *)
Definition remove_entry (s : ad) (item : T) (ckey : bytes) (k : nat) (ak : anno_key) : ad * option bytes :=
  match bremove (d_container s) ckey with
  | (container, Some v) =>
      let qname := (qremove (d_qname s) (qname_key (ser item) k v)).1 in
      let '(sizes, symbols) := drop_key (d_sizes s) (d_symbols s) ak in
      (AD container qname symbols sizes (d_largest s), Some v)
  | (container, None) => (AD container (d_qname s) (d_symbols s) (d_sizes s) (d_largest s), None)
  end.

Definition resolve (s : ad) (k : nat) : anno_key := default (AnnoKey [] []) (st_get_value (d_symbols s) k).

Definition parse_symbol (b : bytes) : option nat :=
  match uint_parse_key 8 b with Ok n => Some (N.to_nat n) | _ => None end.

(** l.413-462: remove_item *)
Fixpoint remove_loop (s : ad) (item : T) (l : list (bytes * bytes)) (result : bool) : option (ad * bool) :=
  match l with
  | [] => Some (s, result)
  | (ckey, _) :: l' =>
      match parse_symbol (drop w ckey) with
      | Some k =>
          match remove_entry s item ckey k (resolve s k) with
          | (s', Some _) => remove_loop s' item l' true
          | (s', None) => remove_loop s' item l' result
          end
      | None => None
      end
  end.
Definition ad_remove_item (s : ad) (item : T) : option (ad * bool) :=
  match brange (d_container s) (Included (container_key item 0)) (Included (container_key_max item)) with
  | Some l => remove_loop s item l false
  | None => None
  end.

(** l.464-504: remove_annotation_for_item *)
Definition ad_remove_annotation (s : ad) (item : T) (ak : anno_key) : ad * option bytes :=
  match st_get_symbol (d_symbols s) ak with
  | Some k => remove_entry s item (container_key item k) k ak
  | None => (s, None)
  end.

(** l.506-515: clear (the symbol table is kept) *)
Definition ad_clear (s : ad) : ad :=
  AD (dm_clear (d_container s)) (dm_clear (d_qname s)) (d_symbols s) [] None.

(** l.1148-1165 save_annotations_to and l.107-144 new(Some(path)) / l.1118-1146 load_annotations_from;
    the bincode round trip of custom.bin is the identity. *)
Definition ad_reload (s : ad) : option ad :=
  match dm_write_to lex_compare (λ b : bytes, b) (λ b : bytes, Ok b) (d_container s),
        dm_write_to lex_compare (λ b : bytes, b) (λ b : bytes, Ok b) (d_qname s) with
  | Some t1, Some t2 =>
      Some (AD (dm_new (dm_max (d_container s)) (Some t1)) (dm_new (dm_max (d_qname s)) (Some t2))
               (st_reload (d_symbols s)) (d_sizes s) (d_largest s))
  | _, _ => None
  end.

(** l.282-296: parse_by_container_key *)
Definition parse_container_key (s : ad) (data : bytes) : option (T * anno_key) :=
  match parse (take w data), parse_symbol (drop w data) with
  | Ok item, Some k => Some (item, resolve s k)
  | _, _ => None
  end.

(** l.396-411: get_annotations_for_item *)
Definition ad_get_annotations (s : ad) (item : T) : option (list (anno_key * bytes)) :=
  l ← brange (d_container s) (Included (container_key item 0)) (Included (container_key_max item));
  mapM (λ e : bytes * bytes, ik ← parse_container_key s e.1; Some (ik.2, e.2)) l.

(** l.517-533: get_qnames *)
Definition ad_get_qnames (s : ad) (name : bytes) : list anno_key :=
  take_name name (al_range anno_key_compare (d_sizes s) (Included (AnnoKey name [])) Unbounded).

(** l.535-542 *)
Definition ad_number_of_annotations (s : ad) : option nat :=
  l ← dm_iter lex_compare (λ b : bytes, b) (λ b : bytes, Ok b) (d_container s); Some (length l).
Definition ad_is_empty (s : ad) : option bool :=
  dm_is_empty lex_compare (λ b : bytes, b) (λ b : bytes, Ok b) (d_container s).

(** l.544-557: get_value_for_item *)
Definition ad_get_value (s : ad) (item : T) (ak : anno_key) : option bytes :=
  match st_get_symbol (d_symbols s) ak with
  | Some k => bget (d_container s) (container_key item k)
  | None => None
  end.

(** l.559-568: has_value_for_item *)
Definition ad_has_value (s : ad) (item : T) (ak : anno_key) : bool :=
  match st_get_symbol (d_symbols s) ak with
  | Some k => bcontains (d_container s) (container_key item k)
  | None => false
  end.

(** l.180-192 (and l.241-254): keys to search in *)
Definition search_symbols (s : ad) (ns : option bytes) (name : bytes) : list nat :=
  omap (st_get_symbol (d_symbols s))
    (match ns with Some ns => [AnnoKey name ns] | None => ad_get_qnames s name end).

(** l.213-224 (and l.265-277): the item id is at the end, the key symbol at the start *)
Definition parse_qname_key (s : ad) (data : bytes) : option (T * anno_key) :=
  if decide (w ≤ length data) then
    match parse (drop (length data - w) data), parse_symbol (take 8 data) with
    | Ok item, Some k => Some (item, resolve s k)
    | _, _ => None
    end
  else None.

Fixpoint scan (s : ad) (lower upper : bytes) (syms : list nat) : option (list (T * anno_key)) :=
  match syms with
  | [] => Some []
  | k :: syms' =>
      l ← qrange (d_qname s) (Included (qname_key node_min k lower)) (Excluded (qname_key node_max k upper));
      l1 ← mapM (λ e : bytes * bool, parse_qname_key s e.1) l;
      l2 ← scan s lower upper syms'; Some (l1 ++ l2)
  end.

(** l.171-229: matching_items; without a value the range is "" .. char::MAX *)
Definition ad_matching_items (s : ad) (ns : option bytes) (name : bytes) (value : option bytes) :=
  scan s (default [] value) (default char_max value) (search_symbols s ns name).

(** l.231-279: matching_items_by_prefix *)
Definition ad_matching_by_prefix (s : ad) (ns : option bytes) (name : bytes) (prefix : bytes) :=
  scan s prefix (prefix ++ char_max) (search_symbols s ns name).

(** Keep the results whose current value satisfies [f] (l.690-708, l.731-751, l.766-783). *)
Definition filter_value (s : ad) (f : bytes → bool) (l : list (T * anno_key)) : list (T * anno_key) :=
  filter (λ ik : T * anno_key,
            match ad_get_value s ik.1 ik.2 with Some v => f v | None => false end = true) l.

(** l.677-718: exact_anno_search *)
Definition ad_exact_search (s : ad) (ns : option bytes) (name : bytes) (value : value_search)
  : option (list (T * anno_key)) :=
  match value with
  | VAny => ad_matching_items s ns name None
  | VSome v => ad_matching_items s ns name (Some v)
  | VNotSome v =>
      l ← ad_matching_items s ns name None; Some (filter_value s (λ x, negb (bool_decide (x = v))) l)
  end.

(** l.720-787: regex_anno_search. [re]: the compiled expression together with the literal prefix that was
    extracted from it ([None]: compile error). *)
Definition ad_regex_search (s : ad) (ns : option bytes) (name : bytes)
  (re : option ((bytes → bool) * bytes)) (negated : bool) : option (list (T * anno_key)) :=
  match re with
  | Some (re, prefix) =>
      if negated then l ← ad_matching_items s ns name None; Some (filter_value s (λ x, negb (re x)) l)
      else l ← ad_matching_by_prefix s ns name prefix; Some (filter_value s re l)
  | None => if negated then ad_exact_search s ns name VAny else Some []
  end.

(** l.325-340: get_by_anno_qname_range *)
Definition qname_range (s : ad) (ak : anno_key) : option (list (bytes * bool)) :=
  match st_get_symbol (d_symbols s) ak with
  | Some k => qrange (d_qname s) (Included (qname_key node_min k [])) (Excluded (qname_key node_max k char_max))
  | None => Some []
  end.

(** l.299-323: parse_by_anno_qname_key, the value part. UTF-8 validation is not modelled. *)
Definition parse_qname_value (data : bytes) : bytes :=
  drop 8 (take (length data - w - 1) data).

(** l.1016-1034: count values. The hash map is an association list with the keys in order of their first
    occurrence; only the sorted result depends on it. *)
Fixpoint count_values (l : list bytes) (acc : gmap bytes nat) : gmap bytes nat :=
  match l with
  | [] => acc
  | v :: l' => count_values l' (<[v := S (default 0 (acc !! v))]> acc)
  end.

(** l.1015-1050: get_all_values *)
Definition ad_get_all_values (s : ad) (ak : anno_key) (most_frequent_first : bool) : option (list bytes) :=
  l ← qname_range s ak;
  let values := (λ e : bytes * bool, parse_qname_value e.1) <$> l in
  if most_frequent_first then
    Some ((sort_list count_value_compare ((λ x : bytes * nat, (x.2, x.1)) <$> map_to_list (count_values values ∅))).*2)
  else Some (remove_dups values).

(** l.1052-1058 *)
Definition ad_annotation_keys (s : ad) : list anno_key := (d_sizes s).*1.
Definition ad_largest_item (s : ad) : option T := d_largest s.

(** l.1170-1202: get_node_id_from_name and has_node_name (for T = NodeID); [nn] is NODE_NAME_KEY *)
Definition node_name_range (nn : anno_key) (s : ad) (name : bytes) : option (list (bytes * bool)) :=
  match st_get_symbol (d_symbols s) nn with
  | Some k => qrange (d_qname s) (Included (qname_key node_min k name)) (Included (qname_key node_max k name))
  | None => Some []
  end.
Definition ad_node_id_from_name (nn : anno_key) (s : ad) (name : bytes) : option (option T) :=
  l ← node_name_range nn s name;
  match l with
  | e :: _ => ik ← parse_qname_key s e.1; Some (Some ik.1)
  | [] => Some None
  end.
Definition ad_has_node_name (nn : anno_key) (s : ad) (name : bytes) : option bool :=
  l ← node_name_range nn s name; Some (match l with [] => false | _ => true end).

(** The operations of a client, with the results of AnnoMem.v *)
Definition ad_step (s : ad) (o : am_op T) : option (ad * am_out) :=
  match o with
  | AmInsert i k v => let '(s', r) := ad_insert s i k v in Some (s', if r then AmOk else AmErr)
  | AmRemove i k => let '(s', r) := ad_remove_annotation s i k in Some (s', AmVal r)
  | AmRemoveItem i => match ad_remove_item s i with Some (s', r) => Some (s', AmBool r) | None => None end
  | AmClear => Some (ad_clear s, AmOk)
  | AmReload => match ad_reload s with Some s' => Some (s', AmOk) | None => None end
  end.
Fixpoint ad_run (s : ad) (ops : list (am_op T)) : option (ad * list am_out) :=
  match ops with
  | [] => Some (s, [])
  | o :: ops' =>
      match ad_step s o with
      | Some (s1, r) =>
          match ad_run s1 ops' with Some (s2, rs) => Some (s2, r :: rs) | None => None end
      | None => None
      end
  end.
End annodisk.
Arguments ad T : clear implicits.
