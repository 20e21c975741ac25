(** Model of the in-memory annotation storage (/repo/core/src/annostorage/inmemory.rs).

    Simplifications: hash maps and B-tree sets are finite maps and sets, so the order of results that
    stem from iterating them is arbitrary; [binary_search_by_key] on the vector of an item, which is
    sorted by key symbol, is modelled by its contract (find the entry / insert at the sorted
    position); usize counters are unbounded [nat]; the histogram is left out here (see Histogram.v). *)
From stdpp Require Import base list gmap fin_maps.
From Coq Require Import NArith.
From Verif Require Import KeySer KeySerSpec SortedMap Types SymbolTable.

Section annomem.
Context {T : Type} `{Countable T} (tcmp : T → T → comparison).

(** inmemory.rs l.25-41 (struct AnnoStorageImpl, SparseAnnotation = (key symbol, value symbol)) *)
Record am := AM {
  by_container : gmap T (list (nat * nat));
  by_anno : gmap nat (gmap nat (gset T));
  anno_key_sizes : list (anno_key * nat);
  anno_keys : symtab anno_key;
  anno_values : symtab bytes;
  largest_item : option T;
  total_number_of_annos : nat
}.

(** l.46-57 *)
Definition am_new : am := AM ∅ ∅ [] st_new st_new None 0.

(** l.59-67: clear_internal. [total_number_of_annos] is not touched. *)
Definition am_clear (s : am) : am :=
  AM ∅ ∅ [] (st_clear (anno_keys s)) (st_clear (anno_values s)) None (total_number_of_annos s).

(** l.86-108: remove_element_from_by_anno *)
Definition remove_from_by_anno (ba : gmap nat (gmap nat (gset T))) (a : nat * nat) (item : T)
  : gmap nat (gmap nat (gset T)) :=
  match ba !! a.1 with
  | Some annos_for_key =>
      match annos_for_key !! a.2 with
      | Some items =>
          let items' := items ∖ {[item]} in
          if decide (items' = ∅) then
            let annos' := delete a.2 annos_for_key in
            if decide (annos' = ∅) then delete a.1 ba else <[a.1 := annos']> ba
          else <[a.1 := <[a.2 := items']> annos_for_key]> ba
      | None => ba
      end
  | None => ba
  end.

(** l.110-121: check_and_remove_value_symbol *)
Definition value_used (ba : gmap nat (gmap nat (gset T))) (v : nat) : bool :=
  existsb (λ kv : nat * gmap nat (gset T), bool_decide (is_Some (kv.2 !! v))) (map_to_list ba).
Definition check_and_remove_value_symbol (ba : gmap nat (gmap nat (gset T)))
  (vals : symtab bytes) (v : nat) : symtab bytes :=
  if value_used ba v then vals else (st_remove vals v).1.

(** l.234-240: insert the relation between annotation and item *)
Definition add_to_by_anno (ba : gmap nat (gmap nat (gset T))) (k v : nat) (item : T) :=
  let annos_for_key := default ∅ (ba !! k) in
  <[k := <[v := {[item]} ∪ default ∅ (annos_for_key !! v)]> annos_for_key]> ba.

(** l.246-252 *)
Definition grow_largest (l : option T) (item : T) : option T :=
  match l with
  | Some x => match tcmp x item with Lt => Some item | _ => Some x end
  | None => Some item
  end.

(** l.198-258: insert. The boolean is false for Err(SymbolTableOverflow) (l.69-74). *)
Definition am_insert (s : am) (item : T) (ak : anno_key) (av : bytes) : am * bool :=
  match st_insert (anno_keys s) ak with
  | (keys, None) =>
      (AM (by_container s) (by_anno s) (anno_key_sizes s) keys (anno_values s) (largest_item s)
          (total_number_of_annos s), false)
  | (keys, Some k) =>
      match st_insert (anno_values s) av with
      | (vals, None) =>
          (AM (by_container s) (by_anno s) (anno_key_sizes s) keys vals (largest_item s)
              (total_number_of_annos s), false)
      | (vals, Some v) =>
          let entry := default [] (by_container s !! item) in
          match al_get Nat.compare entry k with
          | Some v0 =>
              if decide (v0 = v) then
                (AM (<[item := entry]> (by_container s)) (by_anno s) (anno_key_sizes s) keys vals
                    (largest_item s) (total_number_of_annos s), true)
              else
                (AM (<[item := al_insert Nat.compare entry k v]> (by_container s))
                    (add_to_by_anno (remove_from_by_anno (by_anno s) (k, v0) item) k v item)
                    (anno_key_sizes s) keys vals (largest_item s) (total_number_of_annos s), true)
          | None =>
              (AM (<[item := al_insert Nat.compare entry k v]> (by_container s))
                  (add_to_by_anno (by_anno s) k v item)
                  (al_insert anno_key_compare (anno_key_sizes s) ak
                     (S (default 0 (al_get anno_key_compare (anno_key_sizes s) ak))))
                  keys vals (grow_largest (largest_item s) item)
                  (S (total_number_of_annos s)), true)
          end
      end
  end.

(** l.281-295 and l.325-337: decrease the count for a key, drop the key when it is unused *)
Definition decrease_key (ba : gmap nat (gmap nat (gset T))) (sizes : list (anno_key * nat))
  (keys : symtab anno_key) (ak : anno_key) (k : nat) :=
  let '(sizes1, n) :=
    match al_get anno_key_compare sizes ak with
    | Some n => (al_insert anno_key_compare sizes ak (n - 1), n - 1)
    | None => (sizes, 0)
    end in
  if decide (n = 0) then (delete k ba, al_remove anno_key_compare sizes1 ak, (st_remove keys k).1)
  else (ba, sizes1, keys).

(** l.260-313: remove_annotation_for_item *)
Definition am_remove_annotation (s : am) (item : T) (ak : anno_key) : am * option bytes :=
  match st_get_symbol (anno_keys s) ak, by_container s !! item with
  | Some k, Some all_annos =>
      match al_get Nat.compare all_annos k with
      | Some v =>
          let ba := remove_from_by_anno (by_anno s) (k, v) item in
          let all_annos' := al_remove Nat.compare all_annos k in
          let '(ba', sizes', keys') := decrease_key ba (anno_key_sizes s) (anno_keys s) ak k in
          let result := st_get_value (anno_values s) v in
          let vals' := check_and_remove_value_symbol ba' (anno_values s) v in
          (AM (if decide (all_annos' = []) then delete item (by_container s)
               else <[item := all_annos']> (by_container s))
              ba' sizes' keys' vals' (largest_item s) (total_number_of_annos s - 1), result)
      | None =>
          (AM (if decide (all_annos = []) then delete item (by_container s)
               else <[item := all_annos]> (by_container s))
              (by_anno s) (anno_key_sizes s) (anno_keys s) (anno_values s) (largest_item s)
              (total_number_of_annos s), None)
      end
  | _, _ => (s, None)
  end.

(** l.319-342: body of the loop in remove_item *)
Definition remove_item_step (item : T) (s : am) (a : nat * nat) : am :=
  let ba := remove_from_by_anno (by_anno s) a item in
  let '(ba', sizes', keys') :=
    match st_get_value (anno_keys s) a.1 with
    | Some resolved => decrease_key ba (anno_key_sizes s) (anno_keys s) resolved a.1
    | None => (ba, anno_key_sizes s, anno_keys s)
    end in
  AM (by_container s) ba' sizes' keys' (check_and_remove_value_symbol ba' (anno_values s) a.2)
     (largest_item s) (total_number_of_annos s - 1).

(** l.315-347: remove_item *)
Definition am_remove_item (s : am) (item : T) : am * bool :=
  match by_container s !! item with
  | Some all_annos =>
      let s1 := AM (delete item (by_container s)) (by_anno s) (anno_key_sizes s) (anno_keys s)
                   (anno_values s) (largest_item s) (total_number_of_annos s) in
      (fold_left (remove_item_step item) all_annos s1,
       match all_annos with [] => false | _ => true end)
  | None => (s, false)
  end.

(** l.983-1008: save_annotations_to followed by load_annotations_from; bincode's round trip of the
    serialised fields is taken as identity, the symbol tables rebuild their inverse index. *)
Definition am_reload (s : am) : am :=
  AM (by_container s) (by_anno s) (anno_key_sizes s) (st_reload (anno_keys s))
     (st_reload (anno_values s)) (largest_item s) (total_number_of_annos s).

(** l.354-370: get_qnames *)
Fixpoint take_name (name : bytes) (l : list (anno_key * nat)) : list anno_key :=
  match l with
  | [] => []
  | (k, _) :: l' => if decide (ak_name k = name) then k :: take_name name l' else []
  end.
Definition am_get_qnames (s : am) (name : bytes) : list anno_key :=
  take_name name (al_range anno_key_compare (anno_key_sizes s) (Included (AnnoKey name [])) Unbounded).

(** l.76-84 and l.372-384: get_annotations_for_item *)
Definition am_get_annotations (s : am) (item : T) : list (anno_key * bytes) :=
  match by_container s !! item with
  | Some all_annos =>
      omap (λ a : nat * nat, k ← st_get_value (anno_keys s) a.1; v ← st_get_value (anno_values s) a.2;
                  Some (k, v)) all_annos
  | None => []
  end.

(** l.386-392 *)
Definition am_number_of_annotations (s : am) : nat := total_number_of_annos s.
Definition am_is_empty (s : am) : bool := bool_decide (total_number_of_annos s = 0).

(** l.394-406: get_value_for_item *)
Definition am_get_value (s : am) (item : T) (ak : anno_key) : option bytes :=
  match st_get_symbol (anno_keys s) ak, by_container s !! item with
  | Some k, Some all_annos =>
      match al_get Nat.compare all_annos k with
      | Some v => st_get_value (anno_values s) v
      | None => None
      end
  | _, _ => None
  end.

(** l.408-418: has_value_for_item *)
Definition am_has_value (s : am) (item : T) (ak : anno_key) : bool :=
  match st_get_symbol (anno_keys s) ak, by_container s !! item with
  | Some k, Some all_annos =>
      match al_get Nat.compare all_annos k with Some _ => true | None => false end
  | _, _ => false
  end.

(** l.641-691: get_all_keys_for_item *)
Definition am_get_all_keys (s : am) (item : T) (ns name : option bytes) : list anno_key :=
  match name with
  | Some name =>
      match ns with
      | Some ns =>
          let key := AnnoKey name ns in if am_has_value s item key then [key] else []
      | None => filter (λ k, is_Some (am_get_value s item k)) (am_get_qnames s name)
      end
  | None =>
      match by_container s !! item with
      | Some all_annos => omap (λ a : nat * nat, st_get_value (anno_keys s) a.1) all_annos
      | None => []
      end
  end.

(** l.420-489: get_keys_for_iterator, for an iterator that yields no errors *)
Definition am_get_keys_for_iterator (s : am) (ns name : option bytes) (it : list T)
  : list (T * anno_key) :=
  match name with
  | Some name =>
      match ns with
      | Some ns =>
          let key := AnnoKey name ns in
          match st_get_symbol (anno_keys s) key with
          | Some k =>
              omap (λ item, all_annos ← by_container s !! item;
                            _ ← al_get Nat.compare all_annos k; Some (item, key)) it
          | None => []
          end
      | None =>
          let syms := omap (λ key, k ← st_get_symbol (anno_keys s) key; Some (k, key))
                           (am_get_qnames s name) in
          it ≫= λ item, omap (λ sk : nat * anno_key,
               all_annos ← by_container s !! item;
               _ ← al_get Nat.compare all_annos sk.1; Some (item, sk.2)) syms
      end
  | None => it ≫= λ item, (λ key, (item, key)) <$> am_get_all_keys s item None None
  end.

(** l.491-518: number_of_annotations_by_name *)
Definition sum_sizes (l : list (anno_key * nat)) : nat := foldr (λ x n, x.2 + n) 0 l.
Definition am_number_by_name (s : am) (ns : option bytes) (name : bytes) : nat :=
  sum_sizes
    match ns with
    | Some ns => al_range anno_key_compare (anno_key_sizes s)
                   (Included (AnnoKey name ns)) (Included (AnnoKey name ns))
    | None => al_range anno_key_compare (anno_key_sizes s)
                (Included (AnnoKey name [])) (Excluded (AnnoKey name char_max))
    end.

(** l.526-550 (and l.135-157): keys to search in, and their value maps *)
Definition value_maps (s : am) (ns : option bytes) (name : bytes)
  : list (anno_key * gmap nat (gset T)) :=
  omap (λ key, k ← st_get_symbol (anno_keys s) key; vals ← by_anno s !! k; Some (key, vals))
       (match ns with Some ns => [AnnoKey name ns] | None => am_get_qnames s name end).

(** l.578-586 (and l.178-186): all items for the given value maps *)
Definition all_items (vm : list (anno_key * gmap nat (gset T))) : list (T * anno_key) :=
  vm ≫= λ kv, (λ item, (item, kv.1)) <$>
      ((map_to_list kv.2) ≫= λ vi : nat * gset T, elements vi.2).

(** l.129-190: matching_items without a value (only this form is used) *)
Definition am_matching_items (s : am) (ns : option bytes) (name : bytes) : list (T * anno_key) :=
  all_items (value_maps s ns name).

(** l.520-600: exact_anno_search *)
Definition am_exact_search (s : am) (ns : option bytes) (name : bytes) (value : value_search)
  : list (T * anno_key) :=
  match value with
  | VSome v =>
      match st_get_symbol (anno_values s) v with
      | Some vs =>
          value_maps s ns name ≫= λ kv,
            match kv.2 !! vs with
            | Some items => (λ item, (item, kv.1)) <$> elements items
            | None => []
            end
      | None => []
      end
  | VNotSome v =>
      filter (λ ik : T * anno_key,
                match am_get_value s ik.1 ik.2 with
                | Some v' => negb (bool_decide (v' = v))
                | None => false
                end = true)
             (all_items (value_maps s ns name))
  | VAny => all_items (value_maps s ns name)
  end.

(** l.602-639: regex_anno_search. [re] is the compiled expression ([None]: compile error); the regex
    engine is an arbitrary predicate on values. *)
Definition am_regex_search (s : am) (ns : option bytes) (name : bytes) (re : option (bytes → bool))
  (negated : bool) : list (T * anno_key) :=
  match re with
  | Some re =>
      filter (λ ik : T * anno_key,
                match am_get_value s ik.1 ik.2 with
                | Some v => if negated then negb (re v) else re v
                | None => false
                end = true) (am_matching_items s ns name)
  | None => if negated then am_exact_search s ns name VAny else []
  end.

(** Comparison used by [sorted()] on (count, value) pairs, l.884 *)
Definition count_value_compare (a b : nat * bytes) : comparison :=
  match Nat.compare a.1 b.1 with Eq => lex_compare a.2 b.2 | c => c end.

(** Itertools' [sorted()]: the stable sort of the standard library, here insertion sort *)
Fixpoint insert_sorted {A} (cmp : A → A → comparison) (x : A) (l : list A) : list A :=
  match l with
  | [] => [x]
  | y :: l' => match cmp x y with Gt => y :: insert_sorted cmp x l' | _ => x :: l end
  end.
Definition sort_list {A} (cmp : A → A → comparison) (l : list A) : list A :=
  foldr (insert_sorted cmp) [] l.

(** l.870-900: get_all_values *)
Definition am_get_all_values (s : am) (ak : anno_key) (most_frequent_first : bool) : list bytes :=
  match st_get_symbol (anno_keys s) ak with
  | Some k =>
      match by_anno s !! k with
      | Some vals =>
          if most_frequent_first then
            (reverse (sort_list count_value_compare
               (omap (λ vi : nat * gset T, v ← st_get_value (anno_values s) vi.1;
                           Some (size vi.2, v)) (map_to_list vals)))).*2
          else omap (λ vi : nat * gset T, st_get_value (anno_values s) vi.1) (map_to_list vals)
      | None => []
      end
  | None => []
  end.

(** l.902-908 *)
Definition am_annotation_keys (s : am) : list anno_key := (anno_key_sizes s).*1.
Definition am_largest_item (s : am) : option T := largest_item s.

(** l.1012-1037: get_node_id_from_name / has_node_name, with [nn] for NODE_NAME_KEY. The first item in
    the order of the B-tree set is modelled by some element of the set. *)
Definition node_name_items (nn : anno_key) (s : am) (name : bytes) : option (gset T) :=
  k ← st_get_symbol (anno_keys s) nn; v ← st_get_symbol (anno_values s) name;
  vals ← by_anno s !! k; vals !! v.
Definition am_node_id_from_name (nn : anno_key) (s : am) (name : bytes) : option T :=
  items ← node_name_items nn s name; head (elements items).
Definition am_has_node_name (nn : anno_key) (s : am) (name : bytes) : bool :=
  match node_name_items nn s name with
  | Some items => bool_decide (items ≠ ∅)
  | None => false
  end.

(** The mutating operations of a client and their results *)
Inductive am_op :=
| AmInsert (item : T) (k : anno_key) (v : bytes)
| AmRemove (item : T) (k : anno_key)
| AmRemoveItem (item : T)
| AmClear
| AmReload.
Inductive am_out := AmOk | AmErr | AmVal (v : option bytes) | AmBool (b : bool).

Definition am_step (s : am) (o : am_op) : am * am_out :=
  match o with
  | AmInsert i k v => let '(s', r) := am_insert s i k v in (s', if r then AmOk else AmErr)
  | AmRemove i k => let '(s', r) := am_remove_annotation s i k in (s', AmVal r)
  | AmRemoveItem i => let '(s', r) := am_remove_item s i in (s', AmBool r)
  | AmClear => (am_clear s, AmOk)
  | AmReload => (am_reload s, AmOk)
  end.
Fixpoint am_run (s : am) (ops : list am_op) : am * list am_out :=
  match ops with
  | [] => (s, [])
  | o :: ops' =>
      let '(s1, r) := am_step s o in let '(s2, rs) := am_run s1 ops' in (s2, r :: rs)
  end.
End annomem.
Arguments am T {_ _}.
Arguments am_op T : clear implicits.
