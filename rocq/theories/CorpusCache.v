(** Model of the cache of loaded corpora and of the operations of a corpus storage that change it
    (/repo/graphannis/src/annis/db/corpusstorage.rs l.604-709, 925-1065, 1361-1435, 1508-1513, 2536-2541, 2621-2686, 2774-2795).
    Simplifications: a corpus name stands for its directory (see C43); the content of a graph is opaque, an update yields
    the new content or fails; a directory has the saved content and the log of the last update (see Persist.v for the files
    and crashes); other file system errors and poisoned locks are left out. The size of the process and the limit are given
    by the environment: a check gets the limit (get_max_cache_size) and the results of its measurements one after the other.
    Each step happens under one lock of the cache or of an entry; steps of several threads can be interleaved. *)
From stdpp Require Import base list gmap.
From Coq Require Import NArith.

(** LinkedHashMap<String, Arc<RwLock<CacheEntry>>>: entries in the order of insertion; a loaded entry has the number of the
    graph in main memory it refers to *)
Notation cache := (list (N * option nat)).
Definition cache_get (c : cache) (name : N) : option (option nat) := (λ p, p.2.2) <$> list_find (λ p, p.1 = name) c.
Definition cache_remove (c : cache) (name : N) : cache := filter (λ p, p.1 ≠ name) c.
(** insert moves an existing entry to the end *)
Definition cache_insert (c : cache) (name : N) (e : option nat) : cache := cache_remove c name ++ [(name, e)].
(** What the environment answers during a check: limit and measured sizes *)
Record env := Env { e_limit : N; e_size : nat → N }.
(** l.2655-2678: the loop; [k] is the number of the current measurement *)
Fixpoint check_loop (e : env) (keep : list N) (names : list N) (k : nat) (c : cache) : cache * nat :=
  match names with
  | [] => (c, k)
  | name :: r =>
      let corpus_is_loaded := match cache_get c name with Some (Some _) => true | _ => false end in
      if (e_limit e <? e_size e k)%N then
        if corpus_is_loaded && negb (bool_decide (name ∈ keep)) then check_loop e keep r (S k) (cache_remove c name)
        else check_loop e keep r k c
      else (c, k)
  end.
(** l.2641-2686: with the answer whether something was removed *)
Definition check_cache_size_and_remove_with_cache (e : env) (keep : list N) (c : cache) : cache * bool :=
  let '(c', k) := check_loop e keep (c.*1) 0 c in (c', negb (bool_decide (k = 0))).

Section Storage.
Context {G U : Type} (app : G → U → option G) (empty : G).
Record dir := Dir { d_saved : option G; d_log : option U }.
(** Graph::open, see Persist.v do_open *)
Definition open_dir (d : dir) : option G :=
  g ← d_saved d; match d_log d with Some u => app g u | None => Some g end.
(** A thread that has called get_loaded_entry: before or after taking the lock for loading *)
Inductive tstate := Looking (name : N) (create : bool) | Holding (name : N) (id : nat).
Record state := State {
  s_cache : cache; s_disk : gmap N dir; s_heap : gmap nat G; s_clock : nat; s_workers : list (N * nat); s_threads : gmap N tstate }.
Definition initial (disk : gmap N dir) : state := State [] disk ∅ 0 [] ∅.
Inductive op :=
| OGet (t : N) (name : N) (create : bool)  (* first part of get_loaded_entry *)
| OLoad (t : N) (e1 e2 : env)              (* second part *)
| OApply (t : N) (u : U)                   (* apply_update with the entry *)
| OSync (w : nat)                          (* a background worker runs *)
| OUnload (name : N)
| ODelete (name : N)
| OCreate (name : N) (e1 e2 : env)         (* create_empty_corpus *)
| OImport (name : N) (g : G) (overwrite : bool) (e1 e2 : env)
| OCheck (keep : list N) (e : env).        (* check_cache_size_and_remove, e.g. at the end of prepare_query and preload *)
(** RAnswer: Ok with a boolean (or unit, as true), RError: Err *)
Inductive answer := RNone | RAnswer (b : bool) | RError.
(** l.604-625 and 691-700 *)
Definition get_entry (s : state) (t name : N) (create : bool) : state :=
  match cache_get (s_cache s) name with
  | Some (Some id) => State (s_cache s) (s_disk s) (s_heap s) (s_clock s) (s_workers s) (<[t := Holding name id]> (s_threads s))
  | Some None => State (s_cache s) (s_disk s) (s_heap s) (s_clock s) (s_workers s) (<[t := Looking name create]> (s_threads s))
  | None => State (s_cache s ++ [(name, None)]) (s_disk s) (s_heap s) (s_clock s) (s_workers s) (<[t := Looking name create]> (s_threads s))
  end.
(** l.627-683: the new entry, or None for an error *)
Definition load_entry_with_lock (s : state) (name : N) (create : bool) (e1 e2 : env) : state * option nat :=
  match s_disk s !! name with
  | None =>
      if create then
        let c := (check_cache_size_and_remove_with_cache e1 [name] (s_cache s)).1 in
        let c' := (check_cache_size_and_remove_with_cache e2 [name] (cache_insert c name (Some (s_clock s)))).1 in
        (State c' (<[name := Dir (Some empty) None]> (s_disk s)) (<[s_clock s := empty]> (s_heap s)) (S (s_clock s)) (s_workers s) (s_threads s), Some (s_clock s))
      else (s, None)
  | Some d =>
      let c := (check_cache_size_and_remove_with_cache e1 [name] (s_cache s)).1 in
      match open_dir d with
      | None => (State c (s_disk s) (s_heap s) (s_clock s) (s_workers s) (s_threads s), None)
      | Some g =>
          let c' := (check_cache_size_and_remove_with_cache e2 [name] (cache_insert c name (Some (s_clock s)))).1 in
          (State c' (s_disk s) (<[s_clock s := g]> (s_heap s)) (S (s_clock s)) (s_workers s) (s_threads s), Some (s_clock s))
      end
  end.
Definition set_thread (s : state) (t : N) (x : option tstate) : state :=
  State (s_cache s) (s_disk s) (s_heap s) (s_clock s) (s_workers s)
        (match x with Some x => <[t := x]> (s_threads s) | None => delete t (s_threads s) end).
(** l.1413-1435 after get_loaded_entry, and Graph::apply_update (core/src/graph/mod.rs l.651-730): if an update fails, the
    graph is opened again; [persist_updates] creates the directory if it is missing *)
Definition apply_update (s : state) (name : N) (id : nat) (u : U) : state * answer :=
  match s_heap s !! id with
  | None => (s, RError)
  | Some g =>
      match app g u with
      | Some g' =>
          let d := default (Dir None None) (s_disk s !! name) in
          (State (s_cache s) (<[name := Dir (d_saved d) (Some u)]> (s_disk s)) (<[id := g']> (s_heap s)) (s_clock s)
                 (s_workers s ++ [(name, id)]) (s_threads s), RAnswer true)
      | None =>
          let h := match (s_disk s !! name) ≫= open_dir with Some g' => <[id := g']> (s_heap s) | None => s_heap s end in
          (State (s_cache s) (s_disk s) h (s_clock s) (s_workers s) (s_threads s), RError)
      end
  end.
(** l.2774-2795 and core/src/graph/mod.rs l.733-775: the rename fails if there is no directory *)
Definition sync (s : state) (w : nat) : state :=
  match s_workers s !! w with
  | None => s
  | Some (name, id) =>
      let disk := match s_disk s !! name, s_heap s !! id with
                  | Some _, Some g => <[name := Dir (Some g) None]> (s_disk s)
                  | _, _ => s_disk s
                  end in
      State (s_cache s) disk (s_heap s) (s_clock s) (delete w (s_workers s)) (s_threads s)
  end.
(** l.983-1064, without the progress callbacks (which are checks with an empty keep list) *)
Definition import (s : state) (name : N) (g : G) (overwrite : bool) (e1 e2 : env) : state * answer :=
  let c := (check_cache_size_and_remove_with_cache e1 [] (s_cache s)).1 in
  if negb overwrite && (bool_decide (is_Some (cache_get c name)) || bool_decide (is_Some (s_disk s !! name))) then
    (State c (s_disk s) (s_heap s) (s_clock s) (s_workers s) (s_threads s), RError)
  else
    let c' := (check_cache_size_and_remove_with_cache e2 [name] (cache_insert c name None)).1 in
    (State c' (<[name := Dir (Some g) None]> (s_disk s)) (s_heap s) (s_clock s) (s_workers s) (s_threads s), RAnswer true).
Definition step (s : state) (o : op) : state * answer :=
  match o with
  | OGet t name create => (get_entry s t name create, RNone)
  | OLoad t e1 e2 =>
      match s_threads s !! t with
      | Some (Looking name create) =>
          match load_entry_with_lock s name create e1 e2 with
          | (s', Some id) => (set_thread s' t (Some (Holding name id)), RAnswer true)
          | (s', None) => (set_thread s' t None, RError)
          end
      | _ => (s, RNone)
      end
  | OApply t u => match s_threads s !! t with Some (Holding name id) => apply_update s name id u | _ => (s, RNone) end
  | OSync w => (sync s w, RNone)
  | OUnload name => (State (cache_remove (s_cache s) name) (s_disk s) (s_heap s) (s_clock s) (s_workers s) (s_threads s), RAnswer true)
  | ODelete name =>  (* l.1361-1389 *)
      (State (cache_remove (s_cache s) name) (delete name (s_disk s)) (s_heap s) (s_clock s) (s_workers s) (s_threads s),
       RAnswer (bool_decide (is_Some (s_disk s !! name)) || bool_decide (is_Some (cache_get (s_cache s) name))))
  | OCreate name e1 e2 =>  (* l.1396-1409 *)
      if bool_decide (is_Some (cache_get (s_cache s) name)) || bool_decide (is_Some (s_disk s !! name)) then (s, RAnswer false)
      else match load_entry_with_lock s name true e1 e2 with (s', Some _) => (s', RAnswer true) | (s', None) => (s', RError) end
  | OImport name g overwrite e1 e2 => import s name g overwrite e1 e2
  | OCheck keep e =>
      let '(c, b) := check_cache_size_and_remove_with_cache e keep (s_cache s) in
      (State c (s_disk s) (s_heap s) (s_clock s) (s_workers s) (s_threads s), RAnswer b)
  end.
Fixpoint run (s : state) (l : list op) : state * list answer :=
  match l with
  | [] => (s, [])
  | o :: r => let '(s1, a) := step s o in let '(s2, l) := run s1 r in (s2, a :: l)
  end.
End Storage.
Arguments dir : clear implicits. Arguments state : clear implicits. Arguments op : clear implicits.
