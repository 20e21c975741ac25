(** Model of storing a graph on disk and of the write-ahead log (/repo/core/src/graph/mod.rs l.205-380, 649-775,
    899-979). Every operation yields the list of its steps on the file system; a crash is the execution of a prefix of them
    and the loss of the main memory.
    Simplifications: reading a complete file gives what was written (see C08-C11, C13 for the annotation storage and the
    graph storages, C21 for the log); graph storages are the in-memory adjacency lists; the node annotations are the
    in-memory ones; different components have different directories (see C26); global statistics and error cases of the file
    system are left out; a rename is atomic. *)
From stdpp Require Import base list gmap fin_maps.
From Coq Require Import NArith.
From Verif Require Import KeySer Types AnnoMem Adjacency GraphUpdate GraphApply.

(** A file (or the directory of a component) being written. The flag of [Torn] tells whether impl.cfg is there, i.e.
    whether a component is listed by find_components_from_disk (l.116-173). *)
Inductive file (X : Type) := Torn (listed : bool) | Good (x : X).
Arguments Torn {X} listed.
Arguments Good {X} x.
(** A corpus directory ("current" or "backup") *)
Record cdir := CDir {
  d_nodes : option (file (am N)); d_gs : gmap comp (file adj); d_log : option (list (N * event)); d_nested : bool }.
Definition cdir_empty : cdir := CDir None ∅ None false.
(** The location of a graph *)
Record fs := FS { f_backup : option cdir; f_current : option cdir }.
(** The graph in memory; a component that is not loaded yet has no graph storage. *)
Record mem := Mem { m_annos : am N; m_comps : gmap comp (option adj); m_change : N }.

(** Atomic steps *)
Inductive act :=
| ACreate                      (* create_dir_all(current) *)
| ANodes (f : file (am N))     (* create or complete the file of the node annotations *)
| AComp (c : comp)             (* start writing the directory of a component *)
| ACfg (c : comp)              (* create its impl.cfg *)
| ACompDone (c : comp) (g : adj)
| ALog (l : list (N * event))  (* persist: rename of the complete temporary file *)
| AMove                        (* rename current to backup *)
| ADrop                        (* rename backup to a temporary directory *)
| ANested.                     (* some file below current/current *)
Definition upd_current (f : cdir → cdir) (s : fs) : fs := FS (f_backup s) (f <$> f_current s).
Definition run_act (s : fs) (a : act) : fs :=
  match a with
  | ACreate => FS (f_backup s) (Some (default cdir_empty (f_current s)))
  | ANodes x => upd_current (λ d, CDir (Some x) (d_gs d) (d_log d) (d_nested d)) s
  | AComp c => upd_current (λ d, CDir (d_nodes d)
                 (<[c := match d_gs d !! c with Some (Good _) | Some (Torn true) => Torn true | _ => Torn false end]> (d_gs d))
                 (d_log d) (d_nested d)) s
  | ACfg c => upd_current (λ d, CDir (d_nodes d) (<[c := Torn true]> (d_gs d)) (d_log d) (d_nested d)) s
  | ACompDone c g => upd_current (λ d, CDir (d_nodes d) (<[c := Good g]> (d_gs d)) (d_log d) (d_nested d)) s
  | ALog l => upd_current (λ d, CDir (d_nodes d) (d_gs d) (Some l) (d_nested d)) s
  | AMove => FS (f_current s) None
  | ADrop => FS None (f_current s)
  | ANested => let d := default cdir_empty (f_current s) in FS (f_backup s) (Some (CDir (d_nodes d) (d_gs d) (d_log d) true))
  end.
Definition run_acts (s : fs) (l : list act) : fs := fold_left run_act l s.

(** l.899-979: load what is missing, from the backup if there is one (component_path l.94-113) *)
Definition active (s : fs) : option cdir := match f_backup s with Some d => Some d | None => f_current s end.
Definition load_comp (d : cdir) (c : comp) (o : option adj) : option adj :=
  match o with
  | Some g => Some g
  | None => match d_gs d !! c with Some (Good g) => Some g | _ => None end
  end.
Definition ensure_loaded_all (s : fs) (m : mem) : option mem :=
  d ← active s;
  if decide (map_Forall (λ c o, load_comp d c o ≠ None) (m_comps m)) then
    Some (Mem (m_annos m) (map_imap (λ c o, Some (load_comp d c o)) (m_comps m)) (m_change m))
  else None.

(** The graph as seen by apply_update_in_memory (all components are loaded) *)
Definition to_gstate (m : mem) : gstate := GState (m_annos m) (omap id (m_comps m)) (m_change m).
Definition of_gstate (g : gstate) : mem := Mem (g_node_annos g) (Some <$> g_comps g) (g_change g).

(** l.352-380: internal_save writes the loaded components *)
Definition comp_acts (x : comp * option adj) : list act :=
  match x.2 with Some g => [AComp x.1; ACfg x.1; ACompDone x.1 g] | None => [] end.
Definition save_acts (m : mem) : list act :=
  [ACreate; ANodes (Torn false); ANodes (Good (m_annos m))] ++ (map_to_list (m_comps m) ≫= comp_acts).

(** l.651-664 and 687-730: apply_update; the graph has a location *)
Definition do_update (ct : bytes → option N) (s : fs) (m : mem) (l : list (N * event)) : option (mem * list act) :=
  m1 ← ensure_loaded_all s m;
  g ← apply_update ct (to_gstate m1) l;
  Some (of_gstate g, [ACreate; ALog l]).

(** l.733-775: background_sync_wal_updates *)
Definition do_sync (s : fs) (m : mem) : list act :=
  match f_backup s with Some _ => [] | None => [AMove] end ++ save_acts m ++ [ADrop].

(** l.256-329: internal_open. The components are those with an impl.cfg. *)
Definition listed (f : file adj) : option (option adj) :=
  match f with Good _ | Torn true => Some None | Torn false => None end.
Definition do_open (ct : bytes → option N) (s : fs) : option (mem * list act) :=
  d ← active s;
  match d_nodes d with
  | Some (Good a) =>
      let m0 := Mem a (omap listed (d_gs d)) 0 in
      m1 ← (if bool_decide (is_Some (d_log d) ∨ is_Some (f_backup s)) then ensure_loaded_all s m0 else Some m0);
      m2 ← match d_log d with
           | Some l => g ← apply_update ct (to_gstate m1) l; Some (of_gstate g)
           | None => Some m1
           end;
      (* l.314-326: save_to(location/current) writes to location/current/current *)
      Some (m2, match f_backup s with
                | Some _ => replicate (length (save_acts m2)) ANested ++ [ADrop]
                | None => []
                end)
  | _ => None
  end.

(** l.339-342: persist_to a new location *)
Definition do_persist (m : mem) : list act := save_acts m.
