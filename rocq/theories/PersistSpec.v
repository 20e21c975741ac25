(** Specification: what a process and its crashes can do with a graph, and which content counts as acknowledged. *)
From stdpp Require Import base list gmap fin_maps.
From Coq Require Import NArith.
From Verif Require Import KeySer Types AnnoMem Adjacency GraphUpdate GraphApply Persist.

(** Node annotations and the edges of every component *)
Definition content : Type := am N * gmap comp adj.
Definition content_of (g : gstate) : content := (g_node_annos g, g_comps g).
(** The content of a graph in memory, with the components that are not loaded read from disk when they are needed *)
Definition mem_content (s : fs) (m : mem) : option content :=
  m1 ← ensure_loaded_all s m; Some (content_of (to_gstate m1)).
(** What a process sees that opens the location *)
Definition opened_content (ct : bytes → option N) (s : fs) : option content :=
  '(m, acts) ← do_open ct s; mem_content (run_acts s acts) m.

(** The effect of an update on a content *)
Definition updates_to (ct : bytes → option N) (c : content) (l : list (N * event)) (c' : content) : Prop :=
  ∃ g k, apply_update ct (GState c.1 c.2 k) l = Some g ∧ c' = content_of g.

(** Histories in which every acknowledged update, and every recovery, is followed by a complete background
    synchronisation before the next update, and no crash happens between a recovery and that synchronisation.
    [hist ph s m c]: the location is [s], the process (if any) has [m] in memory, and [c] is the content after the
    acknowledged updates. *)
Inductive phase := Saved | Logged | Recovered.
Inductive hist (ct : bytes → option N) : phase → fs → option mem → content → Prop :=
(* a graph without location is saved to a new location and remembers it *)
| h_persist g : hist ct Saved (run_acts (FS None None) (do_persist (of_gstate g))) (Some (of_gstate g)) (content_of g)
(* a crash while nothing is written *)
| h_crash ph s m c : ph ≠ Recovered → hist ct ph s m c → hist ct ph s None c
(* opening *)
| h_open_saved s c m acts : hist ct Saved s None c → do_open ct s = Some (m, acts) →
    hist ct Saved (run_acts s acts) (Some m) c
| h_open_logged s c m acts : hist ct Logged s None c → do_open ct s = Some (m, acts) →
    hist ct Recovered (run_acts s acts) (Some m) c
| h_open_crash s c m acts k : hist ct Logged s None c → do_open ct s = Some (m, acts) → k < length acts →
    hist ct Logged (run_acts s (take k acts)) None c
(* loading components on demand *)
| h_load s m c m' : hist ct Saved s (Some m) c → ensure_loaded_all s m = Some m' → hist ct Saved s (Some m') c
(* an update that returns, and one that crashes before it wrote the log *)
| h_update s m c l m' acts c' : hist ct Saved s (Some m) c → do_update ct s m l = Some (m', acts) → updates_to ct c l c' →
    hist ct Logged (run_acts s acts) (Some m') c'
| h_update_crash s m c l m' acts k : hist ct Saved s (Some m) c → do_update ct s m l = Some (m', acts) → k < length acts →
    hist ct Saved (run_acts s (take k acts)) None c
(* the background synchronisation, complete or with a crash at any step *)
| h_sync ph s m c : ph ≠ Saved → hist ct ph s (Some m) c → hist ct Saved (run_acts s (do_sync s m)) (Some m) c
| h_sync_crash s m c k : hist ct Logged s (Some m) c → k < length (do_sync s m) →
    hist ct Logged (run_acts s (take k (do_sync s m))) None c.
