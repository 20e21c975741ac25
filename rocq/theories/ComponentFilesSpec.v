(** Directories of components. *)
From Coq Require Import NArith String.
From stdpp Require Import base list gmap.
From Verif Require Import KeySer Types CompPath AnnoMem Adjacency ComponentFiles.

(** Nothing in the directory is left from an older version that would be read instead of new files:
    no component in one file, and no old statistics unless there are new ones *)
Definition no_old_files {A B} (d : dir A B) (new_stats : option stats) : Prop := d !! str "component.bin" = None ∧ (new_stats = None → d !! str "edge_stats.bin" = None).
(** The statistics that an older version has written for a component *)
Definition as_old (s : stats) : stats_v1 :=
  StatsV1 (s_cyclic s) (s_rooted_tree s) (s_nodes s) (s_max_fan_out s) (s_fan_out_99 s) (s_inv_fan_out_99 s) (s_max_depth s) (s_visits s) (s_sum_fan_out s).
(** All numbers but the number of roots are the same *)
Definition same_but_roots (s t : stats) : Prop :=
  s_cyclic s = s_cyclic t ∧ s_rooted_tree s = s_rooted_tree t ∧ s_nodes s = s_nodes t ∧ s_max_fan_out s = s_max_fan_out t ∧ s_fan_out_99 s = s_fan_out_99 t ∧
  s_inv_fan_out_99 s = s_inv_fan_out_99 t ∧ s_max_depth s = s_max_depth t ∧ s_visits s = s_visits t ∧ s_sum_fan_out s = s_sum_fan_out t.
Definition same_stats (x y : option stats) : Prop := match x, y with Some s, Some t => same_but_roots s t | None, None => True | _, _ => False end.
