(** Model of the files of a graph component kept in main memory, including files of older versions
    (/repo/core/src/graph/storage/mod.rs l.204-262, legacy.rs, and load_from and save_to of adjacencylist.rs, dense_adjacency.rs, linear.rs and prepost.rs).
    Simplifications: a file holds the value that was written to it (bincode and TOML are left out; a file with another value is an error when it is read);
    writing does not fail. *)
From Coq Require Import NArith String.
From stdpp Require Import base list gmap.
From Verif Require Import KeySer Types CompPath AnnoMem Adjacency Dense Linear PrePost.

(** legacy.rs l.22-50: statistics of older versions, without the number of roots *)
Record stats_v1 := StatsV1 {
  v_cyclic : bool;
  v_rooted_tree : bool;
  v_nodes : nat;
  v_max_fan_out : nat;
  v_fan_out_99 : nat;
  v_inv_fan_out_99 : nat;
  v_max_depth : nat;
  v_visits : nat;
  v_sum_fan_out : nat }.
(** legacy.rs l.51-68 *)
Definition from_v1 (v : stats_v1) : stats :=
  Stats (v_cyclic v) (v_rooted_tree v) (v_nodes v) (if decide (0 < v_nodes v) then 1 else 0) (v_max_fan_out v) (v_fan_out_99 v) (v_inv_fan_out_99 v)
        (v_max_depth v) (v_visits v) (v_sum_fan_out v).

Section Files.
(** The types of the two fields of a graph storage that hold its edges *)
Context {A B : Type}.
(** What a file holds; [FOld] is a whole graph storage of an older version, [FOther] anything else *)
Inductive content :=
| FFirst (a : A) | FSecond (b : B) | FAnnos (x : am edge) | FStats (s : stats) | FOldStats (v : option stats_v1)
| FOld (a : A) (b : B) (x : am edge) (v : option stats_v1) | FOther.
(** The files of the directory of the component by their names *)
Notation dir := (gmap bytes content).
Record storage := Storage { st_first : A; st_second : B; st_annos : am edge; st_stats : option stats }.
(** mod.rs l.205-214 *)
Definition field_file (name : string) : bytes := str name ++ str ".bin".
(** mod.rs l.216-227 *)
Definition read_first (d : dir) (name : string) : option A := match d !! field_file name with Some (FFirst a) => Some a | _ => None end.
Definition read_second (d : dir) (name : string) : option B := match d !! field_file name with Some (FSecond b) => Some b | _ => None end.
Definition read_annos (d : dir) : option (am edge) := match d !! field_file "annos" with Some (FAnnos x) => Some x | _ => None end.
(** mod.rs l.229-247; the outer None is an error *)
Definition load_statistics (d : dir) : option (option stats) :=
  match d !! str "stats.toml" with
  | Some (FStats s) => Some (Some s)
  | Some _ => None
  | None => match d !! str "edge_stats.bin" with
            | Some (FOldStats v) => Some (from_v1 <$> v)
            | Some _ => None
            | None => Some None
            end
  end.
(** mod.rs l.249-261 *)
Definition save_statistics (d : dir) (s : option stats) : dir :=
  let d := delete (str "stats.toml") d in match s with Some s => <[str "stats.toml" := FStats s]> d | None => d end.
(** adjacencylist.rs l.126-151, dense_adjacency.rs l.221-247, linear.rs l.167-193, prepost.rs l.200-227; the names of the fields are arguments *)
Definition load_from (first second : string) (d : dir) : option storage :=
  match d !! str "component.bin" with
  | Some (FOld a b x v) => Some (Storage a b x (from_v1 <$> v))
  | Some _ => None
  | None => s ← load_statistics d; a ← read_first d first; b ← read_second d second; x ← read_annos d; Some (Storage a b x s)
  end.
(** adjacencylist.rs l.153-159, dense_adjacency.rs l.249-255, linear.rs l.195-201, prepost.rs l.229-235 *)
Definition save_to (first second : string) (d : dir) (s : storage) : dir :=
  save_statistics (<[field_file "annos" := FAnnos (st_annos s)]> (<[field_file second := FSecond (st_second s)]> (<[field_file first := FFirst (st_first s)]> d))) (st_stats s).
End Files.
Arguments content : clear implicits. Arguments storage : clear implicits.
Notation dir A B := (gmap bytes (content A B)).

(** The four graph storages *)
Definition load_adj (d : dir (gmap N (list N)) (gmap N (list N))) : option adj :=
  (λ s, Adj (st_first s) (st_second s) (st_annos s) (st_stats s)) <$> load_from "edges" "inverse_edges" d.
Definition save_adj (d : dir (gmap N (list N)) (gmap N (list N))) (g : adj) := save_to "edges" "inverse_edges" d (Storage (g_edges g) (g_inverse g) (g_annos g) (g_stats g)).
Definition load_dense (d : dir (list (option N)) (gmap N (list N))) : option da :=
  (λ s, DA (st_first s) (st_second s) (st_annos s) (st_stats s)) <$> load_from "edges" "inverse_edges" d.
Definition save_dense (d : dir (list (option N)) (gmap N (list N))) (g : da) := save_to "edges" "inverse_edges" d (Storage (da_edges g) (da_inverse g) (da_annos g) (da_stats g)).
Definition load_linear (d : dir (gmap N (N * N)) (gmap N (list N))) : option lin :=
  (λ s, Lin (st_first s) (st_second s) (st_annos s) (st_stats s)) <$> load_from "node_to_pos" "node_chains" d.
Definition save_linear (d : dir (gmap N (N * N)) (gmap N (list N))) (g : lin) := save_to "node_to_pos" "node_chains" d (Storage (l_pos g) (l_chains g) (l_annos g) (l_stats g)).
Definition load_prepost (d : dir (gmap N (list ppo)) (list ordentry)) : option pp :=
  (λ s, PP (st_first s) (st_second s) (st_annos s) (st_stats s)) <$> load_from "node_to_order" "order_to_node" d.
Definition save_prepost (d : dir (gmap N (list ppo)) (list ordentry)) (g : pp) := save_to "node_to_order" "order_to_node" d (Storage (p_orders g) (p_vec g) (p_annos g) (p_stats g)).
