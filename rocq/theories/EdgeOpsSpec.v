(** When the operators on edges hold for two nodes. *)
From stdpp Require Import base list gmap.
From Coq Require Import NArith.
From Verif Require Import KeySer SortedMap Types SymbolTable AnnoMem AnnoSpec GraphSpec Adjacency AdjacencySpec Storage StorageSpec
  GraphApply TokenOps EdgeOps KeySerSpec.

(** A component: its edges and their labels *)
Record component := Component { co_edges : gset edge; co_labels : gmap (edge * anno_key) bytes }.
(** A graph storage holds a component: its annotation storage was filled by some updates *)
Definition holds_component (gs : storage) (C : component) : Prop :=
  implements gs (co_edges C) ∧ ∃ ops outs, am_run edge_compare am_new ops = (gs_annos gs, outs) ∧ co_labels C = as_run ∅ ops outs.
(** The loaded and unloaded components [cs] of a graph are the ones in [W] *)
Record holds_graph (cs : components) (W : cname → option component) : Prop := {
  hg_sorted : al_sorted cname_compare cs;
  hg_names : ∀ c, c ∈ cs.*1 ↔ is_Some (W c);
  hg_content : ∀ c gs C, (c, Some gs) ∈ cs → W c = Some C → holds_component gs C
}.

(** The edge from [a] to [b] has a label which fits; without a description, nothing is required *)
Definition label_ok (rx : bytes → option (bytes → bool)) (L : gmap (edge * anno_key) bytes) (el : option edge_label) (a b : N) : Prop :=
  match el with
  | None => True
  | Some (LExact ns name val) => ∃ k v, key_matches ns name k ∧ L !! (Edge a b, k) = Some v ∧ (val = None ∨ val = Some v)
  | Some (LNotExact ns name val) => ∃ k v, key_matches ns name k ∧ L !! (Edge a b, k) = Some v ∧ v ≠ val
  | Some (LRegex ns name pat) => ∃ re k v, rx pat = Some re ∧ key_matches ns name k ∧ L !! (Edge a b, k) = Some v ∧ re v = true
  | Some (LNotRegex ns name pat) => ∃ re k v, rx pat = Some re ∧ key_matches ns name k ∧ L !! (Edge a b, k) = Some v ∧ re v = false
  end.
(** Number of steps *)
Definition allowed (dist : range_spec) (n : nat) : Prop :=
  match dist with RBound min max => (min <= N.of_nat n <= max)%N | RUnbound => (1 <= N.of_nat n)%N end.
Definition q_dist (q : edge_query) : range_spec := match q with QDominance _ d _ | QPointing _ d _ | QPartOf d => d end.
Definition q_label (q : edge_query) : option edge_label := match q with QDominance _ _ el | QPointing _ _ el => el | QPartOf _ => None end.
(** Dominance and pointing relations of this name in any layer; there is one part-of relation *)
Definition q_component (q : edge_query) (c : cname) : Prop :=
  match q with
  | QDominance name _ _ => cn_type c = 2%N ∧ cn_name c = name
  | QPointing name _ _ => cn_type c = 3%N ∧ cn_name c = name
  | QPartOf _ => c = CName 7 [] annis
  end.
(** There is a path with an allowed length in one of the components, and an edge with the label in the same component *)
Definition linked (rx : bytes → option (bytes → bool)) (W : cname → option component) (q : edge_query) (a b : N) : Prop :=
  ∃ c C, q_component q c ∧ W c = Some C ∧ (∃ p, simple_path (edge_rel (co_edges C)) a p b ∧ allowed (q_dist q) (length p)) ∧
         label_ok rx (co_labels C) (q_label q) a b.
(** Distances can be added to positions without overflow, are not reversed, and 0 is only used for nodes of the component *)
Definition q_usable (W : cname → option component) (q : edge_query) (a b : N) : Prop :=
  ∀ c C, q_component q c → W c = Some C → in_limit (co_edges C) (max_dist (q_dist q)) ∧
    range_ok (min_dist (q_dist q)) (max_dist (q_dist q)) ∧
    ((1 <= min_dist (q_dist q))%N ∨ (a ∈ all_nodes (co_edges C) ∧ b ∈ all_nodes (co_edges C))).
(** Everything is loaded that an operator needs *)
Definition loaded (cs : components) (sel : cname → Prop) : Prop := ∀ c o, (c, o) ∈ cs → sel c → is_Some o.
(** [n] has the children [S] in all dominance and pointing relations *)
Definition children (W : cname → option component) (n : N) (S : gset N) : Prop :=
  ∀ x, x ∈ S ↔ ∃ c C, (cn_type c = 2%N ∨ cn_type c = 3%N) ∧ W c = Some C ∧ edge_rel (co_edges C) n x.
