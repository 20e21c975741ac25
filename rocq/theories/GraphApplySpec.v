(** Specification of updates: an abstract graph whose nodes are their names. *)
From stdpp Require Import base list gmap fin_maps.
From Coq Require Import NArith.
From Verif Require Import KeySer KeySerSpec SortedMap Types AnnoMem Adjacency GraphUpdate GraphApply.

(** Labels of the nodes (a node is there if it has its name as label annis::node_name), components, edges of each
    component, and labels of the edges. *)
Record lgraph := LGraph {
  lg_labels : gmap (bytes * anno_key) bytes;
  lg_comps : gset comp;
  lg_edges : gset (comp * (bytes * bytes));
  lg_elabels : gmap (comp * (bytes * bytes) * anno_key) bytes
}.
Definition lg_empty : lgraph := LGraph ∅ ∅ ∅ ∅.
Definition is_node (A : lgraph) (n : bytes) : Prop := is_Some (lg_labels A !! (n, node_name_key)).
Definition touches (n : bytes) (p : bytes * bytes) : Prop := p.1 = n ∨ p.2 = n.
Global Instance touches_dec n p : Decision (touches n p).
Proof. unfold touches. apply _. Defined.
Global Instance is_node_dec A n : Decision (is_node A n).
Proof. unfold is_node. apply _. Defined.

Definition with_edge (ct : bytes → option N) (A : lgraph) (s t l ty cn : bytes) (f : comp → lgraph) : lgraph :=
  match ct ty with
  | Some k => if decide (is_node A s ∧ is_node A t) then f (k, l, cn) else A
  | None => A
  end.
(** One event after the other. An event about an edge between existing nodes creates its component. *)
Definition lg_step (ct : bytes → option N) (A : lgraph) (e : event) : lgraph :=
  let '(LGraph L C E X) := A in
  match e with
  | AddNode n t => if decide (is_node A n) then A
                   else LGraph (<[(n, node_type_key) := t]> (<[(n, node_name_key) := n]> L)) C E X
  | DeleteNode n => LGraph (filter (λ x, x.1.1 ≠ n) L) C (filter (λ x, ¬ touches n x.2) E)
                           (filter (λ x, ¬ touches n x.1.1.2) X)
  | AddNodeLabel n ns a v => if decide (is_node A n) then LGraph (<[(n, AnnoKey a ns) := v]> L) C E X else A
  | DeleteNodeLabel n ns a => LGraph (delete (n, AnnoKey a ns) L) C E X
  | GraphUpdate.AddEdge s t l ty cn =>
      with_edge ct A s t l ty cn (λ c, LGraph L ({[c]} ∪ C) (if decide (s = t) then E else {[(c, (s, t))]} ∪ E) X)
  | DeleteEdge s t l ty cn =>
      with_edge ct A s t l ty cn
        (λ c, LGraph L ({[c]} ∪ C) (E ∖ {[(c, (s, t))]}) (filter (λ x, x.1.1 ≠ (c, (s, t))) X))
  | AddEdgeLabel s t l ty cn ns a v =>
      with_edge ct A s t l ty cn
        (λ c, LGraph L ({[c]} ∪ C) E
                (if decide ((c, (s, t)) ∈ E) then <[(c, (s, t), AnnoKey a ns) := v]> X else X))
  | DeleteEdgeLabel s t l ty cn ns a =>
      with_edge ct A s t l ty cn (λ c, LGraph L ({[c]} ∪ C) E (delete (c, (s, t), AnnoKey a ns) X))
  end.
Definition lg_run (ct : bytes → option N) (A : lgraph) (es : list event) : lgraph := fold_left (lg_step ct) es A.
Definition lg_history (ct : bytes → option N) (A : lgraph) (us : list (list event)) : lgraph :=
  fold_left (lg_run ct) us A.

(** What the API of a graph shows: ids of names, labels of nodes, components, outgoing edges, labels of edges. *)
Definition id_of (st : gstate) (n : bytes) : option N := am_node_id_from_name node_name_key (g_node_annos st) n.
Record observes (st : gstate) (A : lgraph) : Prop := {
  ob_nodes : ∀ n, is_Some (id_of st n) ↔ is_node A n;
  ob_has : ∀ n, am_has_node_name node_name_key (g_node_annos st) n = true ↔ is_node A n;
  ob_labels : ∀ n i k, id_of st n = Some i → am_get_value (g_node_annos st) i k = lg_labels A !! (n, k);
  ob_comps : dom (g_comps st) = lg_comps A;
  ob_edges : ∀ c a b, (c, (a, b)) ∈ lg_edges A ↔
    ∃ g i j, g_comps st !! c = Some g ∧ id_of st a = Some i ∧ id_of st b = Some j ∧ j ∈ adj_out g i;
  ob_inverse : ∀ c g i j, g_comps st !! c = Some g → i ∈ adj_in g j ↔ j ∈ adj_out g i;
  ob_no_dangling : ∀ c g i j, g_comps st !! c = Some g → j ∈ adj_out g i →
    ∃ a b, id_of st a = Some i ∧ id_of st b = Some j;
  ob_elabels : ∀ c g a b i j k, g_comps st !! c = Some g → id_of st a = Some i → id_of st b = Some j →
    am_get_value (g_annos g) (Edge i j) k = lg_elabels A !! (c, (a, b), k)
}.

(** Restrictions on histories. *)
(** The label annis::node_name is not changed by label events. *)
Definition keeps_names (e : event) : Prop :=
  match e with
  | AddNodeLabel _ ns a _ | DeleteNodeLabel _ ns a => AnnoKey a ns ≠ node_name_key
  | _ => True
  end.
(** A node deleted by an update has only edges in components that existed before the update. *)
Definition delete_ok (C0 : gset comp) (A : lgraph) (e : event) : Prop :=
  match e with
  | DeleteNode n => ∀ c p, (c, p) ∈ lg_edges A → touches n p → c ∈ C0
  | _ => True
  end.
Fixpoint deletes_ok (ct : bytes → option N) (C0 : gset comp) (A : lgraph) (es : list event) : Prop :=
  match es with
  | [] => True
  | e :: es' => delete_ok C0 A e ∧ deletes_ok ct C0 (lg_step ct A e) es'
  end.
Fixpoint history_ok (ct : bytes → option N) (A : lgraph) (us : list (list event)) : Prop :=
  match us with
  | [] => True
  | u :: us' => Forall keeps_names u ∧ deletes_ok ct (lg_comps A) A u ∧ history_ok ct (lg_run ct A u) us'
  end.

(** The events of a list of updates without their numbers *)
Definition events_of (us : list (list (N * event))) : list (list event) := map (λ u, u.*2) us.
