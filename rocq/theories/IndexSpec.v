(** The derived edges of a graph with annotations. *)
From stdpp Require Import base list gmap.
From Coq Require Import NArith.
From Verif Require Import KeySer SortedMap Types SymbolTable AnnoMem AnnoSpec GraphSpec Adjacency AdjacencySpec Storage GraphUpdate GraphApply GraphApplySpec TokenHelper
  TokenSearchSpec ContextSpec Index.

(** What the API of a graph shows: outgoing edges in a component and labels of nodes *)
Definition edge_in (st : gstate) (c : comp) (x y : N) : Prop := ∃ g, g_comps st !! c = Some g ∧ y ∈ adj_out g x.
Definition has_label (st : gstate) (n : N) (k : anno_key) : Prop := is_Some (am_get_value (g_node_annos st) n k).

(** Edges of the user which imply text coverage: of all coverage and dominance components, but not the derived one *)
Definition coverage_edge (st : gstate) (x y : N) : Prop := ∃ c, c.1.1 = t_coverage ∧ c ≠ inherited ∧ edge_in st c x y.
Definition text_edge (st : gstate) (x y : N) : Prop := coverage_edge st x y ∨ ∃ c, c.1.1 = t_dominance ∧ edge_in st c x y.
(** A token has the label annis::tok and no coverage edges (then it would be part of a segmentation) *)
Definition text_token (st : gstate) (n : N) : Prop := has_label st n tok_key ∧ ¬ ∃ y, coverage_edge st n y.
(** [t] belongs to the text of [n] *)
Definition text_of (st : gstate) (n t : N) : Prop := n ≠ t ∧ text_token st t ∧ reachable (text_edge st) n t.
(** Order of the tokens *)
Definition comes_before (st : gstate) (a b : N) : Prop := ∃ p, p ≠ [] ∧ walk (edge_in st order_comp) a p b.
Definition in_one_text (st : gstate) (n : N) : Prop :=
  ∀ a b, text_of st n a → text_of st n b → a = b ∨ comes_before st a b ∨ comes_before st b a.

(** One edge from each node with a text to a token of its text, which is the first one if there is an order of its tokens *)
Record aligned_by (st : gstate) (c : comp) (first : N → N → Prop) : Prop := {
  al_text : ∀ n t, edge_in st c n t → text_of st n t;
  al_some : ∀ n t, text_of st n t → ∃ u, edge_in st c n u;
  al_one : ∀ n t u, edge_in st c n t → edge_in st c n u → t = u;
  al_first : ∀ n t u, in_one_text st n → edge_in st c n t → text_of st n u → t = u ∨ first t u
}.
Record index_correct (st : gstate) : Prop := {
  (** coverage, together with the edges of the user, is exactly the text of a node *)
  ic_inherited : ∀ n t, edge_in st inherited n t ↔ text_of st n t ∧ ¬ coverage_edge st n t;
  ic_left : aligned_by st left_comp (comes_before st);
  ic_right : aligned_by st right_comp (λ a b, comes_before st b a)
}.

(** Conditions *)
(** No token can be reached from another token by coverage and dominance edges. *)
Definition tokens_apart (st : gstate) : Prop := ∀ a b, text_token st a → text_token st b → reachable (text_edge st) a b → a = b.
(** Nodes with coverage or dominance edges have the label annis::node_type. *)
Definition typed (st : gstate) : Prop := ∀ x y, text_edge st x y → has_label st x node_type_key.
(** The optimized version of the token order finds the paths of the order. *)
Definition order_ok (optimize : adj → storage) (st : gstate) : Prop :=
  ∀ g a b, g_comps st !! order_comp = Some g → gs_is_connected (optimize g) a b 1 Unbounded = true ↔ comes_before st a b.
(** The order of the tokens has no cycles. *)
Definition order_acyclic (st : gstate) : Prop := ∀ a, ¬ comes_before st a a.

(** The content [c] of a corpus, see TokenSearchSpec.v, has the labels and edges of the graph. *)
Record same_content (st : gstate) (c : content) : Prop := {
  sc_labels : ∀ n, is_Some (ct_labels c !! (n, tok_key)) ↔ has_label st n tok_key;
  sc_cov : ∀ x y, covers c x y ↔ ∃ k, k.1.1 = t_coverage ∧ edge_in st k x y;
  sc_left : ∀ x y, edge_rel (ct_left c) x y ↔ edge_in st left_comp x y;
  sc_right : ∀ x y, edge_rel (ct_right c) x y ↔ edge_in st right_comp x y;
  sc_order : ∀ x y, edge_rel (ct_order c) x y ↔ edge_in st order_comp x y
}.

(** Conditions for updates of a graph with derived edges *)
(** Coverage and dominance edges connect existing nodes, see [GraphApplyProps.C22_dangling_edge_refuted]. *)
Definition connects_nodes (st : gstate) : Prop := ∀ x y, text_edge st x y → has_label st x node_name_key ∧ has_label st y node_name_key.
(** Dominance edges of a component with a name are also coverage edges or dominance edges of a component without a name. *)
Definition plain (st : gstate) : Prop := ∀ c x y, c.1.1 = t_dominance → edge_in st c x y →
  coverage_edge st x y ∨ ∃ c', c'.1.1 = t_dominance ∧ c'.2 = [] ∧ edge_in st c' x y.
(** Names are not changed by label events, and the label annis::tok only for names which are new. *)
Definition labels_ok (st : gstate) (e : event) : Prop :=
  match e with
  | AddNodeLabel n ns a _ | DeleteNodeLabel n ns a => AnnoKey a ns ≠ node_name_key ∧ (AnnoKey a ns = tok_key → id_of st n = None)
  | _ => True
  end.
(** No node is added with the name of a node that was deleted by the same update. *)
Definition names_once (es : list event) : Prop :=
  ∀ i j n t, i < j → es !! i = Some (DeleteNode n) → es !! j ≠ Some (AddNode n t).
(** [n] is the source or target of an ordering edge which is added or deleted *)
Definition order_end (e : event) (n : bytes) : Prop :=
  match e with
  | GraphUpdate.AddEdge s t _ ty _ | DeleteEdge s t _ ty _ => aql_ctype ty = Some t_ordering ∧ (n = s ∨ n = t)
  | _ => False
  end.
(** The order of the tokens which are there before and after the update is the same, unless an ordering edge is added or deleted at one of them. *)
Definition order_kept (st : gstate) (es : list event) (st' : gstate) : Prop := ∀ a b, text_token st a → text_token st b → text_token st' a → text_token st' b →
  (¬ ∃ e n, e ∈ es ∧ order_end e n ∧ (id_of st n = Some a ∨ id_of st n = Some b)) →
  comes_before st a b ↔ comes_before st' a b.
Record usable (optimize : adj → storage) (st : gstate) : Prop := {
  us_order : order_ok optimize st;
  us_acyclic : order_acyclic st;
  us_apart : tokens_apart st;
  us_typed : typed st;
  us_connects : connects_nodes st;
  us_plain : plain st
}.
Record safe_update (optimize : adj → storage) (st : gstate) (u : list (N * event)) (st' : gstate) : Prop := {
  su_labels : ∀ e, e ∈ u.*2 → labels_ok st e;
  su_names : names_once u.*2;
  su_order : order_kept st u.*2 st';
  su_usable : usable optimize st'
}.

(** All updates of a history are safe. *)
Fixpoint safe_history (fuel : nat) (rnd : nat → nat) (hash : gset N → list N) (optimize : adj → storage) (st : gstate) (us : list (bool * list (N * event))) : Prop :=
  match us with
  | [] => True
  | (b, u) :: us' => ∀ st', aql_update fuel rnd hash optimize b st u = Some st' → safe_update optimize st u st' ∧ safe_history fuel rnd hash optimize st' us'
  end.
