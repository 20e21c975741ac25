(** Which edges belong to an operator, and the assignments of nodes which are the results of an alternative of a query. *)
From stdpp Require Import base list gmap.
From Coq Require Import NArith.
From Verif Require Import KeySer SortedMap Types SymbolTable AnnoMem AnnoSpec GraphSpec Adjacency AdjacencySpec Storage StorageSpec GraphApply
  RelAnnis TokenHelper TokenSearchSpec ContextSpec NodeSearch NodeSearchSpec SortMatches TokenOps TokenOpsSpec EdgeOps EdgeOpsSpec Query
  AqlGrammar CorpusEngine CorpusEngineSpec.

Section Spec.
Context (rx : bytes → option (bytes → bool)) (c : content) (W : cname → option component) (cs : components).

(** The edges between a text and its tokens: to the covered tokens, and to the first and the last one *)
Definition text_edges (G : gset edge) : Prop := G = ct_left c ∨ G = ct_right c ∨ G ∈ ct_cov c.
(** The order of the tokens, or of the nodes of a segmentation *)
Definition order_edges (seg : option bytes) (G : gset edge) : Prop :=
  match seg with None => G = ct_order c | Some s => ∃ C, W (seg_order s) = Some C ∧ G = co_edges C end.
(** The edges which belong to an operator *)
Definition operator_edges (o : aql_bop) (G : gset edge) : Prop :=
  match o with
  | BDominance name dist anno => ∃ n C, q_component (QDominance name dist anno) n ∧ W n = Some C ∧ G = co_edges C
  | BPointing name dist anno => ∃ n C, q_component (QPointing name dist anno) n ∧ W n = Some C ∧ G = co_edges C
  | BPartOf dist => ∃ n C, q_component (QPartOf dist) n ∧ W n = Some C ∧ G = co_edges C
  | BPrecedence seg _ | BNear seg _ => order_edges seg G ∨ text_edges G
  | BOverlap | BInclusion | BIdentCov => order_edges None G ∨ text_edges G
  | BLeft | BRight => text_edges G
  | BIdentNode | BCompare _ => False
  end.
(** An edge starts at this node *)
Definition has_edge (o : aql_bop) (n : N) : Prop := ∃ G, operator_edges o G ∧ is_source G n.
(** All the components of the operator are loaded *)
Definition operator_loaded (o : aql_bop) : Prop :=
  match o with
  | BDominance name dist anno => loaded cs (q_component (QDominance name dist anno))
  | BPointing name dist anno => loaded cs (q_component (QPointing name dist anno))
  | BPartOf dist => loaded cs (q_component (QPartOf dist))
  | BPrecedence (Some s) _ | BNear (Some s) _ => loaded cs (λ n, n = seg_order s)
  | _ => True
  end.
(** Operators for dominance, pointing and part-of relations and for precedence, with at least one step *)
Definition directed (o : aql_bop) : Prop :=
  match o with
  | BDominance _ dist _ | BPointing _ dist _ | BPartOf dist | BPrecedence _ dist => (1 <= min_dist dist)%N
  | _ => False
  end.

(** An operator, possibly negated, holds between the matches of its operands *)
Definition holds_between (b : aql_bop * bool * nat * nat) (a : nat → match_) : Prop :=
  if b.1.1.2 then ¬ operator_meaning rx c W b.1.1.1 (a b.1.2) (a b.2) else operator_meaning rx c W b.1.1.1 (a b.1.2) (a b.2).
(** An assignment of matches to the nodes, which have the descriptions [specs] *)
Definition solution (specs : nat → option spec) (ops : list (aql_bop * bool * nat * nat)) (a : nat → match_) : Prop :=
  (∀ i sp, specs i = Some sp → found_for rx c sp (a i)) ∧ ∀ b, b ∈ ops → holds_between b a.
End Spec.
