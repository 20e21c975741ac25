(** When the operators on tokens hold for two nodes. *)
From stdpp Require Import base list gmap.
From Coq Require Import NArith.
From Verif Require Import KeySer SortedMap Types SymbolTable AnnoMem AnnoSpec GraphSpec Adjacency AdjacencySpec Storage StorageSpec
  GraphApply TokenHelper TokenSearchSpec ContextSpec TokenOps.

(** Well-formed edges to the left-most and right-most token: from nodes which are no tokens, to one token each, and no node has only
    one of them; the left-most one is not after the right-most one *)
Record well_aligned (c : content) : Prop := {
  wa_left : ∀ x t, edge_rel (ct_left c) x t → ¬ token c x ∧ token c t;
  wa_right : ∀ x t, edge_rel (ct_right c) x t → ¬ token c x ∧ token c t;
  wa_left_one : ∀ x t u, edge_rel (ct_left c) x t → edge_rel (ct_left c) x u → t = u;
  wa_right_one : ∀ x t u, edge_rel (ct_right c) x t → edge_rel (ct_right c) x u → t = u;
  wa_both : ∀ x, is_source (ct_left c) x ↔ is_source (ct_right c) x;
  wa_order : ∀ x t u, edge_rel (ct_left c) x t → edge_rel (ct_right c) x u → reachable (edge_rel (ct_order c)) t u
}.
(** These edges lead to the first and to the last token which is covered by the node *)
Definition aligned (c : content) : Prop :=
  (∀ x t, edge_rel (ct_left c) x t ↔ ¬ token c x ∧ first_covered c x t) ∧
  (∀ x t, edge_rel (ct_right c) x t ↔ ¬ token c x ∧ last_covered c x t).
(** Distance 0 is only defined for nodes which are part of an order *)
Definition defined_dist (G : gset edge) (nodes : N → Prop) (dist : range_spec) : Prop :=
  (1 <= min_dist dist)%N ∨ ∀ n, nodes n → n ∈ all_nodes G.
Definition dist_ok (G : gset edge) (nodes : N → Prop) (dist : range_spec) : Prop :=
  in_limit G (max_dist dist) ∧ range_ok (min_dist dist) (max_dist dist) ∧ defined_dist G nodes dist.
(** From [a] to [b] it is an allowed number of steps *)
Definition steps (G : gset edge) (dist : range_spec) (a b : N) : Prop :=
  ∃ p, walk (edge_rel G) a p b ∧
    match dist with RBound min max => (min <= N.of_nat (length p) <= max)%N | RUnbound => (1 <= N.of_nat (length p))%N end.
(** The node covers every token between two of its tokens *)
Definition contiguous (c : content) (n : N) : Prop :=
  ∀ a b t, covered c n a → covered c n b → reachable (edge_rel (ct_order c)) a t → reachable (edge_rel (ct_order c)) t b → covered c n t.
(** Only tokens are covered *)
Definition covers_tokens (c : content) : Prop := ∀ n t, covers c n t → token c t.

(** [op_holds c op a b]: the operator holds for the nodes [a] and [b]; [segs] are the edges of the order for segmentations *)
Definition op_holds (c : content) (seg_edges : storage → gset edge) (op : token_op) (a b : N) : Prop :=
  match op with
  | OPrecedence None dist => ∃ s e, last_covered c a s ∧ first_covered c b e ∧ steps (ct_order c) dist s e
  | OPrecedence (Some gs) dist => steps (seg_edges gs) dist a b
  | OInversePrecedence None dist => ∃ s e, last_covered c b s ∧ first_covered c a e ∧ steps (ct_order c) dist s e
  | OInversePrecedence (Some gs) dist => steps (seg_edges gs) dist b a
  | ONear None dist => (∃ s e, last_covered c a s ∧ first_covered c b e ∧ steps (ct_order c) dist s e) ∨
                       (∃ s e, last_covered c b s ∧ first_covered c a e ∧ steps (ct_order c) dist s e)
  | ONear (Some gs) dist => steps (seg_edges gs) dist a b ∨ steps (seg_edges gs) dist b a
  | OOverlap reflexive => (reflexive = true ∧ a = b) ∨
      ∃ la ra lb rb, first_covered c a la ∧ last_covered c a ra ∧ first_covered c b lb ∧ last_covered c b rb ∧
                     reachable (edge_rel (ct_order c)) la rb ∧ reachable (edge_rel (ct_order c)) lb ra
  | OInclusion => ∃ la ra lb rb, first_covered c a la ∧ last_covered c a ra ∧ first_covered c b lb ∧ last_covered c b rb ∧
                     reachable (edge_rel (ct_order c)) la lb ∧ reachable (edge_rel (ct_order c)) rb ra
  | OIdenticalCoverage => ∃ l r, first_covered c a l ∧ first_covered c b l ∧ last_covered c a r ∧ last_covered c b r
  | OLeftAlignment => ∃ l, first_covered c a l ∧ first_covered c b l
  | ORightAlignment => ∃ r, last_covered c a r ∧ last_covered c b r
  end.

(** The operator can be used with this corpus: the edges of a segmentation are [seg_edges], and the candidates are reliable *)
Definition op_usable (c : content) (seg_edges : storage → gset edge) (op : token_op) (a b : N) : Prop :=
  match op with
  | OPrecedence None dist | OInversePrecedence None dist | ONear None dist => dist_ok (ct_order c) (token c) dist
  | OPrecedence (Some gs) dist | OInversePrecedence (Some gs) dist | ONear (Some gs) dist =>
      implements gs (seg_edges gs) ∧ chains (seg_edges gs) ∧ dist_ok (seg_edges gs) (λ n, n = a ∨ n = b) dist
  | OInclusion => in_limit (ct_order c) (Included (N.of_nat (size (all_nodes (ct_order c))))) ∧ ∀ t, token c t → t ∈ all_nodes (ct_order c)
  | OOverlap _ | OIdenticalCoverage | OLeftAlignment | ORightAlignment => True
  end.
(** More that is needed for the candidates: the nodes of a segmentation are no tokens; for overlaps, spans of one text
    without holes *)
Definition candidates_usable (c : content) (seg_edges : storage → gset edge) (op : token_op) : Prop :=
  match op with
  | OPrecedence (Some gs) dist | OInversePrecedence (Some gs) dist | ONear (Some gs) dist => ∀ n, n ∈ all_nodes (seg_edges gs) → ¬ token c n
  | OOverlap _ => (∀ n, one_text c n) ∧ (∀ n, contiguous c n) ∧ covers_tokens c ∧ Forall (λ G, in_limit G (Included 1%N)) (ct_cov c)
  | _ => True
  end.
