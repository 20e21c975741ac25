(** What queries mean for a corpus with the labels and tokens [c] and the components [W], and which corpora and queries are fine. *)
From stdpp Require Import base list gmap.
From Coq Require Import NArith.
From Verif Require Import KeySer SortedMap Types SymbolTable AnnoMem AnnoSpec GraphSpec Adjacency AdjacencySpec Storage StorageSpec GraphApply
  RelAnnis TokenHelper TokenSearchSpec ContextSpec QuickSort TokenSearch NodeSearch NodeSearchSpec NonExistingSpec SortMatches TokenOps TokenOpsSpec EdgeOps EdgeOpsSpec Query QuerySpec
  AqlGrammar EndToEnd EndToEndSpec CorpusEngine.

Section Spec.
Context (rx : bytes → option (bytes → bool)) (c : content) (W : cname → option component).

(** A node is found for a description, with the annotation that is reported *)
Definition found_for (sp : spec) (m : match_) : Prop := ∃ k, meets rx c sp m.1 k ∧ m.2 = reported sp k.
(** The same text order for operators without segmentation *)
Definition no_segmentation (gs : storage) : gset edge := ∅.
(** The order of the nodes of a segmentation: a component with the type Ordering and the name of the segmentation *)
Definition seg_order (seg : bytes) : cname := CName 4 seg default_ns.
(** The operators between two nodes: paths in the components, and the order of the tokens (op_holds in TokenOpsSpec.v) *)
Definition related (o : aql_bop) (a b : N) : Prop :=
  match o with
  | BDominance name dist anno => linked rx W (QDominance name dist anno) a b
  | BPointing name dist anno => linked rx W (QPointing name dist anno) a b
  | BPartOf dist => linked rx W (QPartOf dist) a b
  | BPrecedence None dist => op_holds c no_segmentation (OPrecedence None dist) a b
  | BPrecedence (Some seg) dist => ∃ C, W (seg_order seg) = Some C ∧ steps (co_edges C) dist a b
  | BNear None dist => op_holds c no_segmentation (ONear None dist) a b
  | BNear (Some seg) dist => ∃ C, W (seg_order seg) = Some C ∧ (steps (co_edges C) dist a b ∨ steps (co_edges C) dist b a)
  | BOverlap => op_holds c no_segmentation (OOverlap false) a b
  | BIdentCov => op_holds c no_segmentation OIdenticalCoverage a b
  | BInclusion => op_holds c no_segmentation OInclusion a b
  | BLeft => op_holds c no_segmentation OLeftAlignment a b
  | BRight => op_holds c no_segmentation ORightAlignment a b
  | BIdentNode => a = b
  | BCompare _ => False
  end.
Definition operator_meaning (o : aql_bop) (x y : match_) : Prop := related o x.1 y.1.
(** The number of children in dominance and pointing relations *)
Definition unary_meaning (o : aql_uop) (x : match_) : Prop := match o with UArity range => ∃ S, children W x.1 S ∧ allowed range (size S) end.

(** ** Corpora *)
Context (exact : bytes → option bytes) (db : corpus) (cs : components) (hash : gset N → list N) (fuel : nat) (rnd : nat → nat).
(** The corpus is stored with this content, its texts are chains of tokens, the edges to the left-most and right-most token are correct *)
Record corpus_fine (th : helper) (order : storage) : Prop := CorpusFine {
  cf_content : holds_content db c;
  cf_texts : texts_ok c;
  cf_aligned : aligned c;
  cf_graph : holds_graph cs W;
  cf_exact : exact_ok rx exact;
  cf_hash : hash_order hash;
  cf_order : cp_order db = Some order;
  cf_helper : th_new db = Some th;
  cf_small : (N.of_nat (size (ct_labels c)) + 2 <= usize_max)%N }.

(** ** Parts of queries *)
(** Patterns are valid; for "tok", all tokens are in the order of the texts if the statistics say so, and the sort of the tokens succeeds *)
Definition search_fine (sp : spec) : Prop :=
  valid_pattern rx sp ∧
  (sp = SAnyTok → (cp_all_in_order db = Some true → ∀ n, token c n → n ∈ all_nodes (ct_order c)) ∧
     (∀ gs n, cp_order db = Some gs → token c n → n ∉ all_nodes (ct_order c) → gs_connected gs n 0 Unbounded = [n]) ∧
     ∃ items, token_search fuel rnd db = Done items).
(** Components are loaded, distances are allowed *)
Definition edge_query_fine (q : edge_query) : Prop :=
  loaded cs (q_component q) ∧ (∀ a b, q_usable W q a b) ∧ match q with QPartOf _ => is_Some (W (CName 7 [] annis)) | _ => True end.
Definition text_distance_fine (seg : option bytes) (dist : range_spec) : Prop :=
  match seg with
  | None => dist_ok (ct_order c) (token c) dist
  | Some s => ∃ C, W (seg_order s) = Some C ∧ loaded cs (λ n, n = seg_order s) ∧ chains (co_edges C) ∧
                (∀ a b, dist_ok (co_edges C) (λ n, n = a ∨ n = b) dist) ∧ ∀ n, n ∈ all_nodes (co_edges C) → ¬ token c n
  end.
Definition operator_fine (o : aql_bop) : Prop :=
  match o with
  | BDominance name dist anno => edge_query_fine (QDominance name dist anno)
  | BPointing name dist anno => edge_query_fine (QPointing name dist anno)
  | BPartOf dist => edge_query_fine (QPartOf dist)
  | BPrecedence seg dist | BNear seg dist => text_distance_fine seg dist
  | BOverlap => candidates_usable c no_segmentation (OOverlap false)
  | BInclusion => op_usable c no_segmentation OInclusion 0 0
  | BIdentCov | BLeft | BRight | BIdentNode => True
  | BCompare _ => False
  end.
(** All the parts of a query are fine *)
Record query_fine (lits : list (list aql_literal)) : Prop := QueryFine {
  qf_searches : ∀ sp, search_in lits sp → search_fine sp;
  qf_operators : ∀ o, operator_in lits o → operator_fine o;
  qf_unary : ∀ v o alt, alt ∈ lits → LUn v o ∈ alt → loaded cs (λ n, cn_type n = 2%N ∨ cn_type n = 3%N) }.
End Spec.
