(** The tokens of a corpus. *)
From stdpp Require Import base list gmap.
From Coq Require Import NArith.
From Verif Require Import KeySer SortedMap Types SymbolTable AnnoMem AnnoSpec GraphSpec Adjacency AdjacencySpec Storage StorageSpec
  GraphApply TokenHelper.

(** Contents of a corpus: labels of the nodes, edges of each coverage component, of the left-most and right-most token
    components and of the token order *)
Record content := Content {
  ct_labels : gmap (N * anno_key) bytes;
  ct_cov : list (gset edge);
  ct_left : gset edge;
  ct_right : gset edge;
  ct_order : gset edge
}.
(** [db] holds this content: the annotation storage was filled by some updates, and each component is a graph storage.
    The token order may be missing if it is empty. *)
Record holds_content (db : corpus) (c : content) : Prop := {
  hc_labels : ∃ ops outs, am_run N.compare am_new ops = (cp_annos db, outs) ∧ ct_labels c = as_run ∅ ops outs;
  hc_cov : Forall2 implements (cp_cov db) (ct_cov c);
  hc_left : ∃ gs, cp_left db = Some gs ∧ implements gs (ct_left c);
  hc_right : ∃ gs, cp_right db = Some gs ∧ implements gs (ct_right c);
  hc_order : match cp_order db with
             | Some gs => implements gs (ct_order c) ∧ chain_order gs (ct_order c)
             | None => ct_order c = ∅
             end
}.
(** A node covers another one *)
Definition covers_something (c : content) (n : N) : Prop := ∃ G, G ∈ ct_cov c ∧ is_source G n.
(** Tokens have a label annis::tok and cover nothing *)
Definition token (c : content) (n : N) : Prop := is_Some (ct_labels c !! (n, tok_key)) ∧ ¬ covers_something c n.
(** Texts: the token order consists of chains of tokens with names *)
Definition texts_ok (c : content) : Prop :=
  chains (ct_order c) ∧ (∀ n, n ∈ all_nodes (ct_order c) → token c n) ∧
  (∀ n, token c n → is_Some (ct_labels c !! (n, node_name_key))).
(** [a] comes before [b] in the same text *)
Definition precedes (c : content) (a b : N) : Prop := ∃ p, p ≠ [] ∧ walk (edge_rel (ct_order c)) a p b.
