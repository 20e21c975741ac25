(** Model of the replacement of the search for a node by a search for the nodes with outgoing edges in the components of an operator
    (/repo/graphannis/src/annis/db/aql/conjunction.rs l.551-614 and l.666-682: optimize_node_search_by_operator, and the functions
    necessary_components of the operators).
    Simplifications: a component is given by its loaded graph storage, components without a loaded graph storage are left out as the code does
    in l.572 and in nodesearch.rs l.1009; the estimated output of the search is an argument; get_edge_anno_spec is None for all the operators of
    queries (only BaseEdgeOpSpec has one, which is not used as a specification in queries). *)
From stdpp Require Import base list gmap.
From Coq Require Import NArith.
From Verif Require Import KeySer SortedMap Types SymbolTable AnnoMem Adjacency Storage GraphApply TokenHelper TokenSearch NodeSearch
  RelAnnis TokenOps EdgeOps Query AqlGrammar CorpusEngine.

Section Choice.
(** The corpus, its components and the order of the elements of a hash set *)
Context (db : corpus) (cs : components) (hash : list storage → list storage).

Definition when_loaded (gs : option storage) : list storage := match gs with Some gs => [gs] | None => [] end.
(** token_helper.rs l.42-50 *)
Definition text_storages : list storage := when_loaded (cp_left db) ++ when_loaded (cp_right db) ++ cp_cov db.
(** precedence.rs l.53-62, near.rs l.43-54: the ordering component *)
Definition order_storages (seg : option bytes) : list storage :=
  match seg with None => when_loaded (cp_order db) | Some s => when_loaded (get_storage cs (seg_component s)) end.
(** edge_op.rs l.625-632, l.676-683, l.726-737; precedence.rs l.52-70; near.rs l.39-60; overlap.rs l.46-51; inclusion.rs l.42-50;
    identical_cov.rs l.49-58; leftalignment.rs l.21-28; rightalignment.rs l.27-31; identical_node.rs l.18-23; equal_value.rs l.26-31 *)
Definition necessary (o : aql_bop) : list storage :=
  hash (match o with
        | BDominance name _ _ => omap (get_storage cs) (all_components cs (Some t_dominance) (Some name))
        | BPointing name _ _ => omap (get_storage cs) (all_components cs (Some t_pointing) (Some name))
        | BPartOf _ => when_loaded (get_storage cs (CName 7 [] annis))
        | BPrecedence seg _ | BNear seg _ => order_storages seg ++ text_storages
        | BOverlap | BInclusion | BIdentCov => order_storages None ++ text_storages
        | BLeft | BRight => text_storages
        | BIdentNode | BCompare _ => []
        end).
(** negated_op.rs l.23-30: the components of the negated operator *)
Definition necessary_for (o : aql_bop * bool) : list storage := necessary o.1.
(** conjunction.rs l.568-588: the nodes in all the components with statistics; None: the estimation is not valid *)
Definition estimate (comps : list storage) : option nat :=
  fold_left (λ acc gs, match gs_nodes gs with Some n => Some (default 0 acc + n) | None => acc end) comps None.
(** conjunction.rs l.590-592 *)
Definition smaller (comps : list storage) (output : nat) : bool :=
  match estimate comps with Some n => n <? output | None => false end.
(** conjunction.rs l.551-614; the operators with the positions of their operands, [off] is var_idx_offset *)
Fixpoint optimize (s : search) (output : option nat) (node off : nat) (ops : list (aql_bop * bool * nat * nat)) : option search :=
  match output, ops with
  | Some out, b :: r =>
      if bool_decide (b.1.2 - off = node) && smaller (necessary_for b.1.1) out then Some (component_search db s (necessary_for b.1.1) None)
      else optimize s output node off r
  | _, _ => None
  end.
(** conjunction.rs l.666-682: the search which is used in the plan *)
Definition planned_search (s : search) (output : option nat) (node off : nat) (ops : list (aql_bop * bool * nat * nat)) : search :=
  default s (optimize s output node off ops).
End Choice.
