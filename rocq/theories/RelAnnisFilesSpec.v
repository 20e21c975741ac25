(** Specification of the files of a relANNIS corpus: the columns of each table. *)
From Coq Require Import NArith String.
From stdpp Require Import base list gmap pretty.
From Verif Require Import KeySer KeySerSpec Types CompPath RelAnnis RelAnnisSpec.

Definition number (n : N) : option bytes := Some (str (pretty n)).
Definition null : option bytes := None.
(** corpus.tab: id, name, type, version, pre, post, top-level *)
Definition crow_fields (r : crow) : list (option bytes) :=
  [number (cr_id r); Some (cr_name r); Some (if cr_doc r then str "DOCUMENT" else str "CORPUS"); null; number (cr_pre r); number (cr_post r); null].
(** text.tab: corpus (only 3.3), id, name, text *)
Definition trow_fields (v33 : bool) (r : trow) : list (option bytes) :=
  (if v33 then [number (default 0%N (tr_corpus r))] else []) ++ [number (tr_id r); Some (tr_name r); Some (tr_val r)].
(** node.tab: id, text, corpus, layer, name, left and right character, index of the token, and
    3.3: left and right token, index and name of the segmentation, spanned text; 3.2: name, index, left and right token of the segmentation, spanned text *)
Definition nrow_fields (v33 : bool) (r : nrow) : list (option bytes) :=
  let tok := match nr_kind r with KTok i _ => number i | _ => null end in
  let seg := match nr_kind r with KSeg s _ _ => Some s | _ => null end in
  let index := match nr_kind r with KSeg _ i _ => number i | _ => null end in
  let span := match nr_kind r with KTok _ s => Some s | KSeg _ _ s => s | KPlain => null end in
  [number (nr_id r); number (nr_text r); number (nr_corpus r); nr_layer r; Some (nr_name r); number (nr_left_char r); number (nr_right_char r); tok] ++
  if v33 then [number (nr_left r); number (nr_right r); index; seg; span] else [seg; index; null; null; span].
(** node_annotation.tab and corpus_annotation.tab: id, namespace, name, value *)
Definition arow_fields (r : arow) : list (option bytes) := [number (ar_id r); Some (ar_ns r); Some (ar_name r); ar_val r].
(** component.tab: id, type, layer, name *)
Definition ctype_letter (t : actype) : bytes :=
  match t with Coverage => str "c" | Dominance => str "d" | Pointing => str "p" | _ => str "o" end.
Definition comp_fields (c : N * acomp) : list (option bytes) := [number c.1; Some (ctype_letter c.2.1.1); Some c.2.1.2; Some c.2.2].
(** rank.tab: pre, post, (3.3: id,) node, component, parent, level *)
Definition rrow_fields (v33 : bool) (r : rrow) : list (option bytes) :=
  [number (rr_pre r); null] ++ (if v33 then [null] else []) ++
  [number (rr_node r); number (rr_comp r); match rr_parent r with Some p => number p | None => null end; null].
(** edge_annotation.tab: pre, namespace, name, value *)
Definition erow_fields (r : erow) : list (option bytes) := [number (er_pre r); Some (er_ns r); er_name r; er_val r].
Definition write_files (v33 : bool) (T : tables) : files :=
  Files (write_table (crow_fields <$> t_corpus T)) (write_table (trow_fields v33 <$> t_text T)) (write_table (arow_fields <$> t_cannos T))
    (write_table (nrow_fields v33 <$> t_nodes T)) (write_table (arow_fields <$> t_nannos T)) (write_table (comp_fields <$> t_comps T))
    (write_table (rrow_fields v33 <$> t_ranks T)) (write_table (erow_fields <$> t_eannos T)).
(** What a file can hold: numbers have 32 bits (those of nodes 64), the value "NULL" does not occur, and version 3.2 has one pair of positions
    and no text of segmentations *)
Definition no_null (l : list (option bytes)) : Prop := Forall (λ v, v ≠ Some (str "NULL")) l.
Record writable (v33 : bool) (T : tables) : Prop := {
  wr_corpus : Forall (λ r, no_null (crow_fields r) ∧ (cr_id r <= u32_max)%N ∧ (cr_pre r <= u32_max)%N ∧ (cr_post r <= u32_max)%N) (t_corpus T);
  wr_text : Forall (λ r, no_null (trow_fields v33 r) ∧ (tr_id r <= u32_max)%N ∧ (if v33 then ∃ c, tr_corpus r = Some c ∧ (c <= u32_max)%N else tr_corpus r = None)) (t_text T);
  wr_cannos : Forall (λ r, no_null (arow_fields r) ∧ (ar_id r <= u32_max)%N) (t_cannos T);
  wr_nodes : Forall (λ r, no_null (nrow_fields v33 r) ∧ (nr_id r <= u64_max)%N ∧ (nr_text r <= u32_max)%N ∧ (nr_corpus r <= u32_max)%N ∧
    (nr_left_char r <= u32_max)%N ∧ (nr_right_char r <= u32_max)%N ∧ (nr_left r <= u32_max)%N ∧ (nr_right r <= u32_max)%N ∧
    (match nr_kind r with KTok i _ | KSeg _ i _ => (i <= u32_max)%N | KPlain => True end) ∧
    (v33 = false → nr_left r = nr_left_char r ∧ nr_right r = nr_right_char r ∧ ∀ s i x, nr_kind r ≠ KSeg s i (Some x))) (t_nodes T);
  wr_nannos : Forall (λ r, no_null (arow_fields r) ∧ (ar_id r <= u64_max)%N) (t_nannos T);
  wr_comps : Forall (λ c, no_null (comp_fields c) ∧ (c.1 <= u32_max)%N ∧ c.2.1.1 ∈ [Coverage; Dominance; Pointing; Ordering]) (t_comps T);
  wr_ranks : Forall (λ r, (rr_pre r <= u32_max)%N ∧ (rr_node r <= u64_max)%N ∧ (rr_comp r <= u32_max)%N ∧ (∀ p, rr_parent r = Some p → (p <= u32_max)%N)) (t_ranks T);
  wr_eannos : Forall (λ r, no_null (erow_fields r) ∧ (er_pre r <= u32_max)%N) (t_eannos T)
}.
