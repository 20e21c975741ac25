(** Specification of relANNIS: how tables are written, what a corpus tree is, and what the rows of the tables say about the graph. *)
From Coq Require Import NArith String.
From stdpp Require Import base list gmap.
From Verif Require Import KeySer KeySerSpec Types CompPath GraphUpdate GraphApply GraphApplySpec RelAnnis.

(** ** Tables *)
(** A value is written with escapes for the backslash and for the characters that separate fields and rows; no value is NULL *)
Fixpoint escape_value (s : bytes) : bytes :=
  match s with
  | [] => []
  | b :: s => (if decide (b = 92%N) then [92; 92] else if decide (b = 10%N) then [92; 110] else if decide (b = 13%N) then [92; 114]
               else if decide (b = 9%N) then [92; 116] else [b])%N ++ escape_value s
  end.
Definition write_field (v : option bytes) : bytes := match v with Some v => escape_value v | None => str "NULL" end.
Fixpoint write_row (r : list (option bytes)) : bytes :=
  match r with [] => [] | [v] => write_field v | v :: r => write_field v ++ [9%N] ++ write_row r end.
Definition write_table (rows : list (list (option bytes))) : bytes := concat ((λ r, write_row r ++ [10%N]) <$> rows).
(** All fields of a record *)
Definition read_row (r : list bytes) : list (option bytes) := default None <$> (get_field r <$> seq 0 (length r)).

(** ** Corpora *)
(** A tree of corpora and documents, numbered by one counter: the number at the beginning and at the end of the visit of each node *)
Inductive ctree := CT (id : N) (name : bytes) (document : bool) (children : list ctree).
Definition ct_id (t : ctree) : N := let 'CT i _ _ _ := t in i.
Definition ct_name (t : ctree) : bytes := let 'CT _ n _ _ := t in n.
Fixpoint tree_rows (n : N) (t : ctree) : list crow * N :=
  let 'CT id name doc cs := t in
  let '(rs, m) := (fix go n l := match l with
                                 | [] => ([], n)
                                 | t :: l => let '(a, n1) := tree_rows n t in let '(b, n2) := go n1 l in (a ++ b, n2)
                                 end) (n + 1)%N cs in
  (CRow id name doc n m :: rs, (m + 1)%N).
(** The ids with the names on the way from the root *)
Fixpoint tree_paths (above : list bytes) (t : ctree) : list (N * list bytes) :=
  let 'CT id name _ cs := t in
  (id, above ++ [name]) :: concat (map (tree_paths (above ++ [name])) cs).
Definition path_name (l : list bytes) : bytes := join_slash (encode_name <$> l).
(** The children of each node have different names *)
Fixpoint distinct_names (t : ctree) : Prop :=
  let 'CT _ _ _ cs := t in
  NoDup (map ct_name cs) ∧ (fix go l := match l with [] => True | c :: l => distinct_names c ∧ go l end) cs.

(** ** Tables that describe a corpus *)
Definition hash : N := 35%N.
Record sound_tables (t : ctree) (T : tables) : Prop := {
  (** the corpora are numbered as a tree, in any order of the rows *)
  st_corpus : t_corpus T ≡ₚ (tree_rows 0 t).1;
  st_ids : NoDup (cr_id <$> t_corpus T);
  st_docs : NoDup (cr_name <$> filter (λ r, cr_doc r = true) (t_corpus T));
  st_siblings : distinct_names t;
  st_names : Forall (λ r, cr_name r ≠ [] ∧ Forall (λ b, b < 256)%N (cr_name r) ∧ hash ∉ cr_name r) (t_corpus T);
  (** the nodes are in corpora below the top-level corpus, and have different numbers and names *)
  st_node_corpus : Forall (λ r, nr_corpus r ≠ ct_id t ∧ nr_corpus r ∈ cr_id <$> t_corpus T) (t_nodes T);
  st_node_ids : NoDup (nr_id <$> t_nodes T);
  st_node_names : NoDup ((λ r, (nr_corpus r, nr_name r)) <$> t_nodes T)
}.
(** The name of a node: the names from the top-level corpus to its document, and its own name *)
Definition row_name (t : ctree) (r : nrow) (n : bytes) : Prop :=
  ∃ p, (nr_corpus r, p) ∈ tree_paths [] t ∧ n = path_name p ++ [hash] ++ nr_name r.
(** The corpora and documents below the top-level corpus, with their path *)
Definition below (t : ctree) (i : N) (p : list bytes) : Prop := (i, p) ∈ tree_paths [] t ∧ i ≠ ct_id t.
(** The texts: in version 3.2, a text is in the corpus of the first node that refers to it *)
Definition text_of (v33 : bool) (T : tables) (i c : N) (name val : bytes) : Prop :=
  ∃ r, r ∈ t_text T ∧ tr_id r = i ∧ tr_name r = name ∧ tr_val r = val ∧
    if v33 then tr_corpus r = Some c
    else tr_corpus r = None ∧ ∃ n, head (filter (λ n, nr_text n = i) (t_nodes T)) = Some n ∧ nr_corpus n = c.
Definition sound_texts (t : ctree) (v33 : bool) (T : tables) : Prop :=
  NoDup ((λ r, (tr_id r, tr_corpus r)) <$> t_text T) ∧ Forall (λ r, is_Some (tr_corpus r) ↔ v33 = true) (t_text T) ∧
  Forall (λ r, Forall (λ b, b < 256)%N (tr_name r)) (t_text T) ∧
  ∀ i c name val, text_of v33 T i c name val → c ≠ ct_id t.
Definition text_name (p : list bytes) (name : bytes) : bytes := path_name p ++ [hash] ++ encode_name name.
(** The names of linked files: of the top-level corpus, or of a corpus or document *)
Definition file_name (t : ctree) (ext : option bytes → list (bytes * bytes)) (n : bytes) : Prop :=
  ∃ parent d f, f ∈ ext d ∧ n = parent ++ [slash] ++ f.1 ∧
    ((d = None ∧ parent = ct_name t) ∨ ∃ i q x, below t i (q ++ [x]) ∧ d = Some x ∧ parent = path_name (q ++ [x])).
(** The values of a table of annotations for one element: the last row with the key counts, and NULL is written as the largest character *)
Definition annotation (l : list arow) (i : N) (k : anno_key) : option bytes :=
  last ((λ a, default char_max (ar_val a)) <$> filter (λ a, ar_id a = i ∧ AnnoKey (ar_name a) (ar_ns a) = k) l).
(** ** Edges *)
(** A row of the rank table is an edge of a component from the node of its parent row to its own node *)
Definition rank_edge (T : tables) (r : rrow) (i j : N) (c : acomp) : Prop :=
  r ∈ t_ranks T ∧ j = rr_node r ∧ (rr_comp r, c) ∈ t_comps T ∧ ∃ r', r' ∈ t_ranks T ∧ rr_parent r = Some (rr_pre r') ∧ rr_node r' = i.
Record sound_ranks (T : tables) : Prop := {
  sr_pre : NoDup (rr_pre <$> t_ranks T);
  sr_comps : NoDup (t_comps T).*1;
  sr_types : Forall (λ x, x.2.1.1 ∈ [Coverage; Dominance; Pointing; Ordering]) (t_comps T)
}.
(** The component of the graph *)
Definition graph_comp (c : acomp) : comp := (actype_number c.1.1, c.1.2, c.2).
(** The nodes with the given numbers have the given names *)
Definition named (t : ctree) (T : tables) (i : N) (n : bytes) : Prop := ∃ r, r ∈ t_nodes T ∧ nr_id r = i ∧ row_name t r n.
Definition edge_of_rank (t : ctree) (T : tables) (r : rrow) (c : comp) (a b : bytes) : Prop :=
  ∃ i j c', rank_edge T r i j c' ∧ graph_comp c' = c ∧ named t T i a ∧ named t T j b.
(** ** Order *)
(** Tokens and nodes of segmentations have a position in the text *)
Definition order_key (r : nrow) : option (bytes * pos) :=
  match nr_kind r with KTok i _ => Some ([], (nr_corpus r, nr_text r, i)) | KSeg s i _ => Some (s, (nr_corpus r, nr_text r, i)) | KPlain => None end.
(** Two nodes of the same segmentation of the same text, with no such node between them *)
Definition next_in_order (T : tables) (s : bytes) (r r' : nrow) : Prop :=
  r ∈ t_nodes T ∧ r' ∈ t_nodes T ∧ ∃ c x i j, order_key r = Some (s, (c, x, i)) ∧ order_key r' = Some (s, (c, x, j)) ∧ (i < j)%N ∧
    ∀ r'' k, r'' ∈ t_nodes T → order_key r'' = Some (s, (c, x, k)) → (k <= i ∨ j <= k)%N.
Definition order_comp (s : bytes) : comp := (4%N, if decide (s = []) then annis_ns else default_ns, s).
(** ** Labels of edges *)
(** A row of the table of edge annotations is for an edge and a key *)
Definition edge_annotation (t : ctree) (T : tables) (c : comp) (a b : bytes) (kk : anno_key) (e : erow) : Prop :=
  ∃ n r, er_name e = Some n ∧ AnnoKey n (er_ns e) = kk ∧ rr_pre r = er_pre e ∧ edge_of_rank t T r c a b.
(** ** Coverage *)
Definition token_index (r : nrow) : option N := match nr_kind r with KTok i _ => Some i | _ => None end.
Definition in_same_text (r r' : nrow) : Prop := nr_corpus r = nr_corpus r' ∧ nr_text r = nr_text r'.
(** Tokens have different positions *)
Record sound_tokens (T : tables) : Prop := {
  sk_index : NoDup (omap order_key (t_nodes T));
  sk_seg : Forall (λ r, ∀ s i v, nr_kind r = KSeg s i v → s ≠ []) (t_nodes T);
  sk_left : NoDup ((λ r, (nr_corpus r, nr_text r, nr_left r)) <$> filter (λ r, is_Some (token_index r)) (t_nodes T));
  sk_right : NoDup ((λ r, (nr_corpus r, nr_text r, nr_right r)) <$> filter (λ r, is_Some (token_index r)) (t_nodes T))
}.
(** A token that starts (or ends) where the node starts (or ends) *)
Definition aligned (T : tables) (f : nrow → N) (r u : nrow) : Prop :=
  u ∈ t_nodes T ∧ is_Some (token_index u) ∧ in_same_text r u ∧ f u = f r.
(** The first and the last token of a node; if one of them does not exist, it is the same as the other *)
Definition first_last (T : tables) (r u w : nrow) : Prop :=
  (aligned T nr_left r u ∧ aligned T nr_right r w) ∨
  (u = w ∧ aligned T nr_left r u ∧ ∀ y, ¬ aligned T nr_right r y) ∨ (u = w ∧ aligned T nr_right r u ∧ ∀ y, ¬ aligned T nr_left r y).
(** The node covers the token: it is between the first and the last token, and the index has no gap before it *)
Definition covers (T : tables) (r x : nrow) : Prop :=
  r ∈ t_nodes T ∧ token_index r = None ∧ x ∈ t_nodes T ∧ in_same_text r x ∧
  ∃ u w i j m, first_last T r u w ∧ token_index u = Some i ∧ token_index w = Some j ∧ token_index x = Some m ∧ (i <= m <= j)%N ∧
    ∀ h, (i <= h <= m)%N → ∃ y, y ∈ t_nodes T ∧ in_same_text r y ∧ token_index y = Some h.
(** The component of the edges that are added for the covered tokens: if the node has other coverage edges a new one, otherwise the one in which the node is a root *)
Definition coverage_root (T : tables) (i : N) (c : comp) : Prop :=
  ∃ r c', r ∈ t_ranks T ∧ rr_node r = i ∧ rr_parent r = None ∧ (rr_comp r, c') ∈ t_comps T ∧ c'.1.1 = Coverage ∧ c = graph_comp c'.
Definition auto_comp (T : tables) (i : N) (c : comp) : Prop :=
  ((∃ r j c', rank_edge T r i j c' ∧ c'.1.1 = Coverage) ∧ c = (0%N, annis_ns, str "autogenerated-coverage")) ∨
  ((¬ ∃ r j c', rank_edge T r i j c' ∧ c'.1.1 = Coverage) ∧ (coverage_root T i c ∨ (¬ (∃ c', coverage_root T i c') ∧ c = (0%N, [], [])))).
(** ** Part-of hierarchy *)
Definition part_of_comp : comp := (7%N, annis_ns, []).
Inductive part (t : ctree) (v33 : bool) (T : tables) (ext : option bytes → list (bytes * bytes)) : bytes → bytes → Prop :=
| part_node r p a name val : r ∈ t_nodes T → row_name t r a → (nr_corpus r, p) ∈ tree_paths [] t → text_of v33 T (nr_text r) (nr_corpus r) name val →
    part t v33 T ext a (text_name p name)
| part_text i c p name val : text_of v33 T i c name val → below t c p → part t v33 T ext (text_name p name) (path_name p)
| part_corpus i q x : below t i (q ++ [x]) → part t v33 T ext (path_name (q ++ [x])) (path_name q)
| part_file_top f : f ∈ ext None → part t v33 T ext (ct_name t ++ [slash] ++ f.1) (ct_name t)
| part_file i q x f : below t i (q ++ [x]) → f ∈ ext (Some x) → part t v33 T ext (path_name (q ++ [x]) ++ [slash] ++ f.1) (path_name (q ++ [x])).
(** The trees in a tree *)
Inductive subtree : ctree → ctree → Prop :=
| sub_self t : subtree t t
| sub_child id name doc cs c s : c ∈ cs → subtree c s → subtree (CT id name doc cs) s.
(** ** References between the tables *)
Record sound_refs (v33 : bool) (T : tables) : Prop := {
  (** annotations are of nodes, texts are in corpora, edges are between nodes and annotations of edges have a name *)
  sf_nannos : Forall (λ a, ar_id a ∈ nr_id <$> t_nodes T) (t_nannos T);
  sf_texts : ∀ i c name val, text_of v33 T i c name val → c ∈ cr_id <$> t_corpus T;
  sf_ranks : ∀ r i j c, rank_edge T r i j c → i ∈ nr_id <$> t_nodes T ∧ j ∈ nr_id <$> t_nodes T;
  sf_eannos : Forall (λ e, is_Some (er_name e)) (t_eannos T)
}.
(** ** Text between the tokens *)
(** The characters of a text from one position to another, or to the end *)
Definition slice (l r : N) (text : bytes) : bytes := concat (take (N.to_nat r - N.to_nat l) (drop (N.to_nat l) (chars text))).
(** a character: a first byte, and continuation bytes *)
Definition utf8_char (c : bytes) : Prop := ∃ b cs, c = b :: cs ∧ ¬ (128 <= b < 192)%N ∧ Forall (λ x, 128 <= x < 192)%N cs.
Definition slice_end (l : N) (text : bytes) : bytes := concat (drop (N.to_nat l) (chars text)).
(** The tokens have the characters of the text in the order of their index, and do not overlap *)
Record sound_chars (T : tables) : Prop := {
  sc_index : ∀ r i, r ∈ t_nodes T → token_index r = Some i → (i < u32_max)%N;
  sc_token : ∀ r, r ∈ t_nodes T → is_Some (token_index r) → (nr_left_char r <= nr_right_char r)%N;
  sc_order : ∀ r r' i j, r ∈ t_nodes T → r' ∈ t_nodes T → in_same_text r r' → token_index r = Some i → token_index r' = Some j → (i < j)%N → (nr_right_char r <= nr_left_char r')%N
}.
(** All of this together: the tables describe a corpus *)
Record sound_corpus (t : ctree) (v33 : bool) (T : tables) : Prop := {
  so_tables : sound_tables t T; so_ranks : sound_ranks T; so_texts : sound_texts t v33 T;
  so_tokens : sound_tokens T; so_chars : sound_chars T; so_refs : sound_refs v33 T }.
(** The names of the linked files do not contain a hash *)
Definition sound_files (ext : option bytes → list (bytes * bytes)) : Prop := ∀ d f, f ∈ ext d → hash ∉ f.1.
(** No annotation has the key of the name of the node *)
Definition no_names (T : tables) : Prop := Forall (λ a, AnnoKey (ar_name a) (ar_ns a) ≠ node_name_key) (t_nannos T ++ t_cannos T).
(** ** Documents with the same name *)
(** The number of documents with the name among the rows *)
Definition occurrences (n : bytes) (rs : list crow) : nat := length (filter (λ r, cr_doc r = true ∧ cr_name r = n) rs).
Definition with_name (r : crow) (n : bytes) : crow := CRow (cr_id r) n (cr_doc r) (cr_pre r) (cr_post r).
(** From the second one on, the documents with a name get a number *)
Definition renamed_row (before : list crow) (r : crow) : crow :=
  if decide (cr_doc r = true ∧ occurrences (cr_name r) before ≠ 0) then with_name r (duplicate_name (cr_name r) (N.of_nat (S (occurrences (cr_name r) before)))) else r.
Definition renamed (rs : list crow) : list crow := imap (λ i r, renamed_row (take i rs) r) rs.
Definition with_corpora (T : tables) (rs : list crow) : tables := Tables rs (t_text T) (t_cannos T) (t_nodes T) (t_nannos T) (t_comps T) (t_ranks T) (t_eannos T).
(** No document has such a name already *)
Definition no_duplicate_names (rs : list crow) : Prop := Forall (λ r, ∀ n k, cr_name r ≠ duplicate_name n k) rs.
(** The graph after the import *)
Definition imported (v33 : bool) (ext : option bytes → list (bytes * bytes)) (T : tables) (G : lgraph) : Prop :=
  ∃ top es, import_events v33 ext T = Some (top, es) ∧ G = lg_run annis_ctype lg_empty es.
