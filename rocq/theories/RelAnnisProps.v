(** Properties of the import of corpora in the relANNIS format. *)
From Coq Require Import NArith String Lia.
From stdpp Require Import base list gmap pretty.
From Verif Require Import KeySer KeySerSpec SortedMap Types SymbolTable CompPath GraphUpdate GraphApply GraphApplySpec GraphApplyProps RelAnnis RelAnnisSpec RelAnnisFields RelAnnisFilesSpec RelAnnisFiles
  RelAnnisTree RelAnnisNames RelAnnisParts RelAnnisGraph RelAnnisEdges RelAnnisOrder RelAnnisCoverage RelAnnisCorpora RelAnnisTotal RelAnnisText RelAnnisApply RelAnnisDuplicates RelAnnisExample.

(** ** C59: the tables survive being written to files and read *)
Theorem C59_tables_partial : ∀ v33 T, writable v33 T → parse_files v33 (write_files v33 T) = Some T.
Proof. exact files_written. Qed.
Example C59_tables_case : writable true (ex_tables (str "top")) ∧ f_text (write_files true (ex_tables (str "top"))) = str "1	0	text	  The cat.
".
Proof. split; [exact ex_writable|vm_compute; reflexivity]. Qed.
Theorem C59_field : ∀ s, escape_field (escape_value s) = s ∧ Forall (λ b, b ≠ 9 ∧ b ≠ 10 ∧ b ≠ 13)%N (escape_value s).
Proof. intros s. split; [apply escape_round|apply escape_value_plain]. Qed.
(** The missing case of C59_tables_partial: the value "NULL" is read as missing value, and the name "NULL" is an error *)
Theorem C59_null_refuted :
  (∃ r, parse_arow u32_max (write_field <$> arow_fields r) = Some (ARow (ar_id r) (ar_ns r) (ar_name r) None) ∧ ar_val r = Some (str "NULL")) ∧
  ∃ r, parse_crow (write_field <$> crow_fields r) = None.
Proof.
  split; [exists (ARow 1 (str "ns") (str "lemma") (Some (str "NULL")))|exists (CRow 1 (str "NULL") true 1 2)]; vm_compute; [split|]; reflexivity.
Qed.

(** ** C60: names *)
(** Different nodes, and nodes, corpora and documents, have different names *)
Theorem C60_names_partial : ∀ t T, sound_tables t T →
  (∀ r, r ∈ t_nodes T → ∃ n, row_name t r n) ∧
  (∀ r r' n, r ∈ t_nodes T → r' ∈ t_nodes T → row_name t r n → row_name t r' n → r = r') ∧
  (∀ i j p q, (i, p) ∈ tree_paths [] t → (j, q) ∈ tree_paths [] t → path_name p = path_name q → i = j ∧ p = q) ∧
  (∀ r n i p, row_name t r n → (i, p) ∈ tree_paths [] t → n ≠ path_name p).
Proof.
  intros t T ST. split; [|split; [|split]].
  - exact (row_name_exists t T ST).
  - exact (row_name_inj t T ST).
  - exact (corpus_name_inj t T ST).
  - intros r n i p Hn Hp ->. apply (corpus_name_no_hash t T ST i p Hp). by eapply row_name_hash.
Qed.
(** Missing: names of documents with a hash. The node "c" of the document "a#b" has the name of the node "b#c" of the document "a" *)
Definition hash_tree : ctree := CT 0 (str "top") false [CT 1 (str "a#b") true []; CT 2 (str "a") true []].
Definition hash_rows : list nrow := [NRow 1 0 1 None (str "c") 0 0 0 0 KPlain; NRow 2 0 2 None (str "b#c") 0 0 0 0 KPlain].
Definition hash_tables : tables := Tables (tree_rows 0 hash_tree).1 [] [] hash_rows [] [] [] [].
Theorem C60_hash_refuted : NoDup (nr_id <$> t_nodes hash_tables) ∧ NoDup ((λ r, (nr_corpus r, nr_name r)) <$> t_nodes hash_tables) ∧ distinct_names hash_tree ∧
  Forall (λ r, row_name hash_tree r (str "top/a#b#c")) (t_nodes hash_tables) ∧ length (t_nodes hash_tables) = 2 ∧
  (match import_events true (λ _, []) hash_tables with Some (_, es) => filter (λ n, n = str "top/a#b#c") (omap (λ e, match e with AddNode n _ => Some n | _ => None end) es) = [str "top/a#b#c"; str "top/a#b#c"] | None => False end).
Proof.
  split; [compute_it|]. split; [compute_it|]. split; [split; [compute_it|]; repeat split; constructor|]. split; [|split; vm_compute; reflexivity].
  apply List.Forall_cons; [exists [str "top"; str "a#b"]|apply List.Forall_cons; [exists [str "top"; str "a"]|apply List.Forall_nil]]; (split; [compute_it|vm_compute; reflexivity]).
Qed.
(** Documents with the same name get a number, and after that all documents have different names. Then the other theorems are about the table with
    these names *)
Theorem C60_duplicates_partial : ∀ v33 ext T, no_duplicate_names (t_corpus T) →
  NoDup (cr_name <$> filter (λ r, cr_doc r = true) (renamed (t_corpus T))) ∧
  import_events v33 ext T = import_events v33 ext (with_corpora T (renamed (t_corpus T))).
Proof. intros v33 ext T H. split; [by apply renamed_distinct|by apply import_renamed]. Qed.
Definition twice : list crow := [CRow 1 (str "d") true 2 3; CRow 2 (str "d") true 5 6; CRow 3 (str "b") false 4 7; CRow 4 (str "a") false 1 8; CRow 0 (str "top") false 0 9].
Lemma short_names rs : Forall (λ r, length (cr_name r) < 20) rs → no_duplicate_names rs.
Proof.
  intros H. eapply Forall_impl; [exact H|]. intros r Hr n k E. cbn in Hr. rewrite E in Hr. unfold duplicate_name in Hr. rewrite !app_length in Hr.
  assert (length (str "_duplicated_document_name_") = 26) as El by (vm_compute; reflexivity). rewrite El in Hr. lia.
Qed.
Example C60_duplicates_case : no_duplicate_names twice ∧ cr_name <$> renamed twice = [str "d"; str "d_duplicated_document_name_2"; str "b"; str "a"; str "top"].
Proof. split; [apply short_names; repeat constructor; vm_compute; lia|vm_compute; reflexivity]. Qed.
(** Missing: such a name can be in the table already *)
Theorem C60_duplicates_refuted : ∃ rs, NoDup (cr_id <$> rs) ∧ rename_documents ∅ rs = renamed rs ∧ ¬ NoDup (cr_name <$> filter (λ r, cr_doc r = true) (renamed rs)).
Proof.
  exists [CRow 1 (str "d") true 1 2; CRow 2 (str "d") true 3 4; CRow 3 (str "d_duplicated_document_name_2") true 5 6].
  split; [compute_it|]. split; [apply rename_spec|]. intros H. apply (bool_decide_pack _) in H. revert H. vm_compute. exact id.
Qed.

(** ** C61: the graph has the nodes, annotations and edges of the tables *)
Theorem C61_succeeds_partial : ∀ t v33 T ext, sound_corpus t v33 T → ∃ es, import_events v33 ext T = Some (ct_name t, es).
Proof. intros t v33 T ext S. apply import_total; apply S. Qed.
Theorem C61_nodes_partial : ∀ t v33 T ext G, sound_corpus t v33 T → sound_files ext → imported v33 ext T G → ∀ n,
  is_node G n ↔ (∃ r, r ∈ t_nodes T ∧ row_name t r n) ∨ n = ct_name t ∨ (∃ i p, below t i p ∧ n = path_name p) ∨ file_name t ext n ∨
    (∃ i c name val p, text_of v33 T i c name val ∧ below t c p ∧ n = text_name p name).
Proof.
  intros t v33 T ext G S F (top & es & H & ->). destruct (import_parts t T (so_tables _ _ _ S) _ _ _ _ H) as (ct & e1 & e2 & e3 & e5 & e6 & e8 & e9 & k & PA).
  intros n. exact (graph_nodes t T (so_tables _ _ _ S) v33 (so_texts _ _ _ S) ext F _ _ _ _ _ _ _ _ _ _ _ PA n).
Qed.
Theorem C61_annotations_partial : ∀ t v33 T ext G, sound_corpus t v33 T → sound_files ext → imported v33 ext T G → ∀ r n,
  r ∈ t_nodes T → row_name t r n → ∀ k, ak_ns k ≠ annis_ns → lg_labels G !! (n, k) = annotation (t_nannos T) (nr_id r) k.
Proof.
  intros t v33 T ext G S F (top & es & H & ->). destruct (import_parts t T (so_tables _ _ _ S) _ _ _ _ H) as (ct & e1 & e2 & e3 & e5 & e6 & e8 & e9 & k & PA).
  intros r n Hr Hn kk Hk. exact (graph_annotation t T (so_tables _ _ _ S) v33 ext F _ _ _ _ _ _ _ _ _ _ _ PA n kk r Hr Hn Hk).
Qed.
Theorem C61_token_partial : ∀ t v33 T ext G, sound_corpus t v33 T → sound_files ext → imported v33 ext T G → ∀ r n,
  r ∈ t_nodes T → row_name t r n → lg_labels G !! (n, AnnoKey (str "tok") annis_ns) =
    match nr_kind r with
    | KTok _ span => Some span
    | KSeg s _ (Some span) => Some span
    | KSeg s _ None => last (omap ar_val (filter (λ a, ar_id a = nr_id r ∧ ar_name a = s ∧ AnnoKey (ar_name a) (ar_ns a) ≠ AnnoKey (str "tok") annis_ns) (t_nannos T)))
    | KPlain => None
    end.
Proof.
  intros t v33 T ext G S F (top & es & H & ->). destruct (import_parts t T (so_tables _ _ _ S) _ _ _ _ H) as (ct & e1 & e2 & e3 & e5 & e6 & e8 & e9 & k & PA).
  intros r n Hr Hn. exact (graph_tok t T (so_tables _ _ _ S) v33 ext F _ _ _ _ _ _ _ _ _ _ _ PA n r Hr Hn).
Qed.
Theorem C61_layer_partial : ∀ t v33 T ext G, sound_corpus t v33 T → sound_files ext → imported v33 ext T G → ∀ r n,
  r ∈ t_nodes T → row_name t r n → Forall (λ a, ¬ (ar_id a = nr_id r ∧ AnnoKey (ar_name a) (ar_ns a) = AnnoKey (str "layer") annis_ns)) (t_nannos T) →
  lg_labels G !! (n, AnnoKey (str "layer") annis_ns) = match nr_layer r with Some ((_ :: _) as l) => Some l | _ => None end.
Proof.
  intros t v33 T ext G S F (top & es & H & ->). destruct (import_parts t T (so_tables _ _ _ S) _ _ _ _ H) as (ct & e1 & e2 & e3 & e5 & e6 & e8 & e9 & k & PA).
  intros r n Hr Hn Hl. exact (graph_layer t T (so_tables _ _ _ S) v33 ext F _ _ _ _ _ _ _ _ _ _ _ PA n r Hr Hn Hl).
Qed.
(** Metadata of the corpora and documents, and the label of the documents *)
Theorem C61_metadata_partial : ∀ t v33 T ext G, sound_corpus t v33 T → sound_files ext → imported v33 ext T G → ∀ k, ak_ns k ≠ annis_ns →
  lg_labels G !! (ct_name t, k) = annotation (t_cannos T) (ct_id t) k ∧
  ∀ i p, below t i p → lg_labels G !! (path_name p, k) = annotation (t_cannos T) i k.
Proof.
  intros t v33 T ext G S F (top & es & H & ->). destruct (import_parts t T (so_tables _ _ _ S) _ _ _ _ H) as (ct & e1 & e2 & e3 & e5 & e6 & e8 & e9 & k & PA).
  intros kk Hk. split.
  - exact (graph_top_meta t T (so_tables _ _ _ S) v33 ext F _ _ _ _ _ _ _ _ _ _ _ PA kk Hk).
  - intros i p Hp. exact (graph_meta t T (so_tables _ _ _ S) v33 ext F _ _ _ _ _ _ _ _ _ _ _ PA i p kk Hp Hk).
Qed.
Theorem C61_document_partial : ∀ t v33 T ext G, sound_corpus t v33 T → sound_files ext → imported v33 ext T G →
  ∀ i q z doc cs, below t i (q ++ [z]) → subtree t (CT i z doc cs) →
  lg_labels G !! (path_name (q ++ [z]), AnnoKey (str "doc") annis_ns) =
    match annotation (t_cannos T) i (AnnoKey (str "doc") annis_ns) with Some v => Some v | None => if decide (cs = []) then Some z else None end.
Proof.
  intros t v33 T ext G S F (top & es & H & ->). destruct (import_parts t T (so_tables _ _ _ S) _ _ _ _ H) as (ct & e1 & e2 & e3 & e5 & e6 & e8 & e9 & k & PA).
  intros i q z doc cs Hb Hs. exact (graph_doc t T (so_tables _ _ _ S) v33 ext F _ _ _ _ _ _ _ _ _ _ _ PA i q z doc cs Hb Hs).
Qed.
(** Dominance and pointing edges are exactly those of the rank table, and all edges of the table are in the graph *)
Theorem C61_edges_partial : ∀ t v33 T ext G, sound_corpus t v33 T → sound_files ext → imported v33 ext T G →
  (∀ c a b, c.1.1 = 2%N ∨ c.1.1 = 3%N → (c, (a, b)) ∈ lg_edges G ↔ a ≠ b ∧ ∃ r, edge_of_rank t T r c a b) ∧
  ∀ r c a b, edge_of_rank t T r c a b → a ≠ b → (c, (a, b)) ∈ lg_edges G.
Proof.
  intros t v33 T ext G S F (top & es & H & ->). destruct (import_parts t T (so_tables _ _ _ S) _ _ _ _ H) as (ct & e1 & e2 & e3 & e5 & e6 & e8 & e9 & k & PA). split.
  - exact (graph_other_edges t T (so_tables _ _ _ S) (so_ranks _ _ _ S) v33 ext F _ _ _ _ _ _ _ _ _ _ _ PA).
  - exact (graph_rank_edge t T (so_tables _ _ _ S) (so_ranks _ _ _ S) v33 ext F _ _ _ _ _ _ _ _ _ _ _ PA).
Qed.
Theorem C61_edge_annotations_partial : ∀ t v33 T ext G, sound_corpus t v33 T → sound_files ext → imported v33 ext T G → ∀ c a b k v, a ≠ b →
  lg_elabels G !! (c, (a, b), k) = Some v ↔
  ∃ l1 e l2, t_eannos T = l1 ++ e :: l2 ∧ edge_annotation t T c a b k e ∧ v = default char_max (er_val e) ∧ ∀ e', e' ∈ l2 → ¬ edge_annotation t T c a b k e'.
Proof.
  intros t v33 T ext G S F (top & es & H & ->). destruct (import_parts t T (so_tables _ _ _ S) _ _ _ _ H) as (ct & e1 & e2 & e3 & e5 & e6 & e8 & e9 & k & PA).
  exact (graph_edge_label t T (so_tables _ _ _ S) (so_ranks _ _ _ S) v33 ext F _ _ _ _ _ _ _ _ _ _ _ PA).
Qed.
(** The events can be applied to an empty graph, and the stored graph is the one of the other theorems *)
Theorem C61_applied_partial : ∀ t v33 T ext top es u, sound_corpus t v33 T → sound_files ext → no_names T → import_events v33 ext T = Some (top, es) →
  u.*2 = es → (N.of_nat (2 * length u) <= usize_max)%N →
  ∃ st, apply_updates annis_ctype g_empty [u] = Some st ∧ observes st (lg_run annis_ctype lg_empty es).
Proof.
  intros t v33 T ext top es u S F N H <- Hl. pose proof (import_history t T v33 ext top _ (so_tables _ _ _ S) F N H) as Hh.
  destruct (C22_updates_succeed annis_ctype [u] Hh) as [st Hst]; [cbn [concat]; by rewrite app_nil_r|]. exists st. split; [exact Hst|].
  exact (C22_updates_applied_partial annis_ctype [u] st Hst Hh).
Qed.
Example C61_case : sound_corpus (ex_tree (str "top")) true (ex_tables (str "top")) ∧ sound_files ex_ext ∧ no_names (ex_tables (str "top")) ∧
  imported true ex_ext (ex_tables (str "top")) (lg_run annis_ctype lg_empty (ex_events (str "top"))).
Proof.
  split; [apply ex_sound; compute_it|]. split; [exact ex_files|]. split; [compute_it|]. exists (str "top"), (ex_events (str "top")). split; [exact ex_import|reflexivity].
Qed.
Example C61_values : let G := lg_run annis_ctype lg_empty (ex_events (str "top")) in
  lg_labels G !! (str "top/d1#s", AnnoKey (str "cat") (str "ns")) = Some (str "NP") ∧ lg_labels G !! (str "top/d1#s", AnnoKey (str "layer") annis_ns) = Some (str "mylayer") ∧
  lg_labels G !! (str "top/d1#t2", AnnoKey (str "tok") annis_ns) = Some (str "cat") ∧ lg_labels G !! (str "top/d1", AnnoKey (str "author") []) = Some (str "X") ∧
  lg_labels G !! (str "top/sub/d2", AnnoKey (str "doc") annis_ns) = Some (str "d2") ∧
  lg_elabels G !! ((2%N, str "syntax", str "edge"), (str "top/d1#v", str "top/d1#s"), AnnoKey (str "func") (str "ns")) = Some (str "obj").
Proof. cbv zeta. repeat split; vm_compute; reflexivity. Qed.
(** A text with the name of a node of its document is not a node of its own *)
Theorem C61_text_name_refuted : ∃ t T G n, sound_corpus t true T ∧ imported true (λ _, []) T G ∧ text_of true T 0 1 (str "x") (str "abc") ∧ below t 1 [str "top"; str "d1"] ∧
  n = text_name [str "top"; str "d1"] (str "x") ∧ lg_labels G !! (n, node_type_key) = Some (str "node").
Proof.
  set (T := Tables (tree_rows 0 (ex_tree (str "top"))).1 [TRow 0 (Some 1%N) (str "x") (str "abc")] [] [NRow 1 0 1 None (str "x") 0 3 0 0 (KTok 0 (str "abc"))] [] [] [] []).
  exists (ex_tree (str "top")), T, (lg_run annis_ctype lg_empty (match import_events true (λ _, []) T with Some x => x.2 | None => [] end)), (str "top/d1#x").
  split; [|split; [|split; [|split; [|split]]]].
  - constructor; try (constructor; compute_it).
    + constructor; try compute_it. reflexivity.
    + split; [compute_it|]. split; [apply Forall_forall; intros r Hr; apply elem_of_list_singleton in Hr as ->; split; [done|by eexists]|]. split; [compute_it|].
      intros i c name val (r & Hr & _ & _ & _ & Hc). apply elem_of_list_singleton in Hr as ->. by injection Hc as <-.
    + constructor; try compute_it. apply Forall_forall. intros r Hr s i v H. apply elem_of_list_singleton in Hr as ->. discriminate H.
    + constructor; cbn [t_nodes T].
      * intros r i Hr Hi. apply elem_of_list_singleton in Hr as ->. injection Hi as <-. by vm_compute.
      * intros r Hr _. apply elem_of_list_singleton in Hr as ->. by vm_compute.
      * intros r r' i j Hr Hr' _ Hi Hj Hij. apply elem_of_list_singleton in Hr as ->. apply elem_of_list_singleton in Hr' as ->. rewrite Hi in Hj. injection Hj as ->. lia.
    + constructor.
      * constructor.
      * intros i c name val (r & Hr & _ & _ & _ & Hc). apply elem_of_list_singleton in Hr as ->. injection Hc as <-. compute_it.
      * intros r i j c (Hr & _). by apply elem_of_nil in Hr.
      * constructor.
  - exists (str "top"). eexists. split; [|reflexivity]. vm_compute. reflexivity.
  - exists (TRow 0 (Some 1%N) (str "x") (str "abc")). split; [by apply elem_of_list_singleton|]. done.
  - split; [compute_it|done].
  - vm_compute. reflexivity.
  - vm_compute. reflexivity.
Qed.

(** ** C62: order and coverage *)
(** A token (or node of a segmentation) has an ordering edge to the next one of the same text, and to no other *)
Theorem C62_order_partial : ∀ t v33 T ext G, sound_corpus t v33 T → sound_files ext → imported v33 ext T G → ∀ c a b, c.1.1 = 4%N →
  (c, (a, b)) ∈ lg_edges G ↔ a ≠ b ∧ ((∃ s r r', c = order_comp s ∧ next_in_order T s r r' ∧ row_name t r a ∧ row_name t r' b) ∨ ∃ r, edge_of_rank t T r c a b).
Proof.
  intros t v33 T ext G S F (top & es & H & ->). destruct (import_parts t T (so_tables _ _ _ S) _ _ _ _ H) as (ct & e1 & e2 & e3 & e5 & e6 & e8 & e9 & k & PA).
  exact (graph_order t T (so_tables _ _ _ S) (so_ranks _ _ _ S) (so_tokens _ _ _ S) v33 ext F _ _ _ _ _ _ _ _ _ _ _ PA).
Qed.
(** A node has a coverage edge to each token it covers *)
Theorem C62_covered_partial : ∀ t v33 T ext G, sound_corpus t v33 T → sound_files ext → imported v33 ext T G → ∀ r x a b,
  covers T r x → row_name t r a → row_name t x b → ∃ c, c.1.1 = 0%N ∧ (c, (a, b)) ∈ lg_edges G.
Proof.
  intros t v33 T ext G S F (top & es & H & ->). destruct (import_parts t T (so_tables _ _ _ S) _ _ _ _ H) as (ct & e1 & e2 & e3 & e5 & e6 & e8 & e9 & k & PA).
  exact (graph_coverage t T (so_tables _ _ _ S) (so_ranks _ _ _ S) (so_tokens _ _ _ S) v33 ext F _ _ _ _ _ _ _ _ _ _ _ PA).
Qed.
(** and the other coverage edges are in the rank table *)
Theorem C62_only_covered_partial : ∀ t v33 T ext G, sound_corpus t v33 T → sound_files ext → imported v33 ext T G → ∀ c a b, c.1.1 = 0%N → (c, (a, b)) ∈ lg_edges G →
  (∃ r, edge_of_rank t T r c a b) ∨ ∃ r x, covers T r x ∧ row_name t r a ∧ row_name t x b ∧ auto_comp T (nr_id r) c.
Proof.
  intros t v33 T ext G S F (top & es & H & ->). destruct (import_parts t T (so_tables _ _ _ S) _ _ _ _ H) as (ct & e1 & e2 & e3 & e5 & e6 & e8 & e9 & k & PA).
  exact (graph_coverage_only t T (so_tables _ _ _ S) (so_ranks _ _ _ S) (so_tokens _ _ _ S) v33 ext F _ _ _ _ _ _ _ _ _ _ _ PA).
Qed.
Example C62_case : covers (ex_tables (str "top")) ex_s ex_t2 ∧ next_in_order (ex_tables (str "top")) [] ex_t1 ex_t2 ∧
  ((0%N, str "exm", []), (str "top/d1#s", str "top/d1#t2")) ∈ lg_edges (lg_run annis_ctype lg_empty (ex_events (str "top"))) ∧
  ((4%N, annis_ns, []), (str "top/d1#t1", str "top/d1#t2")) ∈ lg_edges (lg_run annis_ctype lg_empty (ex_events (str "top"))).
Proof.
  split; [|split; [|split; compute_it]].
  - split; [right; right; left|]. split; [reflexivity|]. split; [right; left|]. split; [split; reflexivity|]. exists ex_t1, ex_t2, 0%N, 1%N, 1%N. split; [|split; [reflexivity|split; [reflexivity|split; [reflexivity|split; [lia|]]]]].
    + left. split; (split; [first [left | right; left]|]; split; [eexists; reflexivity|]; split; [split; reflexivity|reflexivity]).
    + intros h Hh. destruct (decide (h = 0%N)) as [-> |Hne].
      * exists ex_t1. split; [left|]. split; [split; reflexivity|reflexivity].
      * exists ex_t2. split; [right; left|]. split; [split; reflexivity|]. assert (h = 1%N) as -> by lia. reflexivity.
  - split; [left|]. split; [right; left|]. exists 1%N, 0%N, 0%N, 1%N. split; [reflexivity|]. split; [reflexivity|]. split; [lia|]. intros r'' k _ _. lia.
Qed.

(** ** C63: the part-of hierarchy *)
Theorem C63_hierarchy_partial : ∀ t v33 T ext G, sound_corpus t v33 T → sound_files ext → imported v33 ext T G →
  encode_name (ct_name t) = ct_name t →
  (∀ c a b, c.1.1 = 7%N → (c, (a, b)) ∈ lg_edges G ↔ c = part_of_comp ∧ part t v33 T ext a b ∧ a ≠ b) ∧
  (∀ i p, (i, p) ∈ tree_paths [] t → rtc (λ a b, (part_of_comp, (a, b)) ∈ lg_edges G) (path_name p) (ct_name t)) ∧
  (∀ r n name val, r ∈ t_nodes T → row_name t r n → text_of v33 T (nr_text r) (nr_corpus r) name val →
    rtc (λ a b, (part_of_comp, (a, b)) ∈ lg_edges G) n (ct_name t)).
Proof.
  intros t v33 T ext G S F (top & es & H & ->) E. destruct (import_parts t T (so_tables _ _ _ S) _ _ _ _ H) as (ct & e1 & e2 & e3 & e5 & e6 & e8 & e9 & k & PA). split; [|split].
  - intros c a b Hc. split.
    + exact (part_only t T (so_tables _ _ _ S) (so_ranks _ _ _ S) v33 (so_texts _ _ _ S) ext F _ _ _ _ _ _ _ _ _ _ _ PA c a b Hc).
    + intros (-> & Hp & Hne). exact (part_in t T (so_tables _ _ _ S) v33 (so_texts _ _ _ S) ext F _ _ _ _ _ _ _ _ _ _ _ PA a b E Hp Hne).
  - intros i p Hp. exact (reach_corpus t T (so_tables _ _ _ S) v33 (so_texts _ _ _ S) ext F _ _ _ _ _ _ _ _ _ _ _ PA E p i Hp).
  - intros r n name val Hr Hn Ht. exact (reach_node t T (so_tables _ _ _ S) v33 (so_texts _ _ _ S) ext F _ _ _ _ _ _ _ _ _ _ _ PA r n name val E Hr Hn Ht).
Qed.
Example C63_case : encode_name (ct_name (ex_tree (str "top"))) = ct_name (ex_tree (str "top")) ∧
  let G := lg_run annis_ctype lg_empty (ex_events (str "top")) in
  (part_of_comp, (str "top/d1#s", str "top/d1#text")) ∈ lg_edges G ∧ (part_of_comp, (str "top/d1#text", str "top/d1")) ∈ lg_edges G ∧
  (part_of_comp, (str "top/d1", str "top")) ∈ lg_edges G ∧ (part_of_comp, (str "top/sub/d2", str "top/sub")) ∈ lg_edges G ∧ (part_of_comp, (str "top/d1/a.wav", str "top/d1")) ∈ lg_edges G.
Proof. split; [vm_compute; reflexivity|]. cbv zeta. repeat split; compute_it. Qed.
(** Missing: top-level corpora with a name that is changed by percent encoding. Then the documents are not part of the corpus: if the name contains
    a space, the document has no edges *)
Theorem C63_space_refuted : ∃ t v33 T ext G d, sound_corpus t v33 T ∧ sound_files ext ∧ imported v33 ext T G ∧ (3%N, [str "my corpus"; str "sub"; str "d2"]) ∈ tree_paths [] t ∧
  below t 2 [str "my corpus"; str "sub"] ∧ d = path_name [str "my corpus"; str "sub"] ∧ is_node G d ∧ is_node G (ct_name t) ∧ ∀ c b, (c, (d, b)) ∉ lg_edges G.
Proof.
  exists (ex_tree (str "my corpus")), true, (ex_tables (str "my corpus")), ex_ext, (lg_run annis_ctype lg_empty (ex_events (str "my corpus"))), (str "my%20corpus/sub").
  split; [apply ex_sound; compute_it|]. split; [exact ex_files|]. split; [exists (str "my corpus"), (ex_events (str "my corpus")); split; [vm_compute; reflexivity|reflexivity]|].
  split; [compute_it|]. split; [split; [compute_it|done]|]. split; [vm_compute; reflexivity|]. split; [eexists; vm_compute; reflexivity|]. split; [eexists; vm_compute; reflexivity|].
  assert (Forall (λ x : comp * (bytes * bytes), x.2.1 ≠ str "my%20corpus/sub") (elements (lg_edges (lg_run annis_ctype lg_empty (ex_events (str "my corpus")))))) as H by compute_it.
  intros c b Hin. rewrite Forall_forall in H. exact (H (c, (str "my%20corpus/sub", b)) (proj2 (elem_of_elements _ _) Hin) eq_refl).
Qed.
(** Missing too: nodes directly in the top-level corpus. Their text is part of a node that does not exist *)
Theorem C63_top_level_refuted : ∃ T top es, import_events true (λ _, []) T = Some (top, es) ∧ top = str "top" ∧ cr_name <$> t_corpus T = [str "top"] ∧ length (t_nodes T) = 1 ∧
  is_node (lg_run annis_ctype lg_empty es) (str "/top#n") ∧ (∀ b, (part_of_comp, (b, str "top")) ∉ lg_edges (lg_run annis_ctype lg_empty es)).
Proof.
  exists (Tables [CRow 0 (str "top") false 0 1] [TRow 0 (Some 0%N) (str "text") (str "abc")] [] [NRow 1 0 0 None (str "n") 0 3 0 0 (KTok 0 (str "abc"))] [] [] [] []), (str "top"). eexists.
  split; [vm_compute; reflexivity|]. split; [reflexivity|]. split; [reflexivity|]. split; [reflexivity|]. split; [eexists; vm_compute; reflexivity|].
  match goal with |- ∀ b, (_, (b, _)) ∉ lg_edges ?G => assert (Forall (λ x : comp * (bytes * bytes), x.2.2 ≠ str "top") (elements (lg_edges G))) as H by compute_it end.
  intros b Hin. rewrite Forall_forall in H. exact (H (part_of_comp, (b, str "top")) (proj2 (elem_of_elements _ _) Hin) eq_refl).
Qed.

(** ** C64: the text between tokens *)
(** After a token: the text up to the next token, or to the end of the text *)
Theorem C64_after_partial : ∀ t v33 T ext G, sound_corpus t v33 T → sound_files ext → imported v33 ext T G → ∀ n r name val,
  r ∈ t_nodes T → is_Some (token_index r) → row_name t r n → text_of v33 T (nr_text r) (nr_corpus r) name val →
  (∀ r', next_in_order T [] r r' → lg_labels G !! (n, AnnoKey (str "tok-whitespace-after") annis_ns) = Some (slice (nr_right_char r) (nr_left_char r') val)) ∧
  ((∀ r', ¬ next_in_order T [] r r') → lg_labels G !! (n, AnnoKey (str "tok-whitespace-after") annis_ns) = Some (slice_end (nr_right_char r) val)).
Proof.
  intros t v33 T ext G S F (top & es & H & ->). destruct (import_parts t T (so_tables _ _ _ S) _ _ _ _ H) as (ct & e1 & e2 & e3 & e5 & e6 & e8 & e9 & k & PA).
  exact (graph_after t T (so_tables _ _ _ S) (so_tokens _ _ _ S) (so_chars _ _ _ S) v33 (so_texts _ _ _ S) ext F _ _ _ _ _ _ _ _ _ _ _ PA).
Qed.
(** Before the first token: the text without its last character *)
Theorem C64_before_partial : ∀ t v33 T ext G, sound_corpus t v33 T → sound_files ext → imported v33 ext T G → ∀ n r name val,
  r ∈ t_nodes T → is_Some (token_index r) → row_name t r n → text_of v33 T (nr_text r) (nr_corpus r) name val →
  (∀ r', ¬ next_in_order T [] r' r) → (0 < nr_left_char r)%N → lg_labels G !! (n, AnnoKey (str "tok-whitespace-before") annis_ns) = Some (slice 0 (nr_left_char r - 1) val).
Proof.
  intros t v33 T ext G S F (top & es & H & ->). destruct (import_parts t T (so_tables _ _ _ S) _ _ _ _ H) as (ct & e1 & e2 & e3 & e5 & e6 & e8 & e9 & k & PA).
  exact (graph_before t T (so_tables _ _ _ S) (so_tokens _ _ _ S) (so_chars _ _ _ S) v33 (so_texts _ _ _ S) ext F _ _ _ _ _ _ _ _ _ _ _ PA).
Qed.
(** The positions count characters: a text that is the concatenation of characters (a first byte, and continuation bytes 10xxxxxx) is cut
    between them *)
Theorem C64_chars : ∀ cs i j, Forall utf8_char cs → slice i j (concat cs) = concat (take (N.to_nat j - N.to_nat i) (drop (N.to_nat i) cs)) ∧ slice_end i (concat cs) = concat (drop (N.to_nat i) cs).
Proof. exact slice_chars. Qed.
Example C64_chars_case : Forall utf8_char [[195; 164]; [32]; [98]]%N ∧ slice 1 3 [195; 164; 32; 98]%N = [32; 98]%N.
Proof.
  split; [|vm_compute; reflexivity].
  apply List.Forall_cons; [exists 195%N, [164%N]; split; [done|]; split; [lia|]; apply List.Forall_cons; [lia|apply List.Forall_nil]|].
  apply List.Forall_cons; [exists 32%N, []; split; [done|]; split; [lia|apply List.Forall_nil]|].
  apply List.Forall_cons; [exists 98%N, []; split; [done|]; split; [lia|apply List.Forall_nil]|apply List.Forall_nil].
Qed.
Example C64_case : let G := lg_run annis_ctype lg_empty (ex_events (str "top")) in
  lg_labels G !! (str "top/d1#t1", AnnoKey (str "tok-whitespace-after") annis_ns) = Some (str " ") ∧
  lg_labels G !! (str "top/d1#t2", AnnoKey (str "tok-whitespace-after") annis_ns) = Some (str ".").
Proof. cbv zeta. split; vm_compute; reflexivity. Qed.
(** So the text before the first token is not the one in the table: of two spaces, one is lost *)
Theorem C64_before_refuted : ∃ t T ext G r, sound_corpus t true T ∧ imported true ext T G ∧ r ∈ t_nodes T ∧ row_name t r (str "top/d1#t1") ∧
  text_of true T (nr_text r) (nr_corpus r) (str "text") (str "  The cat.") ∧ slice 0 (nr_left_char r) (str "  The cat.") = str "  " ∧
  lg_labels G !! (str "top/d1#t1", AnnoKey (str "tok-whitespace-before") annis_ns) = Some (str " ").
Proof.
  exists (ex_tree (str "top")), (ex_tables (str "top")), ex_ext, (lg_run annis_ctype lg_empty (ex_events (str "top"))), ex_t1.
  split; [apply ex_sound; compute_it|]. split; [exists (str "top"), (ex_events (str "top")); split; [exact ex_import|reflexivity]|]. split; [left|].
  split; [exists [str "top"; str "d1"]; split; [compute_it|vm_compute; reflexivity]|]. split; [|split; vm_compute; reflexivity].
  exists ex_text. split; [by apply elem_of_list_singleton|]. repeat split; reflexivity.
Qed.

Print Assumptions C59_tables_partial.
Print Assumptions C59_field.
Print Assumptions C59_null_refuted.
Print Assumptions C60_names_partial.
Print Assumptions C60_hash_refuted.
Print Assumptions C60_duplicates_partial.
Print Assumptions C60_duplicates_refuted.
Print Assumptions C61_succeeds_partial.
Print Assumptions C61_nodes_partial.
Print Assumptions C61_annotations_partial.
Print Assumptions C61_token_partial.
Print Assumptions C61_layer_partial.
Print Assumptions C61_metadata_partial.
Print Assumptions C61_document_partial.
Print Assumptions C61_edges_partial.
Print Assumptions C61_edge_annotations_partial.
Print Assumptions C61_applied_partial.
Print Assumptions C61_text_name_refuted.
Print Assumptions C62_order_partial.
Print Assumptions C62_covered_partial.
Print Assumptions C62_only_covered_partial.
Print Assumptions C63_hierarchy_partial.
Print Assumptions C63_space_refuted.
Print Assumptions C63_top_level_refuted.
Print Assumptions C64_after_partial.
Print Assumptions C64_before_partial.
Print Assumptions C64_chars.
Print Assumptions C64_before_refuted.
