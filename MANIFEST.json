{
 "claims": [
  {
   "property": "C01",
   "status": "proved",
   "theorems": [
    "C01_symbol_table_refines_map",
    "C01_symbols_injective"
   ],
   "note": "Full refinement of every history to an abstract symbol map."
  },
  {
   "property": "C02",
   "status": "partial",
   "theorems": [
    "C02_uint_key_roundtrip",
    "C02_uint_key_length",
    "C02_uint_key_order",
    "C02_edge_key_roundtrip",
    "C02_edge_key_length",
    "C02_edge_key_order",
    "C02_int_key_roundtrip",
    "C02_int_key_order_refuted",
    "C02_text_property_roundtrip_partial",
    "C02_text_property_order_partial",
    "C02_text_key_roundtrip",
    "C02_text_key_order",
    "C02_node_by_text_roundtrip",
    "C02_node_by_text_order",
    "C02_text_property_nul_refuted"
   ],
   "note": "Unsigned integers and edges proved; signed integers round-trip but their byte order is refuted (not claimed by the property)."
  },
  {
   "property": "C03",
   "status": "partial",
   "theorems": [
    "C03_join_qname_injective",
    "C03_split_join_partial",
    "C03_split_join_decoded",
    "C03_split_join_refuted"
   ],
   "note": "Rendering is injective for all keys. Splitting gives back the percent-encoded parts, which is the original only if nothing needed encoding (_refuted witness); decoding after splitting gives back the key."
  },
  {
   "property": "C04",
   "status": "proved",
   "theorems": [
    "C04_diskmap_refines_map",
    "C04_node_id_keys_ok",
    "C04_edge_keys_ok",
    "C04_byte_keys_ok",
    "C04_relannis_keys_ok"
   ],
   "note": "Three-level map refines an abstract map for every history and eviction threshold."
  },
  {
   "property": "C05",
   "status": "proved",
   "theorems": [
    "C05_diskmap_iter_exact",
    "C05_diskmap_range_exact",
    "C05_diskmap_is_empty"
   ],
   "note": ""
  },
  {
   "property": "C06",
   "status": "partial",
   "theorems": [
    "C06_present_key_is_contained",
    "C06_contains_key_agrees_partial",
    "C06_contains_key_refuted"
   ],
   "note": "Violated: after a removed key is compacted, contains_key takes the tombstone for an entry. Proved for keys never removed, and one direction always."
  },
  {
   "property": "C07",
   "status": "proved",
   "theorems": [
    "C07_diskmap_write_roundtrip"
   ],
   "note": ""
  },
  {
   "property": "C08",
   "status": "proved",
   "theorems": [
    "C08_annotations_read_back",
    "C08_no_insert_error",
    "C08_keys_of_item",
    "C08_keys_for_iterator",
    "C08_largest_item_is_bound"
   ],
   "note": "In-memory storage refines a finite map for every history."
  },
  {
   "property": "C09",
   "status": "proved",
   "theorems": [
    "C09_exact_search",
    "C09_regex_search",
    "C09_keys_and_values",
    "C09_node_by_name"
   ],
   "note": ""
  },
  {
   "property": "C10",
   "status": "partial",
   "theorems": [
    "C10_number_of_annotations_partial",
    "C10_number_not_too_small",
    "C10_number_after_clear_refuted",
    "C10_number_by_name_partial",
    "C10_number_by_name_refuted"
   ],
   "note": "Violated by clear() (counter not reset) and by namespaces starting with U+10FFFF; proved otherwise."
  },
  {
   "property": "C11",
   "status": "partial",
   "theorems": [
    "C11_disk_and_memory_agree_partial",
    "C11_disk_content_partial",
    "C11_items_ok",
    "C11_overwrite_refuted",
    "C11_nul_value_refuted",
    "C11_char_max_value_refuted",
    "C11_largest_id_refuted",
    "C11_removal_after_eviction_refuted",
    "C11_values_by_frequency_refuted"
   ],
   "note": "Agreement (operation results, get_value, has_value, get_annotations, exact and regex search) is proved for all histories that do not replace values, have NUL-free values without U+10FFFF and either never remove or stay below the eviction threshold. Six _refuted theorems give counterexamples for each dropped condition."
  },
  {
   "property": "C12",
   "status": "partial",
   "theorems": [
    "C12_find_connected",
    "C12_is_connected",
    "C12_find_all_reachable",
    "C12_excluded_zero_refuted",
    "C12_disk_find_connected",
    "C12_disk_is_connected"
   ],
   "note": "Adjacency list storages in memory and on disk, every history of updates. The range ..0 (exclusive) underflows (refuted); every other range is proved."
  },
  {
   "property": "C13",
   "status": "proved",
   "theorems": [
    "C13_forward_backward",
    "C13_find_connected_inverse",
    "C13_disk_find_connected_inverse"
   ],
   "note": "Adjacency list storages in memory and on disk, every history of updates and every range except ..0 (exclusive)."
  },
  {
   "property": "C14",
   "status": "partial",
   "theorems": [
    "C14_edges_read_back",
    "C14_edge_annotations_read_back",
    "C14_no_update_error",
    "C14_copy",
    "C14_copy_source_exists",
    "C14_disk_edges_read_back",
    "C14_disk_annotations_read_back",
    "C14_disk_no_update_error",
    "C14_disk_copy",
    "C14_disk_largest_id_refuted"
   ],
   "note": "Adjacency list storages in memory and on disk, including edge annotations, node deletion, save/load, clear and copy from any storage. On disk the node id 2^64-1 is not visible as a target (witness), all other ids are proved."
  },
  {
   "property": "C15",
   "status": "partial",
   "theorems": [
    "C15_distance_partial",
    "C15_distance_not_shortest_refuted",
    "C15_disk_distance_partial"
   ],
   "note": "False as stated: the first path found by the depth-first search is reported, witness 0\u21921, 0\u21922, 2\u21921. Proved: Some iff reachable, the value is the length of a simple path, and it is shortest when every node has at most one parent."
  },
  {
   "property": "C16",
   "status": "partial",
   "theorems": [
    "C16_copy_succeeds",
    "C16_edges",
    "C16_annotations",
    "C16_distance",
    "C16_is_connected_partial",
    "C16_find_connected_partial",
    "C16_find_connected_inverse_partial",
    "C16_self_query_refuted",
    "C16_inverse_excluded_refuted",
    "C16_inverse_empty_range_refuted",
    "C16_overflow_refuted"
   ],
   "note": "Edges, roots, annotations, distance: full. find_connected/find_connected_inverse/is_connected: false as stated (four witnesses: distance-0 queries of nodes outside the component, exclusive upper bound backwards, empty range backwards, overflowing upper bound); proved outside these cases."
  },
  {
   "property": "C17",
   "status": "partial",
   "theorems": [
    "C17_copy_succeeds",
    "C17_edges",
    "C17_annotations",
    "C17_distance",
    "C17_find_connected_partial",
    "C17_find_connected_inverse_partial",
    "C17_is_connected_forest_partial",
    "C17_is_connected_dag_partial",
    "C17_is_connected_refuted",
    "C17_self_query_refuted"
   ],
   "note": "Edges, annotations, distance, find_connected in both directions hold for all acyclic graphs within the order and level types (self queries of foreign nodes at distance 0 excepted, witness); is_connected is exact on forests, on DAGs it is sound but may miss paths (witness)."
  },
  {
   "property": "C18",
   "status": "partial",
   "theorems": [
    "C18_dense_copy_succeeds",
    "C18_dense_edges",
    "C18_dense_annotations",
    "C18_dense_queries",
    "C18_path_copy_succeeds",
    "C18_path_edges",
    "C18_path_annotations",
    "C18_path_find_connected",
    "C18_path_find_connected_inverse",
    "C18_path_is_connected_partial",
    "C18_path_distance_partial",
    "C18_path_self_query_refuted",
    "C18_path_new_storage_refuted"
   ],
   "note": "Dense adjacency list: edges, annotations and all queries for every graph with at most one outgoing edge per node. Path storage: edges, annotations, find_connected in both directions, and is_connected and distance between different nodes; a node is not connected to itself (witness)."
  },
  {
   "property": "C19",
   "status": "partial",
   "theorems": [
    "C19_statistics_partial",
    "C19_acyclic_when_rooted",
    "C19_cycle_without_root_refuted",
    "C19_disk_statistics_partial"
   ],
   "note": "False as stated for components with a cycle that no root node reaches (witness). Proved: what the flags mean in general, and the full claim when every source node is reachable from a root."
  },
  {
   "property": "C20",
   "status": "partial",
   "theorems": [
    "C20_content_independent_of_implementation_partial",
    "C20_optimize_keeps_answers_partial",
    "C20_update_after_optimize_partial",
    "C20_acyclic_fits",
    "C20_forest_fits",
    "C20_hidden_cycle_refuted"
   ],
   "note": "Proved for all histories of updates, statistics and optimizations over all six implementations (any outcome of the floating point comparisons), if at each optimization cycles (if any) are visible from a root, and node/annotation/path counts fit 64 bits. Refuted for components with a cycle that no root reaches: the edges of the cycle are lost (C20_hidden_cycle_refuted)."
  },
  {
   "property": "C21",
   "status": "proved",
   "theorems": [
    "C21_update_list_is_a_log",
    "C21_iterate_after_any_history",
    "C21_serialisation_round_trip"
   ],
   "note": "Proved for every interleaving of adding, iterating and serialising (fewer than 2^64 events, strings shorter than 2^64 bytes); the bincode format is modelled from its documentation."
  },
  {
   "property": "C22",
   "status": "partial",
   "theorems": [
    "C22_updates_applied_partial",
    "C22_updates_succeed",
    "C22_deleted_node_leaves_no_edges_partial",
    "C22_edge_test",
    "C22_dangling_edge_refuted",
    "C22_stale_name_refuted"
   ],
   "note": "For histories that keep the label annis::node_name and delete no node with edges in a component created by the same update; both exclusions are refuted by the code. Statistics and the model-specific hooks are not modelled."
  },
  {
   "property": "C23",
   "status": "proved",
   "theorems": [
    "C23_names_have_different_ids",
    "C23_new_node_has_new_id",
    "C23_new_id_within_update"
   ],
   "note": ""
  },
  {
   "property": "C24",
   "status": "partial",
   "theorems": [
    "C24_acknowledged_updates_survive_partial",
    "C24_memory_has_acknowledged_updates_partial",
    "C24_second_update_refuted"
   ],
   "note": "Proved for histories of save, update, background save, crash at any file operation, recovery (inductive hist in PersistSpec.v). Missing: an update before the last background save finished and a crash between a recovery and the next save, which lose updates (refuted theorems)."
  },
  {
   "property": "C25",
   "status": "partial",
   "theorems": [
    "C25_crash_in_save_partial",
    "C25_crash_in_update_partial",
    "C25_crash_in_recovery_partial",
    "C25_second_open_refuted",
    "C25_save_of_unloaded_refuted"
   ],
   "note": "Model of the file system effects of persist, background sync, WAL write and open (Persist.v). Proved for histories in which at most one update follows each save, and recovery is followed by a save (see the three _refuted theorems for what goes wrong otherwise: the WAL is overwritten by a second update, reopening after recovery, save of an unloaded graph). A crash is possible between any two file operations and in the middle of writing a file."
  },
  {
   "property": "C26",
   "status": "partial",
   "theorems": [
    "C26_textual_form_partial",
    "C26_parse_is_textual_form",
    "C26_directories_differ_partial",
    "C26_directory_below_corpus_partial",
    "C26_stored_components_found_partial",
    "C26_directories_differ_refuted",
    "C26_directory_below_corpus_refuted",
    "C26_stored_components_found_refuted",
    "C26_textual_form_refuted"
   ],
   "note": "Textual form: exact characterisation (layer without slash). Directories: injective, below the corpus and found again for layers/names usable as file names; the full statement is refuted for slashes, dots, absolute layers and default_layer."
  },
  {
   "property": "C27",
   "status": "partial",
   "theorems": [
    "C27_sort_partial",
    "C27_sort_first_n_items_partial",
    "C27_any_comparison",
    "C27_sort_can_end",
    "C27_short_lists_sorted",
    "C27_sort_ends_refuted"
   ],
   "note": "Partial correctness for every comparison that is a total preorder and every random sequence; termination holds for suitable continuations of every prefix of random numbers but not for every random sequence (refuted). Errors of the comparison are not modelled."
  },
  {
   "property": "C28",
   "status": "partial",
   "theorems": [
    "C28_find_is_a_slice_partial",
    "C28_pages_join_partial",
    "C28_large_limit_refuted"
   ],
   "note": "Slice of the concatenation of the per-corpus results, for total preorders and offset+limit below 2^64; overflow refuted."
  },
  {
   "property": "C29",
   "status": "partial",
   "theorems": [
    "C29_comparison_is_total_preorder_partial",
    "C29_equal_matches_partial",
    "C29_sorted_result_unique_partial",
    "C29_caches_do_not_matter",
    "C29_same_document",
    "C29_two_texts_refuted",
    "C29_node_without_token_refuted"
   ],
   "note": "Total preorder (and total order on the groups) if in each document all matched nodes are ordered by their first tokens or none is; refuted for documents with several texts or nodes without tokens. Caches included."
  },
  {
   "property": "C30",
   "status": "partial",
   "theorems": [
    "C30_nested_loop_partial",
    "C30_nested_loop_no_error",
    "C30_nested_loop_errors_reported",
    "C30_nested_loop_bounds",
    "C30_global_reflexivity_refuted"
   ],
   "note": "Exact for reflexive operators or quirks mode; otherwise between the two rules, since the first outer match is checked with the weaker rule (refuted). Inputs with errors included."
  },
  {
   "property": "C31",
   "status": "partial",
   "theorems": [
    "C31_parallel_nested_loop",
    "C31_parallel_as_sequential_partial",
    "C31_parallel_errors_refuted",
    "C31_parallel_index_join",
    "C31_retrieval_error_refuted"
   ],
   "note": "Parallel nested loop proved against the specification for all inputs (also with errors), buffer sizes and schedules; equal to the sequential one for reflexive operators or quirks mode, because the sequential one ignores the global rule for its first outer match (refuted). Errors can get lost (refuted)."
  },
  {
   "property": "C32",
   "status": "proved",
   "theorems": [
    "C32_index_join",
    "C32_index_join_once",
    "C32_index_join_as_parallel_loop"
   ],
   "note": "Sequential and parallel index join, for every operator whose retrieval and check agree; conditions and retrieval must not fail."
  },
  {
   "property": "C33",
   "status": "partial",
   "theorems": [
    "C33_union",
    "C33_single_alternative",
    "C33_semantic_error",
    "C33_solutions",
    "C33_output_of_one_alternative",
    "C33_output_if_all_included",
    "C33_failing_alternative_refuted",
    "C33_output_of_second_alternative_refuted"
   ],
   "note": "Results of several alternatives: exactly the matches of the alternatives laid out at the positions of the variables, without duplicates; capstone with the conjunction model. Refuted: alternatives failing with a non-semantic error are dropped silently; nodes of the second alternative can be lost when a variable of the first is optional."
  },
  {
   "property": "C34",
   "status": "partial",
   "theorems": [
    "C34_results",
    "C34_order_irrelevant_partial",
    "C34_optimizer",
    "C34_execution",
    "C34_order_matters_for_mixed_operators_refuted",
    "C34_order_matters_for_chains_refuted"
   ],
   "note": "Planning, optimizer and execution are modelled; results do not depend on the order for solutions with different matches, or for all solutions if no operator restricts its operands. Missing (false of the code, two refutations): non-reflexive operators with repeated matches."
  },
  {
   "property": "C35",
   "status": "proved",
   "theorems": [
    "C35_accepted_iff_connected",
    "C35_reported_variable"
   ],
   "note": "Check of the connections is modelled and proved for all conjunctions."
  },
  {
   "property": "C36",
   "status": "partial",
   "theorems": [
    "C36_line_and_column",
    "C36_unambiguous",
    "C36_error_location_partial",
    "C36_empty_query_refuted"
   ],
   "note": "Line and column computed from a position are the number of line breaks before it and the distance to the last one, and are unambiguous. _partial: the position of syntax errors is the one reported by the generated parser, which is not modelled; refuted for the empty query, where the position underflows."
  },
  {
   "property": "C37",
   "status": "proved",
   "theorems": [
    "C37_check",
    "C37_kept",
    "C37_within_limit",
    "C37_order",
    "C37_requested"
   ],
   "note": "Single checks for every cache content, limit and sequence of memory measurements; order of loading after every history of operations of several threads."
  },
  {
   "property": "C38",
   "status": "partial",
   "theorems": [
    "C38_check_partial",
    "C38_candidates_partial",
    "C38_agreement_partial",
    "C38_candidates_once_partial",
    "C38_inverse",
    "C38_overlap_tokens",
    "C38_inclusion_tokens",
    "C38_overlap_refuted",
    "C38_segmentation_refuted",
    "C38_single_token_refuted"
   ],
   "note": "Checks and candidates are exact for corpora with correct token alignment; candidates of overlap need spans without holes, candidates of segmentations need segments which are no tokens, distance 0 needs tokens with an order. The unrestricted statements are refuted (overlap with holes, segmentation of tokens, inclusion in texts with a single token). The inverse operators are exact without restrictions."
  },
  {
   "property": "C39",
   "status": "partial",
   "theorems": [
    "C39_tokens_partial",
    "C39_tokens_in_order",
    "C39_texts_partial",
    "C39_statistic_complete",
    "C39_shortcut_only_order",
    "C39_statistic_refuted",
    "C39_linear_refuted"
   ],
   "note": "Restricted to corpora where the statistic about the token order is right and where the storage of the order finds single tokens; both restrictions are shown to be necessary by refutations. With all tokens in the order the theorem holds without them."
  },
  {
   "property": "C40",
   "status": "partial",
   "theorems": [
    "C40_frequency",
    "C40_definition",
    "C40_position_of_first_alternative",
    "C40_values_of_second_alternative_refuted"
   ],
   "note": "Frequency tables: one row per combination, counts add up, descending; _refuted: values of variables of a later alternative are looked up at the wrong position."
  },
  {
   "property": "C41",
   "status": "partial",
   "theorems": [
    "C41_check",
    "C41_inverse_check_partial",
    "C41_candidates_partial",
    "C41_index_join_partial",
    "C41_switched_index_join_partial",
    "C41_inverse_check_refuted",
    "C41_candidates_refuted",
    "C41_switched_index_join_refuted"
   ],
   "note": "Restricted to descriptions of the same kind (check), to nodes with one annotation of the compared name (candidates) and to equal annotation names (switched operands); the unrestricted statements are refuted."
  },
  {
   "property": "C42",
   "status": "partial",
   "theorems": [
    "C42_round_trip_partial",
    "C42_node_name_refuted",
    "C42_label_name_refuted",
    "C42_layer_refuted",
    "C42_node_type_refuted",
    "C42_configuration_refuted"
   ],
   "note": "Round trip of every graph reached by a history of C22 whose names need no escapes (values are arbitrary), for every export order; refuted for names with escapes, layers with a slash, nodes without a type and configurations with the end mark of CDATA. quick-xml is modelled at the level of events."
  },
  {
   "property": "C43",
   "status": "partial",
   "theorems": [
    "C43_below_data_directory_partial",
    "C43_distinct_partial",
    "C43_listing",
    "C43_below_data_directory_refuted",
    "C43_lock_file_refuted"
   ],
   "note": "_partial: every corpus name other than '', '.' and '..' is stored in its own directory below the data directory, and distinct names get distinct directories. Refuted theorems: the empty name and '.' give the data directory itself, '..' its parent, and 'db.lock' clashes with the lock file."
  },
  {
   "property": "C44",
   "status": "proved",
   "theorems": [
    "C44_union",
    "C44_errors",
    "C44_errors_ingoing",
    "C44_errors_sources",
    "C44_roots",
    "C44_search"
   ],
   "note": "Union of edge containers (several components searched as one): outgoing/ingoing edges are the set union, each neighbour once; errors are passed on; roots; searches over the union."
  },
  {
   "property": "C45",
   "status": "partial",
   "theorems": [
    "C45_window_partial",
    "C45_context_partial",
    "C45_iterator_deterministic",
    "C45_segmentation_partial",
    "C45_subgraph_nodes_partial",
    "C45_subgraph_found_partial",
    "C45_gaps_partial",
    "C45_one_text_refuted",
    "C45_gaps_refuted"
   ],
   "note": "Restricted to matches whose tokens are from one text and (for gaps) to contexts which do not overlap; the unrestricted statements are refuted. Context sizes must not overflow when added to text positions; the sorting must end (C27)."
  },
  {
   "property": "C46",
   "status": "partial",
   "theorems": [
    "C46_negated",
    "C46_not_exists",
    "C46_not_exists_token_partial",
    "C46_not_exists_index",
    "C46_token_operators_partial",
    "C46_edge_operators_partial",
    "C46_same_node",
    "C46_invalid_pattern_refuted",
    "C46_overlap_refuted"
   ],
   "note": "Negated operators and 'not exists' conditions, with and without index and inverted; refuted for invalid patterns and for overlaps of spans with holes."
  },
  {
   "property": "C47",
   "status": "partial",
   "theorems": [
    "C47_count_is_number_of_matches_partial",
    "C47_errors_counted_refuted"
   ],
   "note": "Proved for executions without errors; with errors count counts the error items (refuted)."
  },
  {
   "property": "C48",
   "status": "partial",
   "theorems": [
    "C48_new_graph_partial",
    "C48_histories_partial",
    "C48_aligned",
    "C48_late_token_label_refuted",
    "C48_named_dominance_refuted",
    "C48_node_replaced_refuted",
    "C48_text_reordered_refuted"
   ],
   "note": "Exact for the first update of a graph and for all histories of safe updates (conditions in IndexSpec.v: labels_ok, names_once, order_kept, usable). The unrestricted statement is refuted: late annis:tok labels, dominance components with a name, nodes deleted and added by one update, re-ordered texts."
  },
  {
   "property": "C49",
   "status": "partial",
   "theorems": [
    "C49_alternatives",
    "C49_normal_form_exists",
    "C49_conjunction",
    "C49_query_partial",
    "C49_numbers",
    "C49_output",
    "C49_references_by_number_refuted"
   ],
   "note": "Alternatives of a query and their mapping to conjunctions keep its meaning, for every normal form function with the documented contract (the boolean_expression crate is not modelled, but a function meeting the contract is given). _partial: references by number are excluded, because they are numbered per alternative: shown by a refuted theorem."
  },
  {
   "property": "C50",
   "status": "partial",
   "theorems": [
    "C50_positions",
    "C50_statistics",
    "C50_estimate_bounded",
    "C50_estimate_regex_bounded",
    "C50_estimate_not_zero_partial",
    "C50_estimate_not_zero_refuted",
    "C50_most_frequent"
   ],
   "note": "Statistics and estimates of the in-memory annotation storage; f64 is modelled by rational numbers with an arbitrary rounding (monotone, exact up to 2^53). _partial/_refuted concern an additional claim: estimates of existing values are not zero, which fails for keys with a single annotation."
  },
  {
   "property": "C51",
   "status": "partial",
   "theorems": [
    "C51_updates_visible_partial",
    "C51_evicted_before_save_refuted",
    "C51_failing_update_refuted",
    "C51_concurrent_loading_refuted",
    "C51_deleted_content_refuted"
   ],
   "note": "_partial: proved for all schedules in which no entry leaves the cache and no update fails while it is unsaved, and no corpus is loaded by two threads at once. Without these the property is false: four refuted theorems with schedules."
  },
  {
   "property": "C52",
   "status": "partial",
   "theorems": [
    "C52_create_partial",
    "C52_delete_partial",
    "C52_import_partial",
    "C52_leftover",
    "C52_failed_request_refuted"
   ],
   "note": "_partial: proved unless the name is in the cache without a corpus; the refuted theorem shows that a failed request leaves such a name and then creation, import and deletion answer wrongly."
  },
  {
   "property": "C53",
   "status": "partial",
   "theorems": [
    "C53_results",
    "C53_any_token_partial",
    "C53_once_partial",
    "C53_invalid_pattern",
    "C53_description_agrees",
    "C53_any_token_agrees_partial",
    "C53_component_search_partial",
    "C53_one_component",
    "C53_meta_duplicates_refuted",
    "C53_component_search_duplicates_refuted",
    "C53_component_search_annotation_refuted"
   ],
   "note": "The search for any token has the restrictions of C39. Duplicates of searches for metadata without namespace and of the search replaced by source nodes of components are refuted."
  },
  {
   "property": "C54",
   "status": "partial",
   "theorems": [
    "C54_components",
    "C54_created",
    "C54_check_partial",
    "C54_candidates_partial",
    "C54_candidates_once",
    "C54_inverse_partial",
    "C54_inverse_check",
    "C54_arity",
    "C54_same_node",
    "C54_distance_zero_refuted"
   ],
   "note": "Distances must not overflow when added to positions, must not be reversed, and distance 0 is only covered for nodes of the component; otherwise the result depends on the storage implementation (C54_distance_zero_refuted)."
  },
  {
   "property": "C55",
   "status": "partial",
   "theorems": [
    "C55_claims",
    "C55_token",
    "C55_invalid_token",
    "C55_read_only",
    "C55_administration_refused",
    "C55_secrecy_partial",
    "C55_refused",
    "C55_permitted",
    "C55_listed_partial",
    "C55_list_refuted",
    "C55_list_of_files_refuted"
   ],
   "note": "Non-interference, refusals and permissions for every history with enforced foreign keys. Partial: the list of corpora fails for everyone and names the corpus if one configuration is unreadable (C55_list_refuted); listing files of a corpus whose name is an absolute path or contains '..' depends on other directories (C55_list_of_files_refuted)."
  },
  {
   "property": "C56",
   "status": "partial",
   "theorems": [
    "C56_groups",
    "C56_deleted",
    "C56_without_foreign_keys_refuted"
   ],
   "note": "Proved for a database that enforces the foreign key (bundled SQLite); refuted otherwise."
  },
  {
   "property": "C57",
   "status": "proved",
   "theorems": [
    "C57_jobs",
    "C57_once"
   ],
   "note": "Proved for every interleaving; identifiers of jobs are assumed different (random UUIDs)."
  },
  {
   "property": "C58",
   "status": "partial",
   "theorems": [
    "C58_directory_partial",
    "C58_content_inside",
    "C58_list_inside",
    "C58_list_complete_partial",
    "C58_fetch_listed_partial",
    "C58_fetch_listed_refuted",
    "C58_directory_refuted",
    "C58_same_directory_partial",
    "C58_same_directory_refuted"
   ],
   "note": "Content and lists stay in the corpus' directory; partial: corpora '.', '..', names with ':|*\\\\', files with '..' in the name (refutations)."
  },
  {
   "property": "C59",
   "status": "partial",
   "theorems": [
    "C59_tables_partial",
    "C59_field",
    "C59_null_refuted"
   ],
   "note": "Full statement: all values survive. Proved for all tables without the value NULL and numbers in range; the value NULL is refuted."
  },
  {
   "property": "C60",
   "status": "partial",
   "theorems": [
    "C60_names_partial",
    "C60_hash_refuted",
    "C60_duplicates_partial",
    "C60_duplicates_refuted"
   ],
   "note": "Proved if no corpus name contains #, and no document has a numbered name already; both exceptions are refuted."
  },
  {
   "property": "C61",
   "status": "partial",
   "theorems": [
    "C61_succeeds_partial",
    "C61_nodes_partial",
    "C61_annotations_partial",
    "C61_token_partial",
    "C61_layer_partial",
    "C61_metadata_partial",
    "C61_document_partial",
    "C61_edges_partial",
    "C61_edge_annotations_partial",
    "C61_applied_partial",
    "C61_text_name_refuted"
   ],
   "note": "Proved for tables with consistent references (sound_corpus): unique ids, nodes only in corpora below the top-level corpus, no # in corpus and file names. Keys in the namespace annis are covered for tok, layer and doc only. A text with the name of a node is refuted."
  },
  {
   "property": "C62",
   "status": "partial",
   "theorems": [
    "C62_order_partial",
    "C62_covered_partial",
    "C62_only_covered_partial"
   ],
   "note": "Under sound_corpus. Gaps in the token index end the coverage, as stated in covers."
  },
  {
   "property": "C63",
   "status": "partial",
   "theorems": [
    "C63_hierarchy_partial",
    "C63_space_refuted",
    "C63_top_level_refuted"
   ],
   "note": "Under sound_corpus and if the name of the top-level corpus is not changed by percent encoding; otherwise refuted, and refuted for nodes in the top-level corpus."
  },
  {
   "property": "C64",
   "status": "partial",
   "theorems": [
    "C64_after_partial",
    "C64_before_partial",
    "C64_chars",
    "C64_before_refuted"
   ],
   "note": "Text after tokens: proved under sound_corpus. Text before the first token: one character is lost, refuted."
  },
  {
   "property": "C65",
   "status": "partial",
   "theorems": [
    "C65_properties_partial",
    "C65_zero_step_refuted",
    "C65_no_properties",
    "C65_visualizers",
    "C65_mappings",
    "C65_no_visualizers",
    "C65_examples",
    "C65_version_refuted"
   ],
   "note": "Settings, visualizers and example queries are proved for all files; a context step of zero makes the import panic (refuted). ASCII white space and letters only. A huge maximal context with a small step exhausts the memory, which the model does not show."
  },
  {
   "property": "C66",
   "status": "partial",
   "theorems": [
    "C66_tokens",
    "C66_outcome",
    "C66_unambiguous",
    "C66_written",
    "C66_spaces",
    "C66_well_formed",
    "C66_node_searches",
    "C66_meaning_partial",
    "C66_panic_refuted",
    "C66_large_distance_refuted",
    "C66_pointing_without_space_refuted",
    "C66_names_refuted",
    "C66_quotation_mark_refuted"
   ],
   "note": "Partial: C66_meaning_partial inherits the restriction of C49_query_partial (no references by number). Findings: numbers of references above 64 bits panic, large distances become 0, node->dep is read as dominance, names tok, node and arity... cannot be qualified, values with a quotation mark cannot be searched exactly. The LALRPOP table construction itself is replaced by a parser that is proved equal to the grammar."
  },
  {
   "property": "C67",
   "status": "partial",
   "theorems": [
    "C67_nodes",
    "C67_edges",
    "C67_nothing_else",
    "C67_gaps",
    "C67_succeeds",
    "C67_context_partial",
    "C67_gaps_refuted"
   ],
   "note": "nodes, edges, labels, gaps and absence of errors; C67_context_partial has the conditions of C45 (contexts do not overlap, one text per match); C67_gaps_refuted: the gaps of a query depend on the order of its matches"
  },
  {
   "property": "C68",
   "status": "partial",
   "theorems": [
    "C68_import_copies_partial",
    "C68_import_contained_partial",
    "C68_import_succeeds_partial",
    "C68_failed_import_partial",
    "C68_export_contained_partial",
    "C68_directory_round_trip_partial",
    "C68_zip_round_trip_partial",
    "C68_import_contained_refuted",
    "C68_failed_import_contained_refuted",
    "C68_source_refuted",
    "C68_failed_import_refuted",
    "C68_collision_refuted",
    "C68_zip_missing_refuted",
    "C68_zip_corpus_file_refuted",
    "C68_export_overwrites_refuted",
    "C68_name_refuted",
    "C68_export_contained_refuted"
   ],
   "note": "import, containment, success and round trips for plain names; refuted for names with parent directories, absolute names, links elsewhere, failing overwriting imports, missing files in ZIP exports, linked GraphML files and corpus names with slashes"
  },
  {
   "property": "C69",
   "status": "partial",
   "theorems": [
    "C69_statistics_exist",
    "C69_tokens_partial",
    "C69_search_agrees_partial",
    "C69_segmentation_partial",
    "C69_segmentations",
    "C69_configuration",
    "C69_unit_kept_partial",
    "C69_no_order_refuted",
    "C69_deleted_refuted",
    "C69_same_name_refuted",
    "C69_unit_kept_refuted",
    "C69_without_statistics"
   ],
   "note": "Proved: statistics are computed for every graph; token count of graphs whose tokens are all ordered; agreement with the token search; segmentation sizes for histories without deletions and with distinct names; the configured unit decides what is stored. Refuted with witnesses: tokens without ordering edges count as nothing, deleted segments are still counted, segmentations with the same name, a configured unit is lost."
  },
  {
   "property": "C70",
   "status": "partial",
   "theorems": [
    "C70_annotations_in_memory",
    "C70_annotations_on_disk_partial",
    "C70_least_frequent_on_disk",
    "C70_most_frequent_on_disk_refuted",
    "C70_nothing_to_list",
    "C70_components_partial",
    "C70_components_until_saved",
    "C70_components_refuted"
   ],
   "note": "Proved: names, all values and most frequent values in memory for every history; names and all values on disk under the conditions of C11; components of saved graphs. Refuted: on disk the least frequent value is listed as the most frequent one; components added by an update are missing until the background synchronisation."
  },
  {
   "property": "C71",
   "status": "partial",
   "theorems": [
    "C71_descriptions",
    "C71_accepted",
    "C71_variables_distinct",
    "C71_fragment_partial",
    "C71_fragment_refuted",
    "C71_anno_name_refuted"
   ],
   "note": "Proved: descriptions are exactly the node searches of the alternatives in order, numbering, distinct variables. Partial: the fragment is a query for the same search unless a qualified name starts with arity. Refuted: that case, and annotation names of negated searches."
  },
  {
   "property": "C72",
   "status": "partial",
   "theorems": [
    "C72_meaning_partial",
    "C72_nodes_partial",
    "C72_accepted_partial",
    "C72_disjunction_refuted",
    "C72_numbers_refuted",
    "C72_only_metadata_refuted",
    "C72_optional_refuted"
   ],
   "note": "Proved for queries with distinct names without optional nodes and for alternatives with a node; refuted for metadata searches combined by or, numbers of nodes in later alternatives, alternatives of metadata searches only and optional nodes with two relations"
  },
  {
   "property": "C73",
   "status": "partial",
   "theorems": [
    "C73_alternatives_partial",
    "C73_query_partial",
    "C73_answered"
   ],
   "note": "From text to results: soundness, completeness (for assignments without repeated matches, or reflexive operators), uniqueness and existence of answers for all plans. Partial: queries with several alternatives may not have optional searches (C33_output_of_second_alternative_refuted), C73_query_partial needs references by name (C49_references_by_number_refuted), names have to be distinct, no quirks mode (C72). Searches and operators enter through the contract engine_ok; their own correctness is C36-C48 and others."
  },
  {
   "property": "C74",
   "status": "partial",
   "theorems": [
    "C74_engine",
    "C74_alternatives_partial",
    "C74_query_partial",
    "C74_answered"
   ],
   "note": "The contract of C73 holds for the modelled searches and operators of a stored corpus, so that the results of a text are the nodes it describes. Partial: no comparisons of values and no component searches in the engine, hypotheses of the parts (C38, C39, C53, C54: correct alignment edges, distances in limits, no distance 0 outside of a component, overlaps only for spans without holes), limits of C73."
  },
  {
   "property": "C75",
   "status": "partial",
   "theorems": [
    "C75_corpus_partial",
    "C75_count",
    "C75_page_partial",
    "C75_count_is_number_returned_partial",
    "C75_no_hidden_error"
   ],
   "note": "Partial: C75_count has no restriction; the theorem about one corpus has the limits of C74 (results with repeated matches only for reflexive operators); pages for offset+limit below 2^64 and comparisons that are total preorders."
  },
  {
   "property": "C76",
   "status": "partial",
   "theorems": [
    "C76_string_arguments",
    "C76_string_results_partial",
    "C76_nul_refuted",
    "C76_updates",
    "C76_count",
    "C76_count_extra",
    "C76_find_partial",
    "C76_subgraph",
    "C76_frequency_partial",
    "C76_invalid_definition_refuted",
    "C76_corpora_partial",
    "C76_annotations_partial",
    "C76_bool",
    "C76_iterator",
    "C76_iterator_without_variable_refuted",
    "C76_outgoing_edges"
   ],
   "note": "Partial: texts with a NUL become empty strings (C76_nul_refuted), so results are shown for texts without NUL; invalid frequency definitions are dropped (refuted). The library's operations are arguments; memory management is not modelled."
  },
  {
   "property": "C77",
   "status": "partial",
   "theorems": [
    "C77_decision",
    "C77_replaced",
    "C77_kept_partial",
    "C77_results_partial",
    "C77_lost_refuted",
    "C77_negated_refuted"
   ],
   "note": "Full for the decision and for what the new search finds; partial for the results: kept for directed operators with at least one step which are not negated, refuted for near, overlap, inclusion, identical coverage, alignments and negated operators. The plans with the replaced search are not joined with C33/C34."
  },
  {
   "property": "C78",
   "status": "proved",
   "theorems": [
    "C78_table",
    "C78_total",
    "C78_one_label"
   ],
   "note": "Joined from C40, C09 and C75; the position of a definition's node is an argument, see C40 for the positions of the first alternative."
  },
  {
   "property": "C79",
   "status": "partial",
   "theorems": [
    "C79_position",
    "C79_unknown",
    "C79_value_partial",
    "C79_optional_refuted"
   ],
   "note": "C79_position gives the exact position for all queries; C79_value_partial: the value is right for searches of the first alternative with no optional search before them. C79_optional_refuted shows that an optional search before shifts the position; C40_values_of_second_alternative_refuted shows the shift for later alternatives."
  },
  {
   "property": "C80",
   "status": "partial",
   "theorems": [
    "C80_list",
    "C80_delete",
    "C80_import",
    "C80_import_format",
    "C80_export",
    "C80_frequency",
    "C80_info",
    "C80_each",
    "C80_parallel",
    "C80_unknown",
    "C80_closed",
    "C80_lines",
    "C80_settings",
    "C80_find",
    "C80_count",
    "C80_plan",
    "C80_unselected",
    "C80_calls",
    "C80_selected",
    "C80_selection_kept",
    "C80_end",
    "C80_goes_on",
    "C80_failed_partial",
    "C80_failed_refuted",
    "C80_quit_in_options_refuted",
    "C80_missing_file_refuted",
    "C80_deleted_refuted",
    "C80_session"
   ],
   "note": "settings, queries, calls, selection and end are proved for all sessions and storages; C80_failed_partial leaves out set-parallel-search, refuted by C80_failed_refuted; further refutations: quit among options, missing files, deleted corpora in the selection"
  },
  {
   "property": "C81",
   "status": "partial",
   "theorems": [
    "C81_load_saved_partial",
    "C81_new_directory",
    "C81_saved_again",
    "C81_old_component",
    "C81_old_statistics",
    "C81_roots_partial",
    "C81_roots_refuted",
    "C81_origin",
    "C81_saved_over_old",
    "C81_saved_over_old_refuted",
    "C81_statistics_refuted"
   ],
   "note": "proved for the four storages in main memory and all directories without files of older versions; C81_saved_over_old_refuted and C81_statistics_refuted show what such files do; the number of roots of old statistics is refuted"
  }
 ]
}