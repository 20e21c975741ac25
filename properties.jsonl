{"id": "C01", "title": "Symbol table interning is faithful", "statement": "After any sequence of insert, remove, clear and save/load operations on a SymbolTable, every symbol that is still live resolves to exactly the value it was created for, equal values have the same symbol, different live values have different symbols, and looking a value up finds its symbol iff the value is live.", "quantifier": "every finite history of insert/remove/clear/serialise+reload, every value type with decidable equality", "why_tests_cant": "slot reuse makes correctness depend on the whole history of removals; tests run a handful of short histories", "anchors": ["core/src/annostorage/symboltable.rs: SymbolTable::{insert_shared,remove,get_value,get_symbol,clear,after_deserialization}"]}
{"id": "C02", "title": "Fixed-width keys round-trip and keep numeric order", "statement": "For every unsigned fixed-width integer and every edge, parsing the serialised key yields the original, the key has the documented length, and comparing serialised keys byte-wise gives the same result as comparing the values (edges: by source, then target). The same holds for the keys of the maps that are used while a relANNIS corpus is imported: positions in texts, texts, and nodes of texts (refuted for names of segmentations with NUL characters).", "quantifier": "every integer of every width, every pair of integers, every pair of edges", "why_tests_cant": "2^128 edge pairs; range scans over on-disk tables silently rely on it for all of them", "anchors": ["core/src/serializer.rs: KeySerializer impls", "core/src/types.rs: impl KeySerializer for Edge", "graphannis/src/annis/db/relannis.rs: KeySerializer for TextProperty, TextKey, NodeByTextEntry"]}
{"id": "C03", "title": "Qualified annotation names are unambiguous", "statement": "Two annotation keys rendered as qualified name (ns::name) are the same string only if namespace and name are equal, and splitting the rendered string gives back namespace and name.", "quantifier": "every pair of namespace/name strings", "why_tests_cant": "the escaping interacts with every combination of ':', '%', space and control characters; a test uses a few names", "anchors": ["core/src/util/mod.rs: join_qname, split_qname, QNAME_ENCODE_SET"]}
{"id": "C04", "title": "Disk map reads return the latest write", "statement": "A disk backed map behaves like an in-memory finite map: after any history of insert, remove, compaction, clearing and flush of the memory table (at any threshold), get(k) returns the value of the last insert of k not followed by a remove or clear, otherwise nothing.", "quantifier": "every finite history of operations, every eviction threshold, every key", "why_tests_cant": "which of the three levels (memory table, temporary index, on-disk table) answers depends on the whole history and on when evictions happened", "anchors": ["core/src/util/disk_collections.rs: DiskMap::{insert,get,remove,clear,compact,evict_c0_if_necessary}"]}
{"id": "C05", "title": "Disk map iteration is exactly the live content in key order", "statement": "iter() yields every live entry exactly once in ascending key order and nothing else; range(a..b) yields exactly the live entries whose key lies within the bounds, in ascending order.", "quantifier": "every history of operations, every pair of range bounds", "why_tests_cant": "three-way merge of levels with deletion markers and overwritten entries has unboundedly many interleavings of keys", "anchors": ["core/src/util/disk_collections.rs: DiskMap::{iter,range}, CombinedRange::next, SimplifiedRange"]}
{"id": "C06", "title": "Disk map membership agrees with lookup", "statement": "contains_key(k) is true iff get(k) returns a value.", "quantifier": "every history of operations and every key", "why_tests_cant": "only wrong for keys deleted at one level but present at a lower one after an eviction; tests of contains_key do not drive that history", "anchors": ["core/src/util/disk_collections.rs: DiskMap::contains_key"]}
{"id": "C07", "title": "Writing a disk map and reopening it preserves the content", "statement": "Writing a disk map to a file and opening that file gives a map with the same get result for every key and no deletion markers.", "quantifier": "every history of operations before the write", "why_tests_cant": "which level an entry (or deletion marker) is in at the time of writing depends on the history", "anchors": ["core/src/util/disk_collections.rs: DiskMap::{write_to,new}"]}
{"id": "C08", "title": "Annotation values read back are the last ones written", "statement": "For the in-memory annotation storage, get_value_for_item, has_value_for_item, get_annotations_for_item and get_all_keys_for_item reflect exactly the annotations inserted and not removed since, each key having its last inserted value.", "quantifier": "every history of insert, remove_annotation_for_item, remove_item and clear; every item and key", "why_tests_cant": "symbols of keys and values are freed and reused; a wrong reference count shows only in particular histories", "anchors": ["core/src/annostorage/inmemory.rs: AnnoStorageImpl::{insert,remove_annotation_for_item,remove_item,clear,get_value_for_item,has_value_for_item,get_annotations_for_item}"]}
{"id": "C09", "title": "Annotation search is sound, complete and free of duplicates", "statement": "For the in-memory storage, exact_anno_search(ns, name, Any | Some v | NotSome v) returns exactly the (item, key) pairs that carry a matching annotation, each once.", "quantifier": "every history of updates, every namespace/name/value search", "why_tests_cant": "the reverse index is maintained incrementally and is separate from the forward index; divergence needs long histories", "anchors": ["core/src/annostorage/inmemory.rs: exact_anno_search, matching_items, remove_element_from_by_anno, check_and_remove_value_symbol"]}
{"id": "C10", "title": "Annotation counts equal the stored annotations", "statement": "number_of_annotations equals the number of stored (item,key) pairs, and number_of_annotations_by_name equals the number of items carrying the annotation.", "quantifier": "every history of updates including clear", "why_tests_cant": "counters are incrementally maintained and drift only after particular histories", "anchors": ["core/src/annostorage/inmemory.rs: number_of_annotations, number_of_annotations_by_name, anno_key_sizes, total_number_of_annos"]}
{"id": "C11", "title": "On-disk and in-memory annotation storages agree", "statement": "Running the same history of inserts and removals on the on-disk and the in-memory annotation storage gives the same answers for get_value_for_item and for exact_anno_search.", "quantifier": "every history of updates, every search", "why_tests_cant": "the disk version keeps two independent key encodings in sync; overwriting and special values only diverge after certain histories", "anchors": ["core/src/annostorage/ondisk.rs: insert, remove_item, remove_annotation_for_item, exact_anno_search, get_value_for_item, create_by_container_key, create_by_anno_qname_key"]}
{"id": "C12", "title": "Reachability search returns exactly the reachable nodes, once", "statement": "find_connected(n, min, max) on an adjacency list storage terminates on every graph (also cyclic) and returns, without duplicates, exactly the nodes m for which a cycle-free path from n to m with a length in [min,max] exists.", "quantifier": "every finite directed graph, every start node, every min and max", "why_tests_cant": "the number of graphs and paths is unbounded; cycles and shared sub-graphs interact with path truncation in the depth first search", "anchors": ["core/src/dfs.rs: CycleSafeDFS::{new,enter_node,next}", "core/src/graph/storage/adjacencylist.rs: find_connected"]}
{"id": "C13", "title": "Backward reachability mirrors forward reachability", "statement": "m is in find_connected(n,min,max) iff n is in find_connected_inverse(m,min,max).", "quantifier": "every finite graph reachable by edge updates, every pair of nodes and every distance range", "why_tests_cant": "needs the inverse index to be in sync and the two traversals to agree on all graphs", "anchors": ["core/src/graph/storage/adjacencylist.rs: find_connected_inverse, inverse_edges"]}
{"id": "C14", "title": "Edge updates behave like updates on a set of edges", "statement": "After any history of add_edge, delete_edge and delete_node, get_outgoing_edges and get_ingoing_edges return exactly the edges added and not deleted since (self-loops are ignored), without duplicates; edge annotations exist only for existing edges.", "quantifier": "every history of updates, every node", "why_tests_cant": "forward index, inverse index and edge annotations are three structures that must stay in sync over all histories", "anchors": ["core/src/graph/storage/adjacencylist.rs: add_edge, add_edge_annotation, delete_edge, delete_edge_annotation, delete_node, get_outgoing_edges, get_ingoing_edges"]}
{"id": "C15", "title": "distance is the shortest path length", "statement": "distance(s,t) is Some d iff t is reachable from s, and d is then the length of a shortest path.", "quantifier": "every finite graph and pair of nodes", "why_tests_cant": "only graphs with several paths of different lengths in a particular edge order show a difference", "anchors": ["core/src/graph/storage/adjacencylist.rs: distance", "core/src/graph/storage/mod.rs: EdgeContainer/GraphStorage docs"]}
{"id": "C16", "title": "Linear storage is equivalent to the edges it was copied from", "statement": "Copying a graph made of disjoint chains into the linear storage keeps outgoing and ingoing edges, root nodes, is_connected and distance, and find_connected/find_connected_inverse give the same sets.", "quantifier": "every finite disjoint union of chains, every node pair, every min/max", "why_tests_cant": "chain positions, offsets and bound arithmetic have unboundedly many combinations", "anchors": ["core/src/graph/storage/linear.rs"]}
{"id": "C17", "title": "Pre/post-order storage is equivalent to the edges it was copied from", "statement": "Copying a forest into the pre/post-order storage keeps outgoing edges, is_connected, distance, find_connected and find_connected_inverse; on arbitrary acyclic graphs at least find_connected is preserved.", "quantifier": "every finite rooted forest (and DAG), every node pair, every min/max", "why_tests_cant": "the interval encoding is correct only by a nesting invariant over the whole traversal", "anchors": ["core/src/graph/storage/prepost.rs"]}
{"id": "C18", "title": "Dense and path storages are equivalent to the edges they were copied from", "statement": "Copying a graph with at most one outgoing edge per node into the dense adjacency or the disk path storage keeps the outgoing edges and reachability queries.", "quantifier": "every finite graph with out-degree at most one (and path length at most 15 for the path storage)", "why_tests_cant": "all shapes of inverted trees and all node id gaps must be covered", "anchors": ["core/src/graph/storage/dense_adjacency.rs", "core/src/graph/storage/disk_path.rs"]}
{"id": "C19", "title": "A component reported as acyclic is acyclic", "statement": "After calculate_statistics, cyclic = false only if the component has no cycle, rooted_tree = true only if every node has at most one parent and there is no cycle, and max_fan_out is the maximal number of outgoing edges.", "quantifier": "every finite component", "why_tests_cant": "statistics decide which storage implementation is used; wrong on components where a cycle is not reachable from a root", "anchors": ["core/src/graph/storage/adjacencylist.rs: calculate_statistics"]}
{"id": "C20", "title": "Optimising a component does not lose edges", "statement": "Whatever implementation optimize_impl chooses from the statistics, the component answers get_outgoing_edges as before.", "quantifier": "every finite component", "why_tests_cant": "the choice depends on statistics of the whole component; loss happens only for particular shapes", "anchors": ["core/src/graph/mod.rs: optimize_gs_impl", "core/src/graph/storage/registry.rs: get_optimal_impl_heuristic, get_prepostorder_by_size, get_linear_by_size"]}
{"id": "C21", "title": "Update lists replay all events in order", "statement": "Iterating a GraphUpdate yields exactly the events added, in the order they were added, numbered consecutively from 1, no matter how adding, iterating and serialising were interleaved.", "quantifier": "every interleaving of add_event, iter, is_empty and serialise/deserialise", "why_tests_cant": "events are spread over several finished change sets; numbering continues over them", "anchors": ["core/src/graph/update.rs: GraphUpdate::{add_event,iter,finish_all_changesets}, Serialize/Deserialize impl"]}
{"id": "C22", "title": "Applying an update has the documented graph effect", "statement": "apply_update changes nodes, labels, edges and edge labels exactly as the event list says, applied one after the other to an abstract labelled graph; in particular deleting a node removes all its labels and all edges from and to it.", "quantifier": "every graph reachable by updates and every event list", "why_tests_cant": "events refer to nodes by name while storages use ids, with a cache in between; any mismatch needs particular sequences", "anchors": ["core/src/graph/mod.rs: apply_update_in_memory, get_cached_node_id_from_name, get_or_create_writable"]}
{"id": "C23", "title": "Node ids are never shared or reused while a node lives", "statement": "At any time two different node names are mapped to different ids, and a new node never receives the id of an existing node.", "quantifier": "every history of updates", "why_tests_cant": "id allocation is derived from the largest id seen, which changes with deletions and clears", "anchors": ["core/src/graph/mod.rs: apply_update_in_memory (AddNode)", "core/src/annostorage/inmemory.rs: get_largest_item"]}
{"id": "C24", "title": "Acknowledged updates survive a crash", "statement": "If apply_update returned successfully, re-opening the corpus directory after a crash at any later point yields a graph that includes this update.", "quantifier": "every history of updates and background synchronisations and every crash point", "why_tests_cant": "needs a crash between two specific file system steps", "anchors": ["core/src/graph/mod.rs: apply_update, persist_updates, background_sync_wal_updates, internal_open, internal_save_with_backup", "graphannis/src/annis/db/corpusstorage.rs: apply_update"]}
{"id": "C25", "title": "A crash during a save never leaves a mixed graph", "statement": "If the process stops at any step of the background save, re-opening yields either the complete content before or after the logged update, never a partial directory.", "quantifier": "every crash point of the save protocol", "why_tests_cant": "needs a crash between two specific file system steps", "anchors": ["core/src/graph/mod.rs: internal_save_with_backup, internal_open"]}
{"id": "C26", "title": "Components map to distinct directories and parse back", "statement": "Different components are stored in different directories, and parsing the textual form of a component gives the component.", "quantifier": "every pair of component types, layers and names", "why_tests_cant": "special names and layers (empty, default_layer, slashes) collide", "anchors": ["core/src/graph/mod.rs: component_to_relative_path, component_path, find_components_from_disk", "core/src/types.rs: impl Display/FromStr for Component"]}
{"id": "C27", "title": "Result sorting yields a sorted permutation for every random choice", "statement": "sort returns a permutation of the input that is ascending in the given order, and sort_first_n_items(n) returns a permutation whose first n items are the n smallest in order, whatever pivots the random generator picks.", "quantifier": "every input list, every total preorder, every n, every sequence of random pivots", "why_tests_cant": "randomised algorithm, unbounded inputs; duplicates and boundary pivots matter", "anchors": ["graphannis/src/annis/util/quicksort.rs: sort, sort_first_n_items, quicksort, randomized_partition, partition, insertion_sort"]}
{"id": "C28", "title": "Result pages are slices of the full result", "statement": "find over a list of corpora with offset o and limit l returns the slice [o, o+l) of the concatenation of the per-corpus result lists.", "quantifier": "every list of corpora, every distribution of result sizes, every offset and limit", "why_tests_cant": "offset bookkeeping spans corpora; errors show only when an offset ends exactly at certain corpus borders", "anchors": ["graphannis/src/annis/db/corpusstorage.rs: find, find_in_single_corpus, create_find_iterator_for_query"]}
{"id": "C29", "title": "Match order is a total order", "statement": "The comparison used to sort matches is a total preorder (transitive, and comparing the other way round gives the inverse result), so that the result order is well defined.", "quantifier": "every three match groups over every corpus graph", "why_tests_cant": "transitivity needs all triples; mixed comparison criteria only conflict in particular triples", "anchors": ["graphannis/src/annis/db/sort_matches.rs: compare_matchgroup_by_text_pos, compare_match_by_text_pos, compare_document_path"]}
{"id": "C30", "title": "Nested loop join is the filtered cross product", "statement": "The nested loop join yields exactly the combinations of left and right matches for which the operator (and the reflexivity rule) holds, each once.", "quantifier": "every pair of finite input lists, every operator predicate, both operand orders", "why_tests_cant": "the join has a first pass and a cached pass with separate code, all sizes matter", "anchors": ["graphannis/src/annis/db/exec/nestedloop.rs"]}
{"id": "C31", "title": "Parallel joins give the same matches as sequential joins", "statement": "The parallel nested loop and parallel index join yield the same multiset of matches as the sequential ones, for every buffer size and every order in which worker threads finish.", "quantifier": "every input, every buffer size, every thread schedule", "why_tests_cant": "schedules are not controllable in tests", "anchors": ["graphannis/src/annis/db/exec/parallel/nestedloop.rs", "graphannis/src/annis/db/exec/parallel/indexjoin.rs", "graphannis/src/annis/db/exec/nestedloop.rs", "graphannis/src/annis/db/exec/indexjoin.rs"]}
{"id": "C32", "title": "Index join equals nested loop join", "statement": "If the operator's candidate retrieval and its pairwise check agree, executing an operator as index join or as nested loop join gives the same set of matches.", "quantifier": "every operator, every left-hand side result and node search", "why_tests_cant": "the planner picks between them from cost estimates; users must not see a difference for any corpus", "anchors": ["graphannis/src/annis/db/exec/indexjoin.rs", "graphannis/src/annis/db/exec/nestedloop.rs", "graphannis/src/annis/db/aql/conjunction.rs: create_join"]}
{"id": "C33", "title": "Alternatives of a query are united without duplicates", "statement": "A query with several alternatives returns each match of each alternative exactly once.", "quantifier": "every number of alternatives, every overlap of their results", "why_tests_cant": "overlaps depend on the data", "anchors": ["graphannis/src/annis/db/plan.rs: ExecutionPlan::{from_disjunction,next,insert_into_unique_result_set,reorder_match}"]}
{"id": "C34", "title": "The query result does not depend on the join order", "statement": "For a conjunction, every order in which operators are executed yields the same set of node assignments (reported at the positions of the query).", "quantifier": "every conjunction of node searches and operators, every permutation of the operators, every cost estimate", "why_tests_cant": "the planner uses random permutations and cost estimates", "anchors": ["graphannis/src/annis/db/aql/conjunction.rs: optimize_join_order_heuristics, make_exec_plan_with_order, add_binary_operator_to_exec_plan", "graphannis/src/annis/db/exec/mod.rs: ExecutionNodeDesc::join", "graphannis/src/annis/db/exec/filter.rs"]}
{"id": "C35", "title": "Queries with unconnected nodes are rejected, connected ones accepted", "statement": "A conjunction is rejected with 'Variable not bound' iff some of its (non-optional) nodes is not connected to the first one through binding operators.", "quantifier": "every number of nodes and every list of operators", "why_tests_cant": "component merging is order dependent; all operator graphs must be covered", "anchors": ["graphannis/src/annis/db/aql/conjunction.rs: check_components_connected"]}
{"id": "C36", "title": "Error positions point to the right line and column", "statement": "For each byte offset of a query string the reported line and column designate this offset: line = number of line breaks before it (lines are counted from 0), column = distance to the line start + 1 (columns are counted from 1).", "quantifier": "every query string and every offset", "why_tests_cant": "all inputs with any placement of line breaks", "anchors": ["graphannis/src/annis/db/aql/mod.rs: get_line_offsets, get_line_and_column_for_pos, extract_location"]}
{"id": "C37", "title": "The corpus cache keeps the requested corpus and evicts oldest first", "statement": "Checking the cache never removes a corpus that is requested to be kept, removes the least recently loaded others first, and afterwards the size is within the limit or nothing removable is left.", "quantifier": "every cache content, size assignment and limit", "why_tests_cant": "all cache histories and sizes", "anchors": ["graphannis/src/annis/db/corpusstorage.rs: check_cache_size_and_remove_with_cache, get_loaded_entry"]}
{"id": "C38", "title": "Operator candidates and operator check agree", "statement": "For precedence, near, identical coverage, left/right alignment, inclusion and overlap: the nodes returned as candidates for a left-hand side are exactly the nodes for which the pairwise check succeeds, and the inverse operator holds for (b,a) iff the operator holds for (a,b).", "quantifier": "every corpus graph with well-formed token order and alignment edges, every pair of nodes, every range", "why_tests_cant": "planner may use either form; agreement must hold for all graphs", "anchors": ["graphannis/src/annis/db/aql/operators/precedence.rs", "graphannis/src/annis/db/aql/operators/near.rs", "graphannis/src/annis/db/aql/operators/identical_cov.rs", "graphannis/src/annis/db/aql/operators/leftalignment.rs", "graphannis/src/annis/db/aql/operators/rightalignment.rs", "graphannis/src/annis/db/aql/operators/inclusion.rs", "graphannis/src/annis/db/aql/operators/overlap.rs"]}
{"id": "C39", "title": "Token search returns every token exactly once", "statement": "The search for all tokens returns every node with a tok annotation that has no outgoing coverage edge, each exactly once, following the token order inside each text.", "quantifier": "every corpus graph whose ordering component is a union of chains", "why_tests_cant": "a shortcut is taken depending on a global statistic of the corpus", "anchors": ["graphannis/src/annis/db/exec/tokensearch.rs", "graphannis/src/annis/db/aql/model.rs: calculate_global_statistics"]}
{"id": "C40", "title": "Frequency tables account for every match", "statement": "The counts of a frequency table add up to the number of matches, each value combination appears once, and rows are ordered by descending count.", "quantifier": "every match list and every frequency definition", "why_tests_cant": "all multisets of value tuples", "anchors": ["graphannis/src/annis/db/corpusstorage.rs: frequency"]}
{"id": "C41", "title": "Value comparison is symmetric under operand switching", "statement": "#a == #b and #a != #b give the same result whichever operand the planner evaluates first.", "quantifier": "every annotation storage, every pair of node specifications and matches", "why_tests_cant": "depends on which operand order the planner takes", "anchors": ["graphannis/src/annis/db/aql/operators/equal_value.rs: get_inverse_operator, filter_match, retrieve_matches"]}
{"id": "C42", "title": "GraphML export and import preserve the graph", "statement": "Importing an exported GraphML file yields a graph with the same nodes, labels, edges and edge labels.", "quantifier": "every graph, every label name and value", "why_tests_cant": "all names with special characters, all label sets", "anchors": ["core/src/graph/serialization/graphml.rs: export, import, write_annotation_keys, add_annotation_key, add_node, add_edge", "core/src/util/mod.rs"]}
{"id": "C43", "title": "Corpus names map to distinct directories below the data directory", "statement": "Different corpus names are stored in different directories, listing the directory gives the names back, and a corpus directory is a direct child of the data directory.", "quantifier": "every pair of corpus names", "why_tests_cant": "all strings, including path separators and dots", "anchors": ["graphannis/src/annis/db/corpusstorage.rs: corpus_directory_on_disk, list_from_disk, PATH_ENCODE_SET"]}
{"id": "C44", "title": "Union of components behaves like the set union of edges", "statement": "The union of several edge containers returns exactly the union of their edges, without duplicates.", "quantifier": "every list of containers", "why_tests_cant": "all overlaps", "anchors": ["core/src/graph/storage/union.rs"]}
{"id": "C45", "title": "Left and right context windows are clipped, not dropped", "statement": "The context of a match contains the covered tokens extended by at most the requested number of tokens on both sides, clipped at the text boundary.", "quantifier": "every token chain, every position and every context size", "why_tests_cant": "all chain lengths and context sizes", "anchors": ["graphannis/src/annis/db/corpusstorage/subgraph.rs: get_left_right_token_with_offset_with_token, TokenIterator"]}
{"id": "C46", "title": "Negated operators are exact complements", "statement": "A negated operator holds for a pair iff the operator does not, and 'not exists' holds for a node iff no node of the optional search fulfils the operator with it.", "quantifier": "every operator, every node search, every annotation storage", "why_tests_cant": "must hold over all candidates; absence can not be tested by example", "anchors": ["graphannis/src/annis/db/aql/operators/negated_op.rs", "graphannis/src/annis/db/aql/operators/non_existing.rs"]}
{"id": "C47", "title": "Count equals the number of found matches", "statement": "count returns the number of matches that find without offset and limit returns, and fails if the query execution fails.", "quantifier": "every corpus list, every query plan result including errors", "why_tests_cant": "counting and finding are separate loops with different error handling and different join implementations", "anchors": ["graphannis/src/annis/db/corpusstorage.rs: count, find"]}
{"id": "C48", "title": "Automatically created coverage and token alignment edges are correct", "statement": "After applying an update the inherited coverage of a node is the set of tokens reachable by coverage and dominance edges, and its left-most and right-most aligned tokens are the first and last covered token in text order.", "quantifier": "every corpus graph and every update", "why_tests_cant": "incremental index maintenance; all graph shapes", "anchors": ["graphannis/src/annis/db/aql/model.rs: calculate_inherited_coverage_edges, AQLUpdateGraphIndex"]}
{"id": "C49", "title": "Disjunctive normal form keeps the query meaning", "statement": "Splitting a parsed query into alternatives keeps its boolean meaning: a combination of matches satisfies the query iff it satisfies one of the alternatives.", "quantifier": "every boolean combination of node and operator terms", "why_tests_cant": "all nesting depths and shapes", "anchors": ["graphannis/src/annis/db/aql/mod.rs: find_all_children_for_and, find_all_children_for_or, get_alternatives_from_dnf, parse"]}
{"id": "C50", "title": "Statistics-based selectivity estimates stay within the data", "statement": "Histogram bucket positions used to estimate match counts always index into the sampled values and cover first and last sample; estimates never exceed the number of annotations.", "quantifier": "every sample size and every number of buckets", "why_tests_cant": "index arithmetic over all sizes", "anchors": ["core/src/annostorage/inmemory.rs: calculate_statistics, guess_max_count"]}
{"id": "C51", "title": "Acknowledged updates are seen by every later request", "statement": "When an update of a corpus has been acknowledged, every later request for this corpus (by any thread, whether the corpus is still loaded or has been evicted, unloaded and loaded again) gets a graph that contains it, in the order of the acknowledgements; a deleted corpus does not come back.", "quantifier": "every history of requests, updates, unloads, deletions, creations and imports, every interleaving of threads and background workers, every cache limit and memory measurement", "why_tests_cant": "the number of interleavings is unbounded and depends on memory measurements", "anchors": ["graphannis/src/annis/db/corpusstorage.rs: get_loaded_entry, load_entry_with_lock, apply_update, sync_wal_updates_in_background, unload, delete", "core/src/graph/mod.rs: persist_updates, background_sync_wal_updates"]}
{"id": "C52", "title": "Creation, import and deletion of corpora answer whether the corpus exists", "statement": "create_empty_corpus creates a corpus and answers true iff there is none with this name; delete removes exactly this corpus and answers true iff there was one; an import without overwriting fails only if the corpus exists.", "quantifier": "every history of operations and every interleaving", "why_tests_cant": "depends on the history of the cache", "anchors": ["graphannis/src/annis/db/corpusstorage.rs: create_empty_corpus, delete, import_from_fs, get_entry"]}
{"id": "C53", "title": "Searches for single nodes find what they describe", "statement": "The search for one node of a query (annotation with or without namespace and value, negated or as regular expression, token text, any token, any node) returns exactly the nodes that meet the description, each once, and the conditions handed to index joins describe the same nodes; only an invalid regular expression is an error.", "quantifier": "all corpora, all node descriptions, all regular expression engines", "why_tests_cant": "the search has several code paths (exact, regular expression, constant output, part-of-component) which must agree on every corpus", "anchors": ["graphannis/src/annis/db/exec/nodesearch.rs: NodeSearch::from_spec, NodeSearchSpec::get_value_filter, new_partofcomponentsearch", "graphannis/src/annis/db/exec/indexjoin.rs"]}
{"id": "C54", "title": "Operators on edges follow paths in the named relations", "statement": "Dominance and pointing operators hold for two nodes iff in some relation with the given name (whatever its layer) there is a path between them whose length is in the range, and an edge between them with the label if one is required; the nodes found as candidates are exactly these, each once, the inverse operator is the same with exchanged operands, and arity counts the different children in all relations.", "quantifier": "every graph with any components in any layers, every storage implementation, every range, every edge label condition, all nodes", "why_tests_cant": "all graphs, all combinations of components, all ranges; duplicates only arise when several components overlap", "anchors": ["graphannis/src/annis/db/aql/operators/edge_op.rs: BaseEdgeOp, check_edge_annotation, DominanceSpec, PointingSpec, PartOfSubCorpusSpec", "graphannis/src/annis/db/aql/operators/arity.rs", "graphannis/src/annis/db/aql/operators/identical_node.rs", "core/src/graph/mod.rs: get_all_components, get_graphstorage"]}
{"id": "C55", "title": "The web service shows a user only the corpora the user may read", "statement": "Users without the role admin change nothing, are refused all administrative requests, and get answers that depend only on the corpora of their groups and of the group \"anonymous\"; a request naming another corpus is refused and the refusal lists exactly the corpora that are not allowed; requests for allowed corpora are answered as for an administrator; the list of corpora has exactly the existing allowed ones. An invalid token is refused.", "quantifier": "all histories of requests, group changes, jobs and changes of the corpora; all tokens, users, requests and corpus contents", "why_tests_cant": "secrecy is a statement about pairs of services that differ in what the user may not see; every request type, every history of group changes", "anchors": ["webservice/src/auth.rs: Claims", "webservice/src/extractors.rs: ClaimsFromAuth::from_request", "webservice/src/api/mod.rs: check_corpora_authorized_read", "webservice/src/api/corpora.rs", "webservice/src/api/search.rs", "webservice/src/actions.rs: authorized_corpora_from_groups"]}
{"id": "C56", "title": "Groups are what the administrators set last", "statement": "The groups and their corpora are those of the last successful change of each group; failed changes have no effect; deleting a group revokes the rights of its members.", "quantifier": "all histories of requests by all users", "why_tests_cant": "depends on the transaction and the foreign key of the database for every sequence of changes", "anchors": ["webservice/src/actions.rs: list_groups, delete_group, add_or_replace_group", "webservice/migrations", "webservice/src/api/administration.rs: list_groups, delete_group, put_group"]}
{"id": "C57", "title": "Background jobs report their state and hand out their result once", "statement": "An administrator asking for an import or export job gets the progress messages while it runs, its result or error when it has finished, and \"not found\" if it never existed or its result was already fetched.", "quantifier": "all interleavings of requests, progress messages and terminating jobs", "why_tests_cant": "schedule of concurrent jobs and requests", "anchors": ["webservice/src/api/administration.rs: import_corpus, export_corpus, jobs, BackgroundJobs"]}
{"id": "C58", "title": "Linked files stay in the directory of their corpus", "statement": "The service lists and delivers only files in the directory for linked files of the named corpus, these directories are different for different corpora and are the ones the corpus storage writes to, and a listed file can be fetched by its path.", "quantifier": "all corpus names, file names and directory contents", "why_tests_cant": "path traversal is a statement about every string", "anchors": ["webservice/src/api/corpora.rs: list_files, file_content", "graphannis/src/annis/db/corpusstorage.rs: corpus_directory_on_disk"]}
{"id": "C59", "title": "relANNIS tables survive writing and reading", "statement": "Writing the rows of the tables of a relANNIS corpus, with values escaped and missing values as NULL, and reading the files gives the same rows; no value can contain a separator.", "quantifier": "all tables with numbers in range, all field values", "why_tests_cant": "needs every byte string, including tabs, line ends and backslashes", "anchors": ["graphannis/src/annis/db/relannis.rs: postgresql_import_reader, get_field, escape_field, parse_corpus_tab, load_node_tab, load_rank_tab"]}
{"id": "C60", "title": "Imported nodes, documents and corpora have distinct names", "statement": "The name of an imported node is the path of corpus names from the top-level corpus to its document, followed by # and its own name; different rows get different names, no node has the name of a corpus, and documents with the same name are told apart.", "quantifier": "all corpus trees and node tables", "why_tests_cant": "injectivity over all names and tree shapes", "anchors": ["graphannis/src/annis/db/relannis.rs: get_parent_path, get_corpus_path, parse_corpus_tab"]}
{"id": "C61", "title": "An imported relANNIS corpus is the graph of its tables", "statement": "For tables that describe a corpus the import succeeds; the nodes are those of the node, corpus, text and file tables; the annotations, token texts, layers, metadata, edges and edge annotations of the graph are exactly those of the tables, and the stored graph shows them.", "quantifier": "all sound tables of versions 3.2 and 3.3, all nodes, keys and edges", "why_tests_cant": "the tables are unbounded and every row interacts with every other", "anchors": ["graphannis/src/annis/db/relannis.rs: load, load_annotation_graph, load_node_tab, load_node_anno_tab, load_rank_tab, load_edge_annotation, load_corpus_annotation"]}
{"id": "C62", "title": "Imported order and coverage", "statement": "A token or node of a segmentation has an ordering edge to the next one of its text and no other; a node without text has coverage edges exactly to the tokens between its first and its last token and those of the tables.", "quantifier": "all sound tables", "why_tests_cant": "adjacency in an order is a statement about all other nodes", "anchors": ["graphannis/src/annis/db/relannis.rs: calculate_automatic_token_order, calculate_automatic_coverage_edges"]}
{"id": "C63", "title": "Imported nodes are part of their document and corpus", "statement": "Nodes are part of their text, texts of their document, documents of their corpus, and everything is part of the top-level corpus by a chain of edges; there are no other part-of edges.", "quantifier": "all sound tables and corpus trees", "why_tests_cant": "chains of any length in any tree", "anchors": ["graphannis/src/annis/db/relannis.rs: add_subcorpora, add_external_data_files"]}
{"id": "C64", "title": "The text between tokens is kept", "statement": "The label for the white space after a token is the text up to the next token, or to the end, and the label before the first token is the text before it.", "quantifier": "all texts and all token positions", "why_tests_cant": "any text with any multi-byte characters and gaps", "anchors": ["graphannis/src/annis/db/relannis.rs: add_white_space_token_labels"]}
{"id": "C65", "title": "The imported configuration is the one of the configuration files", "statement": "After the import of a relANNIS corpus every setting has the value of the last valid line of corpus.properties with its key, and its default otherwise. The visualizers are those of the resolver table and the default ones that no row replaces, sorted by their order. The example queries are the rows with query and description, in their order. No content of these files makes the import panic.", "quantifier": "all properties files, all resolver and example query tables", "why_tests_cant": "any list of lines with repeated, invalid and unknown settings, and any list of rows", "anchors": ["graphannis/src/annis/db/relannis.rs: load_resolver_vis_map, load_example_queries, load_corpus_properties", "graphannis/src/annis/types.rs: CorpusConfiguration"]}
{"id": "C66", "title": "A query text is parsed to the query it describes", "statement": "The parser splits a text into the longest tokens of the query language, and accepts it iff the grammar derives an expression from the tokens; this expression is unique and is the result. In particular a query that is written down, with any white space that keeps its words apart, is parsed to its meaning: its node searches, operators with distances and edge annotations, negation, optional nodes, comparisons, and conjunctions that bind more tightly than disjunctions. No text makes the parser panic (refuted: references with numbers of more than 64 bits), every name and value can be searched for (refuted), and the result has one node search at a position.", "quantifier": "all texts as byte sequences; all query descriptions and all their layouts", "why_tests_cant": "texts of any length with any nesting and any white space; unambiguity and longest matches concern all texts", "anchors": ["graphannis/src/annis/db/aql/parser.lalrpop", "graphannis/src/annis/db/aql/mod.rs: parse", "graphannis/src/annis/db/aql/ast.rs"]}
{"id": "C67", "title": "A subgraph is a faithful copy of the matched part of a corpus", "statement": "The graph that is returned for a subgraph, a query or a list of (sub-)corpora has exactly the chosen nodes of the matches, with all their labels. Of each component of the requested type, except for computed index components, it has exactly the edges between these nodes, with all their labels, and no other components. Tokens which follow each other in the matches but not in the text are connected by an edge that marks the gap, and for matches with context these are the gaps in the text. A copy is made whenever the matches can be computed. (Refuted: that the marked gaps of a query do not depend on the order of its matches.)", "quantifier": "all graphs, all sequences of matches with errors and repetitions, all chosen positions and component types", "why_tests_cant": "any graph, any order and repetition of matches, any number of components and labels", "anchors": ["graphannis/src/annis/db/corpusstorage/subgraph.rs: create_subgraph_for_iterator, create_subgraph_node, create_subgraph_edge", "graphannis/src/annis/db/corpusstorage.rs: subgraph, subgraph_for_query, subcorpus_graph, corpus_graph"]}
{"id": "C68", "title": "Linked files travel with their corpus and stay in its directory", "statement": "After an import, each file linked by a corpus that could be read is in the directory of the corpus, with the same content, under the name of its node, and the node links to it; all other labels are unchanged. Imports and exports change no file outside of the directory of the corpus or of the export. An import succeeds if no file name is a directory of another one, and a failed import leaves the corpora as they were. A corpus that is exported to a directory or to a ZIP file and imported again, in this or another corpus storage, has the same graph and the same files, and nothing else is imported. (Refuted for node names with parent directories or absolute names, which overwrite any file, for links to files elsewhere on the system, for overwriting imports that fail, for ZIP files of corpora with missing files or with linked GraphML files, and for corpus names with a slash.)", "quantifier": "all file systems, corpora with any number of linked files and any labels, source and target directories, corpus storages, formats that preserve the graph", "why_tests_cant": "any names, links, directories and existing files; attacks and collisions are exactly the cases not tested", "anchors": ["graphannis/src/annis/db/corpusstorage.rs: import_from_fs, import_all_from_zip, copy_linked_files_and_update_references, get_linked_files, copy_linked_files_to_disk, export_corpus_graphml, export_corpus_zip, export_to_zip, export_to_fs"]}
{"id": "C69", "title": "The size of a corpus is the number of its tokens or segmentation units", "statement": "After an import or an optimization the size of a corpus is given in the unit chosen by its configuration, else in units of the displayed segmentation, else in tokens. The number of tokens is the number of results of a search for all tokens; the number for a segmentation is the number of nodes in its order, at least if no edges were deleted. A configured unit is kept. (Refuted: for a unit without statistics, for segmentations with the same name in several layers, after deletions and for corpora without a component for the token order.)", "quantifier": "all corpora, update histories of the segmentations, orders of iteration, and configurations", "why_tests_cant": "any corpus, any configuration, any iteration order of a hash map, any history of updates", "anchors": ["graphannis/src/annis/db/aql/model.rs: calculate_global_statistics, CorpusSize", "graphannis/src/annis/db/corpusstorage.rs: update_corpus_size_info, import_from_fs, reoptimize_implementation", "graphannis/src/annis/types.rs: CorpusSizeInfo, CorpusSizeUnit"]}
{"id": "C70", "title": "The listings of components and annotations describe the corpus", "statement": "Listing the annotations of the nodes or of a component gives every annotation name that is used exactly once, or with values every pair of a name and a value that occurs exactly once, or for each name one of its most frequent values; an unknown corpus or component has none. Listing the components gives every component of the corpus that passes the filters for type and name exactly once. (Refuted: with annotations on disk the least frequent value is listed as the most frequent one, and components that were added by an update are not listed until the background synchronisation is done.)", "quantifier": "all histories of the annotation storages, all values and names, all graphs, updates, crashes and recoveries, all filters", "why_tests_cant": "any content and any history; the listing reads the disk while the corpus is in main memory", "anchors": ["graphannis/src/annis/db/corpusstorage.rs: list_components, list_node_annotations, list_edge_annotations", "core/src/graph/mod.rs: find_components_from_disk", "core/src/annostorage/inmemory.rs: get_all_values, annotation_keys", "core/src/annostorage/ondisk.rs: get_all_values, annotation_keys"]}
{"id": "C71", "title": "Descriptions of the nodes of a query", "statement": "The node descriptions of an accepted query list the node searches of every alternative, alternative by alternative and in the order of the text, none left out and none added. Each gives the alternative, the variable (or the running number of an unnamed node), whether the node is optional, and a text that is itself a query for the same node search; variables in an alternative are different. (Refuted: the text for a qualified annotation name that starts with arity is not a query, and negated searches do not give their annotation name.)", "quantifier": "all query texts, all their alternatives, node searches and variables", "why_tests_cant": "any text, nesting of alternatives, name and value; the number of an unnamed node depends on all previous alternatives, and whether the text can be parsed depends on the longest matches of the lexer", "anchors": ["graphannis/src/annis/db/corpusstorage.rs node_descriptions", "graphannis/src/annis/db/aql/conjunction.rs get_node_descriptions", "graphannis/src/annis/db/exec/nodesearch.rs Display for NodeSearchSpec", "graphannis/src/annis/types.rs QueryAttributeDescription"]}
{"id": "C72", "title": "Queries in quirks mode", "statement": "In the compatibility mode for the old query language, a query means its literals without the metadata searches, with unlimited precedence and near distances at most 50, and one document that contains the first node and matches all the metadata searches. The matches list the nodes of the query in the order of the text, followed by a copy of a node for each of its dominance and pointing relations but the first one; nodes of metadata searches are not listed. A query is accepted iff it would be without its metadata searches. (Refuted: metadata searches combined by \"or\" all have to hold, numbers of nodes in later alternatives are shifted, an alternative of metadata searches only has matches without nodes, and an optional node of two relations gets a copy that has to exist.)", "quantifier": "all query texts, all their alternatives, numbers of metadata searches and relations, all graphs and matches", "why_tests_cant": "any number of relations of a node and of metadata searches; the numbers of nodes and the references depend on all the nodes that were added before, in this and in previous alternatives", "anchors": ["graphannis/src/annis/db/aql/mod.rs map_conjunction", "graphannis/src/annis/db/aql/mod.rs add_legacy_metadata_constraints", "graphannis/src/annis/db/aql/mod.rs calculate_node_positions", "graphannis/src/annis/db/aql/conjunction.rs add_node_from_query"]}
{"id": "C73", "title": "A query finds exactly its matches", "statement": "Running a query text returns, each once, exactly the lists of matches of its mandatory node searches, in the order of the text, for which there is an assignment of matches to all the searches that satisfies the query: the searches find their matches, all operators and negated operators hold, and no match exists for a negated operator with an optional operand. For a disjunction this is the union over the alternatives of the text. The result does not depend on the order in which operators are executed, on the estimates of the optimizer or on parallel execution. A query whose alternatives are connected always has an answer. (Limits: assignments that use a match twice are only found if the operators are reflexive; with several alternatives no search may be optional, see C33; references by number count within an alternative, see C49.)", "quantifier": "all query texts of the grammar, all meanings of searches and operators (all graphs), all engines whose searches and operators have these meanings, all orders of operators, optimizer decisions and schedules of parallel joins", "why_tests_cant": "composes parser, normal form, mapping, planning, joins, union and output, each with unbounded inputs; plans and schedules cannot be enumerated", "anchors": ["graphannis/src/annis/db/aql/mod.rs execute_query_on_graph", "graphannis/src/annis/db/aql/mod.rs parse", "graphannis/src/annis/db/aql/conjunction.rs make_exec_plan_with_order", "graphannis/src/annis/db/plan.rs ExecutionPlan"]}
{"id": "C74", "title": "A query on a stored corpus finds the nodes its text describes", "statement": "For a stored corpus whose texts are chains of tokens and whose spans have correct edges to their first and last token, running a query text returns, each once, exactly the lists of nodes (with the reported annotation) such that each node has an annotation that meets its description (value, regular expression, negation, token, any node), each pair of nodes is related as its operator says (dominance, pointing and part-of relations: a path of allowed length and a label on the edge; precedence, near, overlap, inclusion, identical coverage, left and right alignment: the positions of the first and last covered token; same node), negated operators do not hold, nothing exists for negated operators with an optional operand, and the number of children is as required by arity. This holds whatever the optimizer decides: order of operators, index or nested loop join, inverse operators, parallel joins. (Not covered: comparison of values, the replacement of a search by a search in components.)", "quantifier": "all stored corpora with these properties, all query texts of the grammar with valid patterns and allowed distances, all orders of operators, estimates, optimizer decisions and schedules", "why_tests_cant": "corpora, queries, plans and schedules are unbounded; the claim composes the storages, the searches, the operators, the joins and the parser", "anchors": ["graphannis/src/annis/db/aql/mod.rs execute_query_on_graph", "graphannis/src/annis/db/exec/nodesearch.rs from_spec", "graphannis/src/annis/db/aql/operators/mod.rs", "graphannis/src/annis/db/aql/operators/negated_op.rs", "graphannis/src/annis/db/aql/operators/non_existing.rs"]}
{"id": "C75", "title": "Number and pages of the results of a query in several corpora", "statement": "For a query text and several stored corpora, the reported number is the number of pairs of a corpus and a result of the query in it. A request with offset and limit returns the slice of one list that contains each result of each corpus exactly once, the corpora one after the other and the results of a corpus in ascending order of the comparison (unless the order of the plan is used). Without limit, as many results are returned as are counted, none twice and none is missing. (Limits: those of C74; offset plus limit below 2^64; the comparison is a total preorder.)", "quantifier": "all lists of corpora, query texts, plans and schedules, offsets and limits, random choices of the sort", "why_tests_cant": "it combines unbounded result sets, offsets and limits with arbitrary plans and random pivots", "anchors": ["graphannis/src/annis/db/corpusstorage.rs CorpusStorage::find", "graphannis/src/annis/db/corpusstorage.rs CorpusStorage::count", "graphannis/src/annis/db/corpusstorage.rs create_find_iterator_for_query"]}
{"id": "C76", "title": "The C interface passes arguments, results and errors on unchanged", "statement": "A C string argument reaches the library as the text before its first NUL (a null pointer as the empty text), and always as valid UTF-8. Text results are C strings with the same text. A list of update calls records the events the client means in their order. Counting, finding, subgraphs, frequencies, listings and validation return what the library returns for the names and texts the client gave, readable completely with the size and access functions; after an error the error variable is a list with message, kind and causes, and it stays a null pointer otherwise. Calling an iterator until null gives all items or the ones before the reported error. (Limits, refuted: a text with a NUL becomes the empty string; an invalid frequency definition is dropped without error; without an error variable an error looks like the end.)", "quantifier": "all memory contents, strings, lists of calls, results and errors of the library", "why_tests_cant": "strings, vectors, tables and lists of calls are unbounded, and the library's results are arbitrary", "anchors": ["capi/src/lib.rs cstr", "capi/src/lib.rs map_cerr", "capi/src/cerror.rs create_error_list", "capi/src/data.rs iter_next", "capi/src/data.rs annis_matrix_str_get", "capi/src/update.rs annis_graphupdate_add_edge_label", "capi/src/graph.rs annis_graph_outgoing_edges", "capi/src/corpusstorage.rs annis_cs_find", "capi/src/corpusstorage.rs annis_cs_frequency"]}
{"id": "C77", "title": "Replacing the search for a node by the edges of an operator loses no result", "statement": "Before a query is run, the search for a node may be replaced by a search for the nodes at which an edge of one of its operators starts, if fewer nodes are expected there. The new search finds exactly the nodes which meet the description and have such an edge, so nothing is added. If every operator that starts at this node is a dominance, pointing or part-of relation or precedence with at least one step and is not negated, then every result of the query is still found. (Refuted for the other operators: near, overlap, inclusion and identical coverage lose results whose first operand is the last word of its text, the alignments lose every word as first operand, and negated operators lose the nodes without edges, for which they hold.)", "quantifier": "all corpora, descriptions, lists of operators, estimates, statistics and orders of hash sets", "why_tests_cant": "the replacement depends on estimates and statistics of the whole corpus, so small test corpora rarely reach it", "anchors": ["graphannis/src/annis/db/aql/conjunction.rs optimize_node_search_by_operator", "graphannis/src/annis/db/exec/nodesearch.rs new_partofcomponentsearch", "graphannis/src/annis/db/token_helper.rs necessary_components", "graphannis/src/annis/db/aql/operators/negated_op.rs necessary_components", "graphannis/src/annis/db/aql/operators/near.rs necessary_components"]}
{"id": "C78", "title": "The frequency table of a query counts its results", "statement": "For a query over stored corpora, the frequency table has exactly one row for each combination of label values that occurs in the results of the query in all the corpora, with the number of results with these values, the most frequent first. The numbers add up to the number which counting returns. For one label with a namespace, the number beside a value is the number of results whose node has this label with this value; results without the label are counted beside the empty string.", "quantifier": "all corpora, their updates, queries, definitions and numbers of results", "why_tests_cant": "the number of corpora, results, labels and definitions is unbounded", "anchors": ["graphannis/src/annis/db/corpusstorage.rs frequency", "graphannis/src/annis/db/corpusstorage.rs count", "core/src/annostorage/inmemory.rs get_qnames", "core/src/annostorage/inmemory.rs get_value_for_item"]}
{"id": "C79", "title": "A node name in a frequency definition selects the match of that search", "statement": "A frequency definition refers to a search of the query by its name or its number. The value it contributes to a row is the label value of the node that this search found in the result, for each search that is not optional. A name that no alternative of the query knows contributes no value. (The claim holds for searches of the first alternative with no optional search before them; the position used is too large by the number of searches of previous alternatives and the number of optional searches before, so that the value of another node, or none, is counted.)", "quantifier": "all queries with any number of alternatives, searches and optional searches; all definitions and results", "why_tests_cant": "the number of alternatives and searches, and the places of optional searches among them, are unbounded", "anchors": ["graphannis/src/annis/db/corpusstorage.rs frequency", "graphannis/src/annis/db/aql/disjunction.rs get_variable_pos", "graphannis/src/annis/db/aql/conjunction.rs resolve_variable_pos", "graphannis/src/annis/db/aql/conjunction.rs add_node_from_query"]}
{"id": "C80", "title": "The console passes commands on as they were typed", "statement": "In the interactive console, offset, limit, order, time-out, disk mode and query language have the value of the last line that set them, or their default. A query is passed to the library exactly as typed, with the selected corpora and these settings, and its answer or an error is shown; without a selection nothing is called. A line never leads to other library calls than the ones it stands for: in particular only selected corpora are used, and a corpus is deleted only by a delete command with its name. The selection consists of the typed names that exist. The console ends at the first quit or exit, and only there. A command that fails changes no setting. (The last claim fails for set-parallel-search, which loses the storage; also quit is ignored among the commands given as options, importing a missing file shows nothing, and a deleted corpus stays selected.)", "quantifier": "all sequences of lines, all storages and their answers including errors", "why_tests_cant": "sessions have any length, and the meaning of a line depends on all lines before it and on the answers of the storage", "anchors": ["cli/src/bin/annis.rs AnnisRunner", "cli/src/bin/annis.rs start_loop", "cli/src/bin/annis.rs exec", "cli/src/bin/annis.rs main"]}
{"id": "C81", "title": "A saved component is loaded again, and components of older versions keep their content", "statement": "A component of a graph that was saved is loaded again with the same edges, annotations and statistics, whatever other files are in its directory, and a later save replaces an earlier one. A component saved by an older version is loaded with all its edges and annotations and the same statistics. What is loaded always stands in the files. (The first claim fails if a file of an older version is left in the directory: saving a graph over an old one has no effect, the old component is loaded; and old statistics come back if there are no new ones. The number of roots in converted statistics is one, whatever the graph.)", "quantifier": "all components in each of the four storages for main memory, all directories and their files", "why_tests_cant": "the graphs and the files left by earlier saves are unbounded", "anchors": ["core/src/graph/storage/mod.rs load_statistics_from_location", "core/src/graph/storage/mod.rs save_statistics_to_toml", "core/src/graph/storage/legacy.rs GraphStatisticV1", "core/src/graph/storage/adjacencylist.rs load_from", "core/src/graph/storage/adjacencylist.rs save_to", "core/src/graph/storage/dense_adjacency.rs load_from", "core/src/graph/storage/linear.rs load_from", "core/src/graph/storage/prepost.rs load_from", "core/src/graph/mod.rs save_to"]}
