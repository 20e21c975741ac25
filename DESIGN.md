# Formal model of graphANNIS in Rocq

Source of truth: `/repo` (korpling/graphANNIS, pinned). The code is only read, never run;
the tie between model and code is the citation on every definition.

## Layout (all under `rocq/theories`)

For each area `X`:

* `X.v`       – the model: computable Gallina functions, each citing file and lines of `/repo`.
* `XSpec.v`   – where useful, the small independent specification (relations, abstract maps).
* `XProofs.v` – lemmas and proofs.
* `XProps.v`  – only the property theorems, each closed by `exact lemma.`, with
  `Print Assumptions` below and an `Example` witnessing that hypotheses are satisfiable.

`…_refuted` theorems state that the faithful model (hence, by reading, the code) violates the
property as worded; they come with a restricted positive theorem that names the extra hypothesis.

## Plan per property

| id | model | proof |
|----|-------|-------|
| C01 | `SymbolTable`: slot vector, free list, reverse map | invariant + refinement over any op list, save/load as an op |
| C02 | `KeySer`: big-endian byte lists over N; `RelAnnisKeys`: the keys of the maps of the relANNIS import | round trip and lexicographic order = numeric order, any width |
| C03 | `QName`: percent encoding of byte strings, split at first `::` | injectivity; split∘join on names without escaped bytes; refutation otherwise |
| C04-C07 | `DiskMap`: three levels with tombstones, threshold eviction, merge iterator | refinement to a finite map over any op list; `contains_key` refuted + restricted |
| C08-C10 | `AnnoMem`: symbol tables, forward and reverse index, counters | invariant + refinement to item→key→value; total count refuted for clear |
| C11 | `AnnoDisk`: two ordered maps with symbol-encoded keys | agreement for histories w/o overwriting; refutation with overwriting |
| C12, C13, C15 | `Dfs`: explicit stack machine; `Adjacency` | soundness/completeness w.r.t. simple paths, termination by measure; distance refuted |
| C14 | `Adjacency` ops | refinement to an edge set |
| C16 | `Linear` | chains invariant, arithmetic on positions |
| C17 | `PrePost` | nesting invariant over the copy traversal |
| C18 | `Dense`, `DiskPath` | function-graph model, iteration |
| C19, C20 | `Stats`, `Registry` | acyclicity of what is reachable from roots; refutation by rootless cycle |
| C21 | `GraphUpdate` | invariant over op list |
| C22, C23 | `GraphApply` | refinement to an abstract labelled graph |
| C24, C25 | `Persist`: file system state machine, every prefix of steps is a crash point | invariant; refutations for lost log |
| C26, C43 | `Paths`: string encodings | injectivity under side conditions, refutations |
| C27 | `Quicksort` with an oracle of pivots and fuel | permutation and sortedness for each oracle |
| C28, C47 | `Paging` | induction over the corpus list |
| C29 | `SortMatches` | total preorder of document paths; refutation for the mixed order |
| C30-C32 | `Joins` : iterator state machines, schedules as permutations | equality with filtered product |
| C33 | `Plan` | dedupe invariant |
| C34, C35 | `Conjunction` | execution of operator list vs. satisfying assignments; connectivity = graph reachability |
| C36 | `LineCol` | induction over the string |
| C37 | `Cache` | induction over the eviction loop |
| C38, C46 | `Operators` over an abstract token order | agreement lemmas, refutation for overlap on discontinuous spans |
| C39 | `TokenSearch` | chain decomposition; refutation for the statistics shortcut |
| C40 | `Frequency` | counting |
| C41 | `EqualValue` | refutation with witness + restricted |
| C42 | `GraphML`: export (keys, nodes, edges, configuration), the XML events that are written and read (`transfer`, model of quick-xml, which is trusted) and import; the components are adjacency lists in memory | round trip for every graph that is reached by a history of C22 and needs no escapes in names (values are arbitrary), for every order of export and of the hash map; five refutations (escaped node names, percent-encoded label names, layers with a slash, nodes without a type, `]]>` in the configuration) |
| C44 | `Union` | sets |
| C45 | `Context` | chain positions |
| C48 | `Index`, `IndexSpec`, `IndexGood`, `IndexProofs`, `IndexLoop`, `IndexNew`, `IndexEvents`, `IndexInc`, `IndexHist`, `IndexAligned` | events, invalidation of cached nodes, clearing and re-computation of inherited coverage and alignment edges; invariant over the events of an update and induction over histories; refutations for late token labels, named dominance, replaced nodes and re-ordered texts |
| C49 | `Dnf` | boolean semantics |
| C50 | `Histogram` | arithmetic |
| C51, C52 | see properties.jsonl | invariants, refinement |
| C53 | `NodeSearch` over annotation storage, coverage components and token search | set equality with the description; agreement with the conditions used by index joins; refutations for duplicates |
| C54 | `BaseEdgeOp` with its specifications, `AritySpec`, `IdenticalNodeSpec`, `Graph::get_all_components` over the ordered component map | equivalence of check and candidates with paths and labels in the named components, for every storage that fulfils the storage specification; inverse; refutation for distance 0 |
| C55, C56 | `Service`: claims, tokens (verification is a parameter), SQLite tables with the foreign key, every request of the API over an abstract corpus engine; arbitrary changes of corpora and files from outside | invariant between tables and the history of group changes; non-interference for pairs of histories; refutations for broken configuration files, odd corpus names, and databases without foreign keys |
| C57 | job map and tasks of `Service`, started, reported and finished in any order | simulation of one job by its view |
| C58 | path handling of `Service` on the path model of `CompPath` | disjointness by injectivity of the encoding; refutations for `.`, names with `:` and files with two dots |
| C59 | `RelAnnis`: records, fields, rows; `RelAnnisFilesSpec`: a writer for each table | induction on the rows, round trip of decimal numbers and escapes; refutation for the value "NULL" |
| C60 | corpus table and paths | injectivity of the percent encoding and of joining; renaming of duplicates is equal to a specification; refutations for `#` and for existing numbered names |
| C61 | all events of the import, run on the logical graph of C22 | characterisation of each part of the event list, last event wins; application by C22 |
| C62 | order and coverage loops over sorted maps | neighbours in a sorted list; the loop over the index of tokens; exact in both directions |
| C63 | corpora, files and texts | induction on the tree; refutations for encoded top-level names and nodes in the top-level corpus |
| C64 | the loop over the characters of a text | invariant: the rest of the text and the offset; refutation for the text before the first token |
| C65 | parsing of the configuration files; the binary search is a parameter with the documented behaviour | fold over the lines with one lemma for each field; invariant over the rows: sorted, and a permutation of kept defaults and defined rules; refutation for a context step of zero |
| C66 | terminals and rules of the LALRPOP grammar: a longest-match lexer, the grammar as relations, and a deterministic parser for it | scanners equal to regular expressions; soundness and completeness of the parser for every rule, which gives unambiguity; round trip from descriptions through words and layouts; refutations for large numbers, `node->dep`, and names that are keywords |
| C67 | create_subgraph_for_iterator with its loops over matches, positions, components and edges, into a new graph; repeated matches, the previous token and the gap edges | invariant of the new graph (labels of chosen nodes, copied edges, gaps) over the loops; counting of labels for the absence of errors; link to the contexts of C45; refutation for the order of matches |
| C68 | a Unix file system with path resolution, create_dir_all, copy and remove; import_from_fs, import_all_from_zip, the copies of linked files in both directions, ZIP archives as lists of entries; formats are functions | the file system only grows inside the target directory (induction over the file nodes); copies are not overwritten if names differ; composition of export and import; refutations by traversal, collision and missing files |
| C69 | calculate_global_statistics with the hash map visited in any order, update_corpus_size_info; components of segmentations are adjacency lists with their histories | counting of the search for tokens against the set of tokens of C39; permutations of the entries; invariant "no empty lists" without deletions; refutations |
| C70 | the loops of list_node_annotations and list_edge_annotations over the annotation storages of C09 and C11; list_components over the directories of C24 | contents of the storages as in C09 and C11, counting of values on disk; the invariant of C24 for saved graphs; refutations |
| C71 | node_descriptions, get_node_descriptions and Display of NodeSearchSpec on top of the parser (C66) and the mapping of alternatives (C49) | rows of the node searches by induction on alternatives and positions; the displayed text is a layout of the words of the search without spaces, so the theorem on layouts (C66) parses it; refutations |
| C72 | quirks mode of queries (mod.rs): metadata searches, copies of nodes with several joins, limited distances, numbering of nodes | the conjunction before the additions is the one of C49 for the literals without metadata; every addition keeps an invariant (variables, numbers) and extends matches; joins are counted with the positions of operands; refutations |
| C73 | the way from a query text to its results: parser (C66), alternatives and conjunctions (C49), plans (C34), union and output (C33), joined in EndToEnd.v (`answers`); searches and operators are parameters with a contract (`engine_ok`) | composition: solutions of the compiled conjunction are the assignments that satisfy the literals (operands of operators are mandatory nodes by an invariant of the mapping); matches of the plan laid out and projected to the mandatory nodes are the matches by position |
| C74 | the searches and operators that are created for the descriptions in a query (CorpusEngine.v), from the models of searches (C53), operators on tokens (C38) and edges (C54) and negation (C46); left out: comparisons of values, replacement of searches by component searches | instantiation of the contract `engine_ok` of C73: an invariant for created operators, closed under inverse operators, from which check and candidates decide the same relation; then composition with C73. Example: a corpus with two texts, five spans and a dominance relation, all results of a query with three searches and two operators |
| C75 | the requests `find` and `count` for several corpora on top of the plans of C74 (ResultPages.v, Paging.v) | composition of C74 with C28: the concatenation of the ordered results of the corpora is a list of all results without repetition; counting is its length. Example: the query of C74 in two corpora |
| C76 | the C interface: strings (with the lossy UTF-8 decoding), error lists, vectors, matrices, frequency tables, iterators, update calls and the calls of the corpus storage (CApi.v); the library's operations are arguments | an own definition of UTF-8 by encodings of scalar values; decoding is the identity on it and always gives it; inductions over vectors and calls, C21 for updates. Refuted: NUL in texts, invalid frequency definitions, iterators without error variable |
| C77 | the decision to replace a search by the sources of an operator's components (conjunction.rs l.551-614) and the components each operator names (SearchChoice.v); the expected number of matches is an argument | own definition of the edges of an operator and of the results of an alternative (assignments of matches, SearchChoiceSpec.v); the new search is characterised with the theorems of C53, and an operator with at least one step needs an edge at its first operand; the other operators are refuted with a corpus of nine words and the exact estimates. Not covered: the plans which are built with the new search (the index joins use the old description) |
| C78 | the frequency query over the annotation storages and plans of stored corpora (FrequencyResults.v, joined from Frequency.v, AnnoMem.v and ResultPages.v); the position of the node of a definition is an argument (C40) | labels as a finite map, results as sets of matches per corpus (FrequencyResultsSpec.v); the theorem of C40 is instantiated with the annotation storage (C09) and with plans that find exactly the results of the query (C75_corpus_partial) |
| C79 | the look-up of the position of a variable in the alternatives (get_variable_pos of Frequency.v, Query.v) | which search a name refers to and which searches belong to a result (QuerySpec.v, EndToEndSpec.v, FrequencyNodeSpec.v); the exact position is proved for all queries, C79_value_partial says when it is the right one, and C79_optional_refuted and C40_values_of_second_alternative_refuted that it is wrong otherwise |
| C80 | the commands of the console, its settings and its loop (Console.v); the storage is any program that answers calls, with errors | what a line means is defined in ConsoleSpec.v and ConsoleExactSpec.v; the settings by induction over the lines, the calls by cases. Refuted: failed reopening of the storage, quit among options, missing files, deleted corpora in the selection |
| C81 | load_from and save_to of the storages for main memory, with the files of older versions (ComponentFiles.v); files hold values | look-ups in the map of files; the loaded storage is compared with the saved one, and with the old one up to the number of roots. Refuted: saving over a component of an older version, old statistics, number of roots |

## Trusted base

* The Coq 8.16.1 kernel, including its virtual machine (`vm_compute` is used for witnesses), and the definitions of the standard
  library and of std++. No plugin and no other library is used.
* Axioms: none. `Print Assumptions` stands below each property theorem and answers "Closed under the global context" for every
  theorem in `MANIFEST.json` (checked for all of them in one run as well).
* The reading of the Rust source. There is no extraction and no execution; each definition of the model cites the lines it models
  and says what it simplifies.
* Rust's standard collections behave as documented: `BTreeMap`/`BTreeSet` are sorted maps and sets, `HashMap`/`HashSet` are finite
  maps and sets with an arbitrary order of iteration, `Vec` is a list, `String` is a list of bytes in UTF-8.

Parameters of theorems. These are universally quantified variables of the statements with the stated contract as hypothesis, so that
they can be instantiated, and a witness is given for each contract:

| parameter | where | contract |
|---|---|---|
| matching of regular expressions (crate `regex`) | C09, C11, C46, C53, C54 | a relation between pattern and value; invalid patterns are errors; the set of exact matches of a pattern without operators is right (`exact_ok`) |
| pivots of quick sort (crate `rand`) | C27, C28, C45 | an arbitrary infinite sequence |
| normal form of boolean expressions (crate `boolean_expression`) | C49, C66 | disjunctive normal form with the same meaning |
| rounding to `f64` | C50 | monotone, exact up to 2^53 |
| order of iteration of hash maps, order of parallel results | C31, C32, C33, C42 | an arbitrary permutation |
| binary search of the configuration import | C65 | documented behaviour of `binary_search_by` |
| comparison of strings by locale | C28, C29 | total preorder |
| verification of tokens (crate `jsonwebtoken`), answers of the corpus engine | C55 to C58 | arbitrary functions |
| searches and operators of a query | C33, C34, C73 | `search_ok`, `engine_ok`: searches find what they describe, operators decide their relation, for the parts of the query; instantiated for stored corpora in C74 |
| reading and writing of XML (crate `quick-xml`) | C42 | the events read are those written (`transfer` in `GraphML.v`, a definition) |
| decimal comparisons of statistics in the choice of storages | C20 | an arbitrary outcome |

## What is modelled

| source | model | left out |
|---|---|---|
| core/src/annostorage/inmemory.rs, symboltable.rs | `SymbolTable`, `AnnoMem`, `AnnoMemQueries`, `Histogram` | memory size; file format of the saved storage (save and load are modelled by content, bincode itself in `Bincode`) |
| core/src/annostorage/ondisk.rs | `AnnoDisk`, `AnnoDiskQueries` | statistics on disk, saving to another location |
| core/src/util/disk_collections.rs | `DiskMap` | blocks of the table files (crate `transient-btree-index` / sstable are sorted maps), caches |
| core/src/serializer.rs, types.rs, util/mod.rs | `KeySer`, `Types`, `CompPath`, `QName`, `Percent` | - |
| core/src/dfs.rs | `Dfs` | - |
| core/src/graph/storage/*.rs | `Storage`, `Adjacency`, `Dense`, `Linear`, `PrePost`, `DiskAdj`, `DiskPath`, `Union`, `Registry`, `ComponentFiles` | memory maps |
| core/src/graph/mod.rs, update.rs | `GraphUpdate`, `GraphApply`, `Persist`, `Registry` | progress messages, memory mapped loading |
| core/src/graph/serialization/graphml.rs | `GraphML` | progress messages |
| graphannis/src/annis/db/aql/parser.lalrpop, ast.rs, mod.rs | `AqlLexer`, `AqlGrammar`, `AqlParser`, `Query`, `Quirks`, `EndToEnd`, `CorpusEngine`, `LineCol` | LALRPOP's table construction (the parser is proved equal to the grammar), texts of error messages |
| graphannis/src/annis/db/aql/conjunction.rs, disjunction.rs, plan.rs | `Conjunction`, `Plan`, `Descriptions`, `SearchChoice` | cost estimates are arbitrary in the choice of join and operator order |
| graphannis/src/annis/db/aql/operators/*.rs, operator.rs | `TokenOps`, `EdgeOps`, `EqualValue`, `NonExisting` | estimates (`estimation_type`, `edge_anno_selectivity`) |
| graphannis/src/annis/db/aql/model.rs | `Index`, `CorpusSize` | - |
| graphannis/src/annis/db/exec/*.rs | `NodeSearch`, `TokenSearch`, `Joins` | threads are modelled by arbitrary schedules of their results |
| graphannis/src/annis/db/sort_matches.rs, token_helper.rs, util/*.rs | `SortMatches`, `TokenHelper`, `QuickSort` | - |
| graphannis/src/annis/db/corpusstorage.rs, subgraph.rs | `CorpusCache`, `CorpusDir`, `Paging`, `ResultPages`, `Frequency`, `FrequencyResults`, `Context`, `Subgraph`, `LinkedFiles`, `CorpusSize`, `Listing`, `Descriptions` | ZIP compression, symbolic links |
| graphannis/src/annis/db/relannis.rs | `RelAnnis`, `RelAnnisConfig`, `RelAnnisKeys` | CSV quoting, character sets, progress messages |
| capi/src | `CApi` | ownership and freeing of memory, invalid pointers, logging, `annis_vec_qattdesc_*` |
| cli/src/bin/annis.rs | `Console` | texts of messages, layout of tables, measured times, line editor and completion, logging, options of the program other than `--cmd` |
| webservice/src | `Service` | HTTP routing, JSON, JWT signatures, SQL text (the tables are modelled) |

Without a model: `cli/src/bin/annis_bench_queries.rs`, `example_generator.rs`, `example_graphs.rs`, `errors.rs`,
`build.rs`, logging. Everywhere: exhaustion of memory, stack depth, and the time a call takes.

## Findings

Each `_refuted` theorem is a concrete run of the model, and by reading of the code, in which the property as a user would word it
fails. The notes in `MANIFEST.json` say which condition excludes them in the positive theorems.
