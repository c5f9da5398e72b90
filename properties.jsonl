{"id": "C01", "title": "Identifier byte codec is a bijection", "statement": "For both identifier types (u64 and Ulid) to_be_bytes followed by from_be_bytes or try_from_be_bytes gives back the same identifier, every array of the right length is the encoding of exactly one identifier, and try_from_be_bytes answers None on every slice of any other length.", "quantifier": "all 2^64 u64 values, all 2^128 Ulid values, all byte slices of any length", "why_tests_cant": "2^128 values and unbounded slices; tests sample a handful of literals (u64 has none).", "anchors": ["src/id/u64.rs: to_be_bytes, from_be_bytes, try_from_be_bytes", "src/id/ulid.rs: to_be_bytes, from_be_bytes, try_from_be_bytes", "src/traits/id_type.rs: ConcreteIdType"]}
{"id": "C02", "title": "Triple key codec is a bijection in all three layouts", "statement": "encode_spo/pos/osp_triple followed by the matching decode gives back the same triple, and decode followed by encode gives back the same array, so distinct triples never share a key in any table.", "quantifier": "all triples of u64 and of Ulid identifiers, all 24 / 48 byte arrays, the three layouts", "why_tests_cant": "2^384 triples; the tests check one triple per layout for Ulid and none for u64.", "anchors": ["src/id/u64.rs: encode_*_triple, decode_*_triple", "src/id/ulid.rs: encode_*_triple, decode_*_triple"]}
{"id": "C03", "title": "Encoded keys sort like the triples they encode", "statement": "Comparing two encoded keys as byte strings gives the same answer as comparing the triples component by component numerically in the order of the layout (subject-predicate-object, predicate-object-subject, object-subject-predicate).", "quantifier": "all pairs of triples, both identifier types, the three layouts", "why_tests_cant": "Ordering is a statement about every pair; a wrong byte order only shows on particular pairs.", "anchors": ["src/id/u64.rs: encode_*_triple", "src/id/ulid.rs: encode_*_triple", "src/mem/iter.rs: iter_edges"]}
{"id": "C04", "title": "Key bounds select exactly the keys with the requested prefix", "statement": "The inclusive range key_bounds_1(a) contains the key of a triple in a layout exactly when its first component in that layout is a, and key_bounds_2(a,b) exactly when its first two components are a and b; the bounds are never inverted, so BTreeMap::range cannot panic on them.", "quantifier": "all identifiers a, b including 0 and MAX, all triples, both identifier types", "why_tests_cant": "Off-by-one at MIN/MAX and neighbours is only visible on boundary identifiers that tests do not enumerate.", "anchors": ["src/id/u64.rs: key_bounds_1, key_bounds_2", "src/id/ulid.rs: key_bounds_1, key_bounds_2", "src/mem/query.rs: run", "src/mem/remove.rs: get_spo_edge_range, get_osp_edge_range"]}
{"id": "C05", "title": "Comparison of triples is the SPO order used by iteration", "statement": "The < operator on Triple is a strict total order, equals lexicographic comparison of (sub, pred, obj), is consistent with ==, and is the order in which SPO iteration yields edges; the merge-join loops of the set operations rely on it.", "quantifier": "all pairs and triples of Triple values", "why_tests_cant": "Totality, transitivity and agreement with the byte order are statements about all pairs.", "anchors": ["src/triple.rs: PartialOrd for Triple", "src/mem/set.rs: intersection, difference"]}
{"id": "C06", "title": "In-memory store behaves like a map of nodes and a map of edges under every history", "statement": "After any sequence of insert_node, insert_edge, remove_node, remove_edge, merge_node, merge_edge, extend and merge calls on a new MemTripleStore, iter_vertices lists exactly the vertices of the abstract graph obtained by replaying the calls on two plain maps, once each and in increasing order, and iter_edges lists exactly its edges with their latest properties, once each, sorted by the requested order, provided the identifiers the generator handed out were pairwise distinct.", "quantifier": "all finite operation histories, all argument values, all generators whose outputs so far are distinct, the three orders", "why_tests_cant": "The history space is unbounded; tests fix one short history per operation.", "anchors": ["src/mem.rs: MemTripleStore", "src/mem/insert.rs", "src/mem/remove.rs", "src/mem/merge.rs", "src/mem/extend.rs", "src/mem/iter.rs"]}
{"id": "C07", "title": "The three orderings always describe the same edges", "statement": "After any history on a MemTripleStore, iter_edges in SPO, POS and OSP order yield the same edges with the same properties (they are permutations of each other), whatever identifiers the generator returned, even repeated ones.", "quantifier": "all finite histories, all generators including faulty ones, all pairs of orders", "why_tests_cant": "Index divergence appears only after particular histories; no test compares the orders after updates and removals.", "anchors": ["src/mem/insert.rs: insert_edge_data_internal", "src/mem/remove.rs: remove_edge, remove_node", "src/mem/extend.rs: extend", "src/mem/iter.rs: iter_edges"]}
{"id": "C08", "title": "Insertion sets exactly one entry", "statement": "insert_node(id, p) makes id map to p and changes no other vertex and no edge; insert_edge(t, p) makes edge t carry p (replacing any earlier properties) and changes no other edge and no vertex; inserting twice with the same arguments is the same as once.", "quantifier": "all stores reachable by histories, all identifiers, triples and properties", "why_tests_cant": "The frame condition ranges over every other node and edge of every reachable store.", "anchors": ["src/mem/insert.rs: insert_node, insert_edge", "src/traits/insert.rs"]}
{"id": "C09", "title": "remove_node removes the vertex and every incident edge and nothing else", "statement": "After remove_node(n) the vertex n is gone, every edge with n as subject or object (including self loops) is gone, and every other vertex and edge keeps its properties; edges that merely use n as predicate stay. Removing an absent node with no edges changes nothing.", "quantifier": "all reachable stores, all identifiers", "why_tests_cant": "Requires looking at all incident edges of arbitrary graphs, including extreme identifiers and self loops.", "anchors": ["src/mem/remove.rs: remove_node, get_spo_edge_range, get_osp_edge_range", "src/traits/remove.rs"]}
{"id": "C10", "title": "remove_edge removes exactly one edge", "statement": "After remove_edge(t) edge t is absent in all orders and queries, all other edges and all vertices are unchanged; removing an absent edge is a no-op; a second remove_edge(t) changes nothing.", "quantifier": "all reachable stores, all triples", "why_tests_cant": "Frame condition over all other entries of all reachable stores.", "anchors": ["src/mem/remove.rs: remove_edge"]}
{"id": "C11", "title": "merge_node and merge_edge merge with the existing properties or insert", "statement": "merge_node(id, p): if id had properties q it now has q.merge(p) (in that argument order), otherwise p; no other vertex and no edge changes. merge_edge(t, p) likewise for edges. No algebraic law of Mergeable is needed.", "quantifier": "all reachable stores, all Mergeable implementations, all arguments", "why_tests_cant": "Ranges over arbitrary user-defined merge functions (non commutative, non idempotent).", "anchors": ["src/mem/merge.rs: merge_node, merge_edge, merge_edge_create_data", "src/traits/mergeable.rs"]}
{"id": "C12", "title": "extend is right-biased union, even when the source fails midway", "statement": "a.extend(b) makes every vertex and edge of b present in a with b's properties and keeps everything of a not in b. If b's iterator reports an error, extend returns it as Right and a holds exactly its old contents overwritten by the elements b yielded before the error.", "quantifier": "all reachable stores a, all sources b (any iterator contents, any error position)", "why_tests_cant": "Failure position and overlap pattern are unbounded.", "anchors": ["src/mem/extend.rs: extend", "src/traits/extend.rs"]}
{"id": "C13", "title": "merge of a whole store merges pointwise", "statement": "a.merge(b) leaves each vertex (edge) with a's value merged with b's if both have it, otherwise with whichever value exists; on an error of the source the elements before the error have been merged and the rest not.", "quantifier": "all reachable stores a, all sources b, all Mergeable implementations, any error position", "why_tests_cant": "Unbounded overlap patterns and failure points.", "anchors": ["src/mem/merge.rs: merge", "src/traits/merge.rs"]}
{"id": "C14", "title": "union is set union with the right operand's properties winning", "statement": "a.union(b) contains exactly the vertices and edges of a and of b; where both have one, b's properties are kept.", "quantifier": "all pairs of stores, any backend for b", "why_tests_cant": "Quantifies over all overlap patterns.", "anchors": ["src/mem/set.rs: union", "src/traits/set.rs"]}
{"id": "C15", "title": "intersection is set intersection with the left operand's properties", "statement": "a.intersection(b) contains exactly the vertices (edges) present in both a and b, with a's properties.", "quantifier": "all pairs of stores, any backend for b", "why_tests_cant": "The merge-join loop has to be right for every interleaving of two sorted sequences of any length.", "anchors": ["src/mem/set.rs: intersection"]}
{"id": "C16", "title": "difference is set difference", "statement": "a.difference(b) contains exactly the vertices of a not in b, and the edges of a not in b that do not touch a vertex of b (so the result never keeps edges to removed vertices).", "quantifier": "all pairs of stores", "why_tests_cant": "The treatment of an edge must not depend on where it falls in the merge-join; tests use one fixed layout.", "anchors": ["src/mem/set.rs: difference (main loop and trailing loop)"]}
{"id": "C17", "title": "Edge queries return exactly the matching edges", "statement": "run on a query of kind S, P, O, SP, SO, PO or SPO returns a store whose edges are exactly the edges of the queried store whose components match one of the listed items, with their properties; the queried store is unchanged.", "quantifier": "all reachable stores, all query sets of any size, all seven kinds, extreme identifiers included", "why_tests_cant": "All identifiers and set sizes; a swapped component or wrong bound only shows on suitable data.", "anchors": ["src/mem/query.rs: run", "src/lib.rs: Query"]}
{"id": "C18", "title": "Node queries return exactly the requested vertices", "statement": "run on NodeProps(ids) returns a store whose vertices are exactly those of the requested ids that exist, with their properties, and that has no edges; edge queries return stores with no vertices.", "quantifier": "all reachable stores, all id sets", "why_tests_cant": "All id sets and stores.", "anchors": ["src/mem/query.rs: run"]}
{"id": "C19", "title": "Query results do not depend on set iteration order and queries are idempotent", "statement": "The result of a query depends only on which items are in the query set, not on the order in which the hash set yields them, and running the same edge query again on the result yields the same edges.", "quantifier": "all permutations of the query set, all reachable stores", "why_tests_cant": "Hash iteration order is randomised per process; a test sees one order per run.", "anchors": ["src/mem/query.rs: run", "src/lib.rs: Query"]}
{"id": "C20", "title": "Iteration with properties skips orphaned edges and only those", "statement": "iter_edges_with_props on a MemTripleStore yields exactly the edges whose subject and object both exist as vertices, each with its current subject, edge and object properties, in the requested order; orphaned edges are silently skipped and it never yields an error.", "quantifier": "all reachable stores, the three orders", "why_tests_cant": "Orphan patterns over all histories.", "anchors": ["src/mem/iter.rs: iter_edges_with_props, iter_impl", "src/traits/insert.rs (warning on orphaned edges)"]}
{"id": "C21", "title": "Consuming and borrowing iterators agree", "statement": "For every store and order into_iter_nodes, into_iter_vertices, into_iter_edges and into_iter_edges_with_props yield the same sequences as iter_nodes, iter_vertices, iter_edges and iter_edges_with_props, vertices() is the sequence of identifiers of iter_vertices, and iter_nodes pairs iter_vertices with iter_edges.", "quantifier": "all stores of both backends, the three orders", "why_tests_cant": "Eight separately written code paths must agree on all stores.", "anchors": ["src/mem/iter.rs", "src/sled/iter.rs"]}
{"id": "C22", "title": "== on in-memory stores means same graph", "statement": "Two MemTripleStores compare equal exactly when they hold the same vertices and edges with equal properties (internal property identifiers do not matter).", "quantifier": "all pairs of reachable stores", "why_tests_cant": "Equality is a relation over all pairs; tests compare a few stores of equal size.", "anchors": ["src/mem.rs: PartialEq for MemTripleStore (eq)"]}
{"id": "C23", "title": "try_eq decides graph equality across backends", "statement": "a.try_eq(b) returns Ok(true) exactly when both list the same vertices and edges with equal properties, Ok(false) when they differ before any error, and an error tagged Left or Right only if that side's iterator produced it.", "quantifier": "all pairs of stores of any backends, any error positions", "why_tests_cant": "Ranges over pairs of stores and error positions.", "anchors": ["src/traits/triplestore.rs: try_eq"]}
{"id": "C24", "title": "The query! macro builds the documented cross product", "statement": "For each of the eight documented forms query!{...} builds the query kind of that form whose set is exactly the cross product of the listed identifiers.", "quantifier": "all list lengths, with duplicates, all eight forms", "why_tests_cant": "Rule selection and nesting over arbitrary lists; docs show one example per form.", "anchors": ["src/lib.rs: macro query!"]}
{"id": "C25", "title": "Query and triple mapping is pointwise", "statement": "Query::map and Triple::map apply the function to every component in place; try_map succeeds with the same result iff every application succeeds and otherwise returns an error produced by one of the components; From<iterator of triples> gives the SPO query of exactly those triples; PropsTriple to Triple keeps the identifiers.", "quantifier": "all queries, all functions", "why_tests_cant": "Functions and set sizes are unbounded.", "anchors": ["src/lib.rs: Query::map, Query::try_map, From", "src/triple.rs: Triple::map, Triple::try_map, PropsTriple::map, From<PropsTriple>"]}
{"id": "C26", "title": "Sled store behaves like a map of nodes and a map of edges under every history", "statement": "The statement of C06 for SledTripleStore: after any history, when every storage and serialisation step succeeds, iter_vertices and iter_edges list exactly the abstract graph, sorted, without errors, and queries return exactly the matching edges.", "quantifier": "all finite histories, all property types whose serialisation round-trips, all pairwise distinct generated ids", "why_tests_cant": "Unbounded histories on byte-level tables.", "anchors": ["src/sled/insert.rs", "src/sled/remove.rs", "src/sled/merge.rs", "src/sled/extend.rs", "src/sled/iter.rs", "src/sled/query.rs"]}
{"id": "C27", "title": "The two backends are observationally equivalent", "statement": "Replaying the same history on a MemTripleStore and a SledTripleStore gives stores that try_eq judges equal and whose iter_vertices, iter_edges and query results are identical.", "quantifier": "all finite histories, both identifier types", "why_tests_cant": "Conformance tests compare the backends on a dozen fixed histories.", "anchors": ["src/conformance.rs", "src/mem.rs", "src/sled.rs"]}
{"id": "C28", "title": "Orphaned edges are ignored by iteration on the Sled backend too", "statement": "As documented for insert_edge, orphaned edges are ignored by iteration: iter_edges_with_props on a SledTripleStore yields exactly the edges whose endpoints both exist, like the memory backend.", "quantifier": "all reachable Sled stores", "why_tests_cant": "Needs every pattern of missing endpoints.", "anchors": ["src/sled/iter.rs: iter_impl, iter_edges_with_props", "src/traits/insert.rs"]}
{"id": "C29", "title": "Single operations on Sled are atomic under crashes", "statement": "If the process dies at any point during insert_node, insert_edge, remove_node, remove_edge, merge_node or merge_edge, the reopened store shows either the state before the call or the state after it.", "quantifier": "all crash points between storage steps of each operation, all store contents", "why_tests_cant": "Crash points cannot be enumerated by unit tests.", "anchors": ["src/sled/insert.rs: insert_edge", "src/sled/remove.rs: remove_node, remove_edge", "src/sled/merge.rs: merge_node, merge_edge"]}
{"id": "C30", "title": "A crash during extend or merge never corrupts a Sled store", "statement": "If the process dies at any point during extend or merge, the reopened store shows the old contents overwritten with (merged with) a prefix of the source, and the three orderings still agree.", "quantifier": "all crash points, all sources and stores", "why_tests_cant": "Crash points times contents.", "anchors": ["src/sled/extend.rs: extend", "src/sled/merge.rs: merge"]}
{"id": "C31", "title": "Concurrent transactional writers serialise", "statement": "When several handles on the same sled database run insert_node, insert_edge, merge_node, merge_edge concurrently, the final tables are those of some sequential order of the calls that respects each handle's program order, so the orderings agree and no merge is lost.", "quantifier": "all interleavings of any number of threads and operations", "why_tests_cant": "Schedules cannot be enumerated by tests.", "anchors": ["src/sled/insert.rs", "src/sled/merge.rs"]}
{"id": "C32", "title": "Concurrent removal is atomic", "statement": "When remove_edge or remove_node runs concurrently with writers on another handle of the same database, the outcome equals some sequential order of the calls: the three orderings agree afterwards and no edge is left dangling.", "quantifier": "all interleavings", "why_tests_cant": "Race windows need an adversarial schedule.", "anchors": ["src/sled/remove.rs: remove_edge (second, untransacted removal), remove_node (scan outside transaction)"]}
{"id": "C33", "title": "Storage and serialisation failures are reported and leave the store unchanged", "statement": "If the storage engine or the serialiser fails during a single Sled operation, the call returns an error and the tables are as before the call.", "quantifier": "all failure positions, all operations, all contents", "why_tests_cant": "Fault positions times contents.", "anchors": ["src/sled/insert.rs", "src/sled/merge.rs", "src/sled/remove.rs"]}
{"id": "C34", "title": "Malformed tables produce errors, never panics or wrong data", "statement": "If the database contains keys of the wrong length or undecodable property bytes, iteration and queries yield KeySizeError / SerializationError for those entries instead of panicking, and the well-formed entries are still decoded correctly by iteration.", "quantifier": "all table contents whatsoever", "why_tests_cant": "Arbitrary byte contents.", "anchors": ["src/sled/iter.rs: decode_id, iter_edges, iter_vertices", "src/sled/query.rs: run"]}
{"id": "C35", "title": "Edge property data does not leak", "statement": "The number of stored edge property records equals the number of edges: replacing or removing an edge or node frees its property record.", "quantifier": "all histories on both backends", "why_tests_cant": "Leaks accumulate over histories and are invisible to iteration.", "anchors": ["src/mem/insert.rs: insert_edge_create_data", "src/mem/remove.rs", "src/sled/insert.rs: insert_edge", "src/sled/extend.rs"]}
{"id": "C36", "title": "A reopened Sled store continues correctly", "statement": "Dropping a SledTripleStore handle and opening a new one on the same database shows the same graph, and later insertions through the new handle do not disturb the properties of edges already stored.", "quantifier": "all histories split at any point into sessions, all generators given to the sessions", "why_tests_cant": "Ranges over histories and generator restarts.", "anchors": ["src/sled.rs: SledTripleStore::new", "src/sled/insert.rs: insert_edge", "src/id/u64.rs: U64IdGenerator::new"]}
{"id": "C37", "title": "The u64 generator and its clones never hand out an id twice", "statement": "All identifiers returned by fresh() on a U64IdGenerator and any of its clones, called from any threads in any interleaving, are pairwise distinct as long as at most 2^64 have been drawn.", "quantifier": "all clone trees, all interleavings, all initial values (including wrap-around at u64::MAX)", "why_tests_cant": "Interleavings and 2^64 wrap-around are out of reach of tests.", "anchors": ["src/id/u64.rs: U64IdGenerator (new, clone, fresh)"]}
{"id": "C38", "title": "The Ulid generator hands out increasing ids", "statement": "Successive fresh() calls on one UlidIdGenerator return strictly increasing, hence distinct, identifiers.", "quantifier": "all sequences of calls, all clock readings and random values", "why_tests_cant": "Clock and randomness adversary.", "anchors": ["src/id/ulid.rs: UlidIdGenerator (new, clone, fresh)"]}
{"id": "C39", "title": "The in-memory name index is always a one-to-one correspondence", "statement": "After any sequence of set calls on a MemHashIndex, left_to_right(l) = r exactly when right_to_left(r) = l; a call that returns an error changes nothing.", "quantifier": "all call histories including failing calls", "why_tests_cant": "Histories with failures.", "anchors": ["src/mem.rs: MemHashIndex::set, left_to_right, right_to_left", "src/traits/bidir_index.rs"]}
{"id": "C40", "title": "The Sled name index is always a one-to-one correspondence", "statement": "The statement of C39 for SledHashIndex, including concurrent calls and crashes; associations are never overwritten, and a failing set reports the conflicting association.", "quantifier": "all call histories, interleavings and crash points", "why_tests_cant": "Histories, schedules and crash points.", "anchors": ["src/sled.rs: SledHashIndex::set, left_to_right, right_to_left"]}
{"id": "C41", "title": "The RDF store keeps names and identifiers consistent", "statement": "After any history of inserts and merges through RdfTripleStore, a name always denotes the same identifier, distinct names denote distinct identifiers, and iteration lists exactly the abstract graph over entities, showing every entity by its name if it was given one.", "quantifier": "all histories, all names, all pairwise distinct fresh Ulids", "why_tests_cant": "Unbounded histories over unbounded names.", "anchors": ["src/rdf.rs: lookup_or_create_entity, lookup_entity, lookup_id", "src/rdf/insert.rs", "src/rdf/merge.rs", "src/rdf/extend.rs", "src/rdf/iter.rs"]}
{"id": "C42", "title": "RDF queries return exactly the matching edges by name", "statement": "run on an RdfTripleStore with a query over known entities succeeds and returns a store whose iteration lists exactly the matching edges, with the same names as in the queried store.", "quantifier": "all reachable RDF stores, all queries", "why_tests_cant": "All graphs; failures need two edges sharing a name.", "anchors": ["src/rdf/query.rs: run", "src/mem.rs: MemHashIndex::set"]}
{"id": "C43", "title": "RDF removal by name", "statement": "remove_node / remove_edge through RdfTripleStore remove exactly what the underlying store would remove for the identifiers of the given names; if a name is unknown they return NameNotFound of that name and change nothing.", "quantifier": "all reachable RDF stores, all entities", "why_tests_cant": "All graphs and names.", "anchors": ["src/rdf/remove.rs", "src/rdf.rs: lookup_entity"]}
{"id": "C44", "title": "try_eq on RDF stores compares graphs by name", "statement": "Two RDF stores that hold the same named graph compare equal with try_eq regardless of the internal identifiers the names were given.", "quantifier": "all pairs of RDF stores, all identifier assignments", "why_tests_cant": "Depends on random identifiers.", "anchors": ["src/traits/triplestore.rs: try_eq", "src/rdf/iter.rs: iter_nodes"]}
{"id": "C45", "title": "Iterating next to writers", "statement": "An iteration over a SledTripleStore while other handles write lists, in the order of the keys and each at most once, only vertices and edges that were in the store with these properties at some moment of the iteration; everything that was in the store all the time is listed unless an error is reported; and the only errors are storage failures the reader met and, for edges, MissingPropertyData.", "quantifier": "any number of writers, all calls, all schedules, storage failures, earlier crashes, and any division of the trees into leaves", "why_tests_cant": "Schedules, and sled's leaves splitting and merging under the iterator.", "anchors": ["src/sled/iter.rs: iter_vertices, iter_edges, iter_edges_with_props", "src/sled/insert.rs", "src/sled/merge.rs", "src/sled/remove.rs", "src/sled/extend.rs"]}
{"id": "C46", "title": "Readers next to writers miss nothing that is there all the time", "statement": "A query or an iteration over the edges of a SledTripleStore finds every selected edge that is in the store at every moment from its start to its end, whatever other handles do to other properties of the graph in the meantime.", "quantifier": "any number of writers, all calls, all schedules, storage failures, all queries", "why_tests_cant": "Schedules.", "anchors": ["src/sled/query.rs: run", "src/sled/iter.rs: iter_edges", "src/sled/merge.rs: merge_edge"]}
{"id": "C47", "title": "sled's leaves are invisible to a caller that is alone", "statement": "The answers and effects of every sequence of calls on a SledTripleStore do not depend on where the leaves of its trees end, with any storage failures and any crash.", "quantifier": "all histories, all sorted tables, all failures, all divisions into leaves", "why_tests_cant": "Depends on the size and the history of the trees.", "anchors": ["src/sled/iter.rs", "src/sled/query.rs", "src/sled/remove.rs: remove_node"]}
{"id": "C48", "title": "Iterations see one moment", "statement": "What an iteration over a SledTripleStore lists is the content of the store at some moment of the iteration, and one item of iter_edges_with_props shows an edge with the properties its ends had at one moment.", "quantifier": "any number of writers, all schedules", "why_tests_cant": "Schedules.", "anchors": ["src/sled/iter.rs: iter_edges, iter_edges_with_props, iter_impl"]}
{"id": "C49", "title": "The RDF store over sled holds the named graph across crashes", "statement": "A database used through RdfTripleStores over SledHashIndex and SledTripleStore always maps names to identifiers one to one, a name keeps its identifier for ever, and reading it lists the graph over names that the calls made so far should have produced; a call that reports a failure, or during which the process died, has done a first part of its single calls and given some of its names an identifier; a failure is reported only if the storage or a serialiser failed.", "quantifier": "all sequences of processes, all calls, all storage failures, all crash points, several processes at the same time as long as they only insert and merge", "why_tests_cant": "Crash points, failures and schedules.", "anchors": ["src/rdf.rs: lookup_or_create_entity, lookup_entity, lookup_id", "src/rdf/insert.rs", "src/rdf/remove.rs", "src/rdf/merge.rs", "src/rdf/extend.rs", "src/rdf/iter.rs", "src/sled.rs: SledHashIndex"]}
{"id": "C50", "title": "Calls on a shared RDF store are atomic", "statement": "Calls of several processes on one RDF store over sled answer and take effect as if made one after the other, and a call that reports a failure has changed nothing.", "quantifier": "any number of callers, all calls, all schedules, storage failures", "why_tests_cant": "Schedules and failures.", "anchors": ["src/rdf.rs: lookup_or_create_entity", "src/rdf/insert.rs: insert_node", "src/rdf/remove.rs: remove_node"]}
{"id": "C51", "title": "RDF queries over sled return exactly the matching edges by name", "statement": "run on an RdfTripleStore over sled with a query over known entities succeeds and returns a store that lists exactly what matches with the same names and identifiers; with an unknown name it reports NameNotFound of one; it never changes the database and a storage failure during it is reported.", "quantifier": "all databases left by any sequence of processes, all queries, all storage failures", "why_tests_cant": "All graphs; failures need two edges sharing a name.", "anchors": ["src/rdf/query.rs: run", "src/sled/query.rs: run"]}
{"id": "C52", "title": "The RDF store behaves the same over both backends", "statement": "The same calls on a new RdfTripleStore over Mem and on one over sled give the same answers and leave stores that list the same graph over names, if the storage reports no failure.", "quantifier": "all histories, all identifiers drawn by either store", "why_tests_cant": "Unbounded histories; depends on random identifiers.", "anchors": ["src/rdf/insert.rs", "src/rdf/remove.rs", "src/rdf/merge.rs", "src/rdf/extend.rs", "src/rdf/iter.rs"]}
{"id": "C53", "title": "An extend that was cut short damages one edge, and repeating it repairs the store", "statement": "After any calls on a SledTripleStore, with crashes and storage failures anywhere, the three orders differ on at most one edge for each call of extend that was cut short, an edge of that call's source; the other orders never list an edge the SPO order does not have. Repeating the extend until it succeeds gives exactly the result of one undisturbed call, and writing or removing the edges on which the orders differ makes them agree again.", "quantifier": "all sequences of processes, all calls, all storage failures, all crash points, any number of attempts", "why_tests_cant": "Crash points and failures.", "anchors": ["src/sled/extend.rs: extend", "src/sled/insert.rs", "src/sled/remove.rs", "src/sled/merge.rs"]}
{"id": "C54", "title": "remove_node leaves no edge behind, whatever happened before", "statement": "After remove_node on a SledTripleStore has succeeded no order lists an edge that starts or ends at the node, also when earlier calls were cut short by crashes or storage failures.", "quantifier": "all sequences of processes, all calls, all storage failures, all crash points", "why_tests_cant": "Crash points and failures.", "anchors": ["src/sled/remove.rs: remove_node", "src/sled/extend.rs: extend"]}
{"id": "C55", "title": "Debug output of a MemTripleStore is a function of its contents", "statement": "The Debug output of a MemTripleStore lists every node with its properties, every edge in the three orders and the properties of every edge, and two stores print the same exactly if they hold the same graph, whatever identifiers were drawn.", "quantifier": "all stores reachable by any calls, all pairs of stores, any hash function", "why_tests_cant": "All graphs; identifiers are random.", "anchors": ["src/mem.rs: Debug for MemTripleStore"]}
{"id": "C56", "title": "Debug output of a SledTripleStore is a function of its contents", "statement": "The Debug output of a SledTripleStore succeeds while the storage works, changes nothing, and two databases print the same exactly if they hold the same graph.", "quantifier": "all databases left by any sequence of processes with failures and crashes, any hash function, all storage failures", "why_tests_cant": "All graphs, crash points and failures; identifiers are random.", "anchors": ["src/sled.rs: Debug for SledTripleStore"]}
{"id": "C57", "title": "A copy of a store equals the original", "statement": "Copying a store into a new one with extend or merge, from memory to sled, from sled to memory or between stores of one kind, gives a store that holds the same graph and that try_eq finds equal, in both directions; a sled copy is complete whenever the copying call reports success. A store saved to a database and loaded again lists the same vertices and edges.", "quantifier": "all stores, both backends, all property types, all storage failures", "why_tests_cant": "All graphs; failures.", "anchors": ["src/mem/extend.rs", "src/sled/extend.rs", "src/mem/merge.rs", "src/sled/merge.rs", "src/sled/iter.rs: into_iter_nodes", "src/traits/triplestore.rs: try_eq"]}
{"id": "C58", "title": "Laws of the set operations and queries", "statement": "Union and intersection are idempotent and associative, absorb each other, intersection distributes over union, the empty store is neutral for union and difference and absorbing for intersection, a store minus itself is empty, a store minus another has nothing in common with the other, a query of a union or intersection is the union or intersection of the queries, and extend gives the store that union returns, all up to try_eq.", "quantifier": "all reachable memory stores, all queries, all generators", "why_tests_cant": "Relations between several operations on all graphs.", "anchors": ["src/mem/set.rs", "src/mem/query.rs: run", "src/mem/extend.rs", "src/traits/triplestore.rs: try_eq"]}
{"id": "C59", "title": "Difference and intersection split a store", "statement": "The union of a minus b and the intersection of a and b is a.", "quantifier": "all reachable memory stores", "why_tests_cant": "Relations between several operations on all graphs.", "anchors": ["src/mem/set.rs: difference, intersection, union"]}
{"id": "C60", "title": "A copy of an RDF store holds the same named graph", "statement": "Copying an RdfTripleStore over memory or over sled into a new one over either backend, with extend or merge, gives a store that lists the same vertices and edges by name, though its names may have other identifiers; a copy into a database is complete whenever the copying call reports success. The consuming iterators yield what the borrowing ones do.", "quantifier": "all stores reachable by any calls, all databases left by any processes, both backends, all storage failures, all identifiers drawn", "why_tests_cant": "All graphs; failures; random identifiers.", "anchors": ["src/rdf/extend.rs: extend", "src/rdf/merge.rs: merge", "src/rdf/iter.rs: iter_nodes, into_iter_nodes, into_iter_vertices, into_iter_edges, into_iter_edges_with_props"]}
{"id": "C61", "title": "A store and an index share a database without disturbing each other", "statement": "Opening a SledTripleStore or a SledHashIndex changes the contents of no tree, always gives the same trees of the database, and fails only if the storage does; the trees of a store and of an index are pairwise different, so a store, an index and an RdfTripleStore over both behave in one sled::Db as if each had a database of its own, and a process that opens the database finds what the one before it left.", "quantifier": "all databases, all programs on the trees, all storage failures, crash points and schedules", "why_tests_cant": "All contents and programs.", "anchors": ["src/sled.rs: SledTripleStore::new, SledHashIndex::new", "src/rdf.rs: RdfTripleStore::new"]}
{"id": "C62", "title": "Concurrent bulk writes act as their elements", "statement": "When extend and merge run on several handles of one database at the same time as each other and as any other calls, the outcome is that of their elements, inserted or merged one at a time in some order that respects each caller's: afterwards the three orderings agree, and a call that reports success has handled all of its source up to the source's first error.", "quantifier": "all numbers of callers, calls, sources with errors, interleavings, storage failures and ends of leaves", "why_tests_cant": "Race windows need an adversarial schedule.", "anchors": ["src/sled/extend.rs: extend", "src/sled/merge.rs: merge"]}
{"id": "C63", "title": "Iterations of an RDF store over sled tolerate concurrent writers", "statement": "While any other processes make any calls on the same database, an iteration over the entities, the edges, or the edges with properties of an RdfTripleStore over sled delivers only items whose vertex or edge was in the store with these properties at some moment, each part under what it was called at some moment when it still had any name it had then; no item comes twice; names are never lost or changed; the errors are storage failures and, next to calls that take records away, MissingPropertyData; and what was there all the time is delivered unless an error was.", "quantifier": "all numbers of callers, calls, interleavings, storage failures, ends of leaves, earlier processes that failed and died", "why_tests_cant": "Race windows need an adversarial schedule.", "anchors": ["src/rdf/iter.rs: vertices, iter_vertices, iter_edges, iter_edges_with_props", "src/rdf.rs: lookup_id", "src/sled/iter.rs"]}
{"id": "C64", "title": "An item of an RDF iteration is what the store lists at some moment", "statement": "Next to any other processes, an item that vertices, iter_vertices or iter_edges of an RdfTripleStore over sled delivers was listed exactly so, with these entities and properties, at some one moment; the edge, the subject and the object of an item of iter_edges_with_props at one moment each; the items come in the order of the identifiers, and what is listed under the same entities all the time is delivered unless an error is.", "quantifier": "all numbers of callers, calls, interleavings, storage failures, ends of leaves", "why_tests_cant": "Race windows need an adversarial schedule.", "anchors": ["src/rdf/iter.rs: vertices, iter_vertices, iter_edges, iter_edges_with_props", "src/rdf.rs: lookup_id, lookup_or_create_entity"]}
{"id": "C65", "title": "Queries of an RDF store over sled tolerate concurrent writers", "statement": "While any other processes make any calls on the same database, a query of an RdfTripleStore over sled fails only with a storage failure, for a name it mentions that was unknown at some moment, or because an entity occurs twice among matching edges; otherwise its result holds only matching vertices and edges that were in the store with these properties at some moment, under what they were called at some moment, its names are names of the store, and every matching vertex and edge that was there all the time is in it.", "quantifier": "all queries, all numbers of callers, calls, interleavings, storage failures, ends of leaves, earlier processes that failed and died", "why_tests_cant": "Race windows need an adversarial schedule.", "anchors": ["src/rdf/query.rs: run", "src/rdf.rs: lookup_id, lookup_entity", "src/sled/query.rs: run"]}
{"id": "C66", "title": "A vertex or edge of an RDF query's result is what the store lists at some moment", "statement": "Next to any other processes, every vertex and edge in the result of a query of an RdfTripleStore over sled was listed exactly so, with these entities and properties, at some one moment; DuplicateRight means that a name occurs twice among matching edges listed at moments; and what matches and is listed under the same entities all the time is found.", "quantifier": "all queries, all numbers of callers, calls, interleavings, storage failures, ends of leaves", "why_tests_cant": "Race windows need an adversarial schedule.", "anchors": ["src/rdf/query.rs: run", "src/rdf.rs: lookup_id, lookup_or_create_entity"]}
{"id": "C67", "title": "Readers of a sled store miss only edges that other callers rewrite", "statement": "While other handles of the same database make any calls, an edge that is there all the time is delivered by iter_edges and by iter_edges_with_props (with both ends there), or a storage failure is reported, or some call rewrites this very edge (merge_edge, remove_edge, remove_node of an end, extend or merge with the edge in the source) and MissingPropertyData is reported; a query misses such edges only; MissingPropertyData occurs only if some edge is rewritten or lacks an end.", "quantifier": "all numbers of callers, calls, interleavings, storage failures, ends of leaves, earlier processes that failed and died", "why_tests_cant": "Race windows need an adversarial schedule.", "anchors": ["src/sled/iter.rs: iter_edges, iter_edges_with_props", "src/sled/query.rs: run", "src/sled/merge.rs: merge_edge", "src/sled/extend.rs: extend", "src/sled/remove.rs"]}
{"id": "C68", "title": "Readers of an RDF store over sled miss only edges that other callers rewrite", "statement": "While other processes make any calls on the same database, an edge that is there all the time is delivered by the iterations over the edges of an RdfTripleStore over sled, or a storage failure is reported, or it lacks an end (with properties), or some call rewrites this edge, named by entities that stand for its identifiers, and MissingPropertyData is reported; a query misses such edges only. insert_edge and extend rewrite no edge.", "quantifier": "all numbers of callers, calls, interleavings, storage failures, ends of leaves, earlier processes that failed and died", "why_tests_cant": "Race windows need an adversarial schedule.", "anchors": ["src/rdf/iter.rs: iter_edges, iter_edges_with_props", "src/rdf/query.rs: run", "src/rdf/extend.rs: extend", "src/rdf/merge.rs", "src/rdf/remove.rs", "src/rdf.rs: lookup_or_create_entity"]}
{"id": "C69", "title": "Extending a sled store by its own database changes nothing and repairs it", "statement": "extend called with another handle on the same database, whose iterators read while the loop writes, terminates and handles each vertex and edge once: wherever it stops, on failure or crash, the vertices and the SPO order are as before and the orders differ on no further edge, and when it reports success all orders show what the SPO order showed. It fails only because the storage or the serialisation does.", "quantifier": "all databases left by any processes and by earlier tries that failed or died, all storage failures, crash points and ends of leaves", "why_tests_cant": "The iterator sees what its own loop writes, depending on where the leaves end; crash points.", "anchors": ["src/sled/extend.rs: extend", "src/sled/iter.rs: into_iter_nodes"]}
{"id": "C70", "title": "Merging a sled store with its own database merges everything with itself once", "statement": "merge called with another handle on the same database, whose iterators read while the loop writes: wherever it stops, a first part of the vertices, and once those are done a first part of the edges, are merged with themselves once and the rest is as before, and the orders differ on no further edge; on success everything is merged with itself once and the orders agree.", "quantifier": "all databases left by any processes, all merge functions, storage failures, crash points and ends of leaves", "why_tests_cant": "The iterator sees what its own loop writes, depending on where the leaves end; crash points.", "anchors": ["src/sled/merge.rs: merge", "src/sled/iter.rs: into_iter_nodes"]}
{"id": "C71", "title": "The RDF store holds the named graph over every pair of index and graph", "statement": "RdfTripleStore is generic: over any name index and any graph that do what their traits promise, whatever of them fails meanwhile, every call answers and does what it should on the graph over entities or reports that the index or the graph failed, a name keeps its identifier, and the readers then list that graph; queries answer from it. The in-memory and the sled index and graph do what is promised, so this holds of all four pairs, including names in memory over a graph on disk and names on disk over a graph in memory.", "quantifier": "all implementations of the two traits that satisfy the laws, all calls, failures, earlier processes", "why_tests_cant": "The tests use one pair only, and generic code is tested only on the pairs that are tried.", "anchors": ["src/rdf.rs", "src/rdf/insert.rs", "src/rdf/remove.rs", "src/rdf/merge.rs", "src/rdf/extend.rs", "src/rdf/iter.rs", "src/rdf/query.rs", "src/traits/bidir_index.rs"]}
{"id": "C72", "title": "Extending an RDF store over sled by its own database changes nothing", "statement": "extend of an RdfTripleStore over sled called with another handle on the same names and graph, whose iterators read while the loop writes: wherever it stops, on failure or crash, the readers list what they listed and every name keeps its identifier, also after earlier tries of the same that failed or died. It fails only because the storage or the serialisation of the properties does, blaming the side that failed.", "quantifier": "all stores left by any processes with removals only while nobody else uses the database, all earlier tries, storage failures, crash points and ends of leaves", "why_tests_cant": "The iterator sees what its own loop writes, depending on where the leaves end; crash points.", "anchors": ["src/rdf/extend.rs: extend", "src/rdf/iter.rs: into_iter_nodes", "src/rdf.rs: lookup_or_create_entity, lookup_id"]}
{"id": "C73", "title": "Merging an RDF store over sled with its own database merges everything with itself once", "statement": "merge of an RdfTripleStore over sled called with another handle on the same names and graph, whose iterators read while the loop writes: wherever it stops, a first part of the vertices, and once those are done a first part of the edges, are merged with themselves once and the rest is as before, and every name keeps its identifier; on success everything is merged with itself once.", "quantifier": "all stores left by any processes with removals only while nobody else uses the database, all merge functions, storage failures, crash points and ends of leaves", "why_tests_cant": "The iterator sees what its own loop writes, depending on where the leaves end; crash points.", "anchors": ["src/rdf/merge.rs: merge", "src/rdf/iter.rs: into_iter_nodes", "src/rdf.rs: lookup_or_create_entity, lookup_id"]}
{"id": "C74", "title": "A copy of a sled store that is being written has what was there all the time", "statement": "extend and merge of a store called with a sled store that other callers are writing to meanwhile: the call does what it does with some source fixed beforehand, whose vertices and edges were all listed at some moment during the call, in order and none twice, and which, on success, has everything that was there all the time. It stops only at a storage failure that was met, or with MissingPropertyData if another caller rewrites an edge; or because the store that is written fails. A copy into a memory store shows what it showed before except for what was taken over.", "quantifier": "all databases left by any processes, numbers of other callers and their calls, schedules, storage failures, ends of leaves and stores that are written", "why_tests_cant": "The iterators read leaf by leaf while others write; no test interleaves them.", "anchors": ["src/mem/extend.rs", "src/mem/merge.rs", "src/sled/extend.rs: extend", "src/sled/merge.rs: merge", "src/sled/iter.rs: into_iter_nodes"]}
{"id": "C75", "title": "Whatever other processes do, a call on a sled store fails only because the storage or a serialiser does", "statement": "Any number of processes, with any calls and any generators, work on one sled database at the same time, failing and dying anywhere, crowd after crowd. Every call that returns has answered what it answers alone on a working storage (Ok, or the error of its source), or reports a storage failure of its own process or a refusal of a serialiser: never an undecodable key or record, never missing property data. Iterations over vertices and queries next to them report storage failures only; iterations over edges may also report missing property data.", "quantifier": "all crowds of processes before and now, calls, generators (also with repeated record keys), schedules, storage failures, crash points and ends of leaves", "why_tests_cant": "Errors that need a particular interleaving of storage steps of several processes do not occur in tests.", "anchors": ["src/sled.rs", "src/sled/insert.rs", "src/sled/remove.rs", "src/sled/merge.rs", "src/sled/extend.rs", "src/sled/iter.rs", "src/sled/query.rs"]}
{"id": "C76", "title": "Whatever other processes do, a call on an RDF store over sled fails only for reasons that are its own or that name the race", "statement": "Any number of processes with RdfTripleStores, with any calls and any Ulids, work on one sled database at the same time, failing and dying anywhere, crowd after crowd. Every call that returns has answered what it answers alone on a working storage where some names are known, between those known before and those known after; or it reports a storage failure of its own process, a refusal of a serialiser, the identifier that another process has given to a name that was new and that both give, or (only if Ulids repeat) an identifier in use. Never an undecodable key, record or name, never missing property data. Readers next to them report storage failures and unserialisable identifiers, edge iterations also missing property data, queries also names not known when they started and names met twice.", "quantifier": "all crowds of processes before and now, calls, Ulids (also repeated ones), schedules, storage failures, crash points and ends of leaves", "why_tests_cant": "Errors that need a particular interleaving of storage steps of several processes do not occur in tests.", "anchors": ["src/rdf.rs: lookup_or_create_entity, lookup_entity, lookup_id", "src/rdf/insert.rs", "src/rdf/remove.rs", "src/rdf/merge.rs", "src/rdf/extend.rs", "src/rdf/iter.rs", "src/rdf/query.rs", "src/sled.rs: SledHashIndex"]}
{"id": "C77", "title": "Set operations with a sled store that is being written are right for each item at some moment", "statement": "union, intersection and difference of a MemTripleStore with a sled store that other callers are writing to meanwhile: the call fails only as an error of the other store, with a storage failure that was met or, if another caller rewrites an edge, with MissingPropertyData. Otherwise each vertex and edge of the result is justified by some moment during the call: in a union it was in the other store then, with these properties, or it is from self and was missing there then; in an intersection it is from self and was in the other store then; in a difference it is from self and was missing there then; and what the result lacks is likewise justified. For the edges of a difference, whose ends may have been subtracted, this holds with the rule of C16.", "quantifier": "all memory stores, databases left by any processes, numbers of other callers and their calls, schedules, storage failures and ends of leaves", "why_tests_cant": "The iterators read leaf by leaf while others write, and the join stops reading early; no test interleaves them.", "anchors": ["src/mem/set.rs: union, intersection, difference", "src/sled/iter.rs: into_iter_nodes"]}
{"id": "C78", "title": "A copy of an RDF store over sled that is being written has what was there all the time", "statement": "extend and merge of an RdfTripleStore called with an RdfTripleStore over sled that other callers are writing to meanwhile: the call does what it does with some source fixed beforehand. Its vertices and edges were all listed at some moment during the call and stand under what they were called then or later; under the names of the end they are in order and none comes twice; on success the source has everything that was there all the time. Its errors are storage failures that were met, or MissingPropertyData if another caller rewrites an edge. A new store in memory that is extended shows just such vertices and edges, as long as it draws no Ulid that the other store lists without a name.", "quantifier": "all databases left by any processes, numbers of other callers and their calls, schedules, storage failures, ends of leaves and stores that are written", "why_tests_cant": "Names are looked up item by item while others write names, vertices and edges; no test interleaves them.", "anchors": ["src/rdf/extend.rs: extend", "src/rdf/merge.rs: merge", "src/rdf/iter.rs"]}
{"id": "C79", "title": "Comparing with a sled store that is being written tells what held of each item at some moment", "statement": "try_eq of a MemTripleStore and a sled store, either of them as self, while other callers are writing to the sled store: Ok(true) means that every vertex and edge of the memory store was in the sled store at some moment during the call with equal properties, and that whatever the memory store does not have was missing in the sled store at some moment. Ok(false) means that at some moment a vertex or edge was in one of the two only or differed in its properties, or that a failure came up when the memory store had no more items. Otherwise the failure is reported as one of the sled store; failures are storage failures that were met or, if another caller rewrites an edge, MissingPropertyData.", "quantifier": "all memory stores, databases left by any processes, numbers of other callers and their calls, schedules, storage failures and ends of leaves", "why_tests_cant": "The two iterators of the sled store are read leaf by leaf, the edges after all vertices, while others write; the loop stops at the first difference. No test interleaves them.", "anchors": ["src/traits/triplestore.rs: try_eq", "src/sled/iter.rs: iter_nodes"]}
{"id": "C80", "title": "Comparing with an RDF store over sled that is being written gives the answer for what was there", "statement": "try_eq of any store of named entities and an RdfTripleStore over sled, either of them as self, while other callers are writing to the latter: the answer is the one that try_eq gives for some fixed items in its place. These were all listed at some moment during the call and stand under what they were called then or later; under the names of the end they are in order and none comes twice; their errors are storage failures that were met, or MissingPropertyData if another caller rewrites an edge. Either everything that was there all the time is among them, or no further items would have changed the answer. So Ok(true) means that everything in the other store was in the store in use at some moment, with equal properties and under a name it had then or got later, and that the other store has everything that was there all the time.", "quantifier": "all items and errors of the other store, databases left by any processes, numbers of other callers and their calls, schedules, storage failures and ends of leaves", "why_tests_cant": "Names are looked up item by item while others write names, vertices and edges, and the loop stops at the first difference. No test interleaves them.", "anchors": ["src/traits/triplestore.rs: try_eq", "src/rdf/iter.rs: iter_nodes"]}
{"id": "C81", "title": "A copy between two sled stores that are both in use is a call by a source that was there", "statement": "extend and merge of a sled store by a store on another database, while other callers are using both databases: the call does to the written database what one call of extend, or merge, by some fixed source does among the same other callers, with no storage failure there that was not met. All vertices and edges of that source were listed by the database that is read at some moment during the call, in order and none twice; its errors are storage failures that were met, or MissingPropertyData if another caller of that database rewrites an edge. If the call succeeds, the source has everything that was there all the time. For merge, where the others on the written store neither extend nor remove, that store ends up with what it had and the steps of all the calls in some order.", "quantifier": "all databases that are read, left by any processes, all written databases (for the last sentence: left by processes), numbers of other callers of each and their calls, schedules, storage failures on either side and ends of leaves", "why_tests_cant": "Reads of one database and writes of the other alternate item by item, with the steps of others on both in between. No test uses two databases with others writing.", "anchors": ["src/sled/extend.rs: extend", "src/sled/merge.rs: merge", "src/sled/iter.rs: into_iter_nodes"]}
{"id": "C82", "title": "A copy between two RDF stores over sled that are both in use is a call by a source that was there", "statement": "extend and merge of an RdfTripleStore over sled by one on another database, while other callers are using the names and graphs of both: the call does to the written database what one call of extend, or merge, by some fixed source does among the same other callers, with no storage failure there that was not met. Every vertex and edge of that source was listed by the database that is read at some moment during the call and is under what it was called then or later; under the names of the end they are in order and none comes twice; its errors are storage failures that were met, or MissingPropertyData if another caller of that database rewrites an edge. If the call succeeds, the source has everything that was there all the time. Where the others on the written store do not remove, that store ends up with the single calls of all callers in some order, those of the copy being the ones its source and its answer say, and names keep their identifiers.", "quantifier": "all databases that are read, left by any processes, all written databases (for the last sentence: left by processes that keep out of each other's way), numbers of other callers of each and their calls, schedules, storage failures on either side and ends of leaves", "why_tests_cant": "Reads of the graph and the names of one database and writes of both of the other alternate item by item, with the steps of others on both in between. No test uses two databases with others writing.", "anchors": ["src/rdf/extend.rs: extend", "src/rdf/merge.rs: merge", "src/rdf/iter.rs"]}
{"id": "C83", "title": "Comparing two sled stores that are both in use tells what held of each item in each at some moment", "statement": "try_eq of two sled stores on two databases, while other callers are using both: Ok(true) means that every vertex and edge was in both stores with equal properties, in each at some moment during the call, or was missing in both, in each at some moment. Ok(false) means that a vertex or edge was in one at some moment and missing in the other at some moment, or in both with properties that differ. Otherwise a storage failure was met by the call, or MissingPropertyData because another caller on that database is rewriting an edge; it is reported on the side where it was met, or Ok(false) is answered when the other store had no more items. With nobody else and no failures, the answer is that of try_eq for the items of the two stores.", "quantifier": "all pairs of databases left by any processes, numbers of other callers of each and their calls, schedules, storage failures on either side and ends of leaves", "why_tests_cant": "Both iterators are read leaf by leaf and in turn, the edges after all vertices, with the steps of others on both databases in between; the loop stops at the first difference. No test interleaves them.", "anchors": ["src/traits/triplestore.rs: try_eq", "src/sled/iter.rs: iter_nodes"]}
{"id": "C84", "title": "Comparing two RDF stores over sled that are both in use gives the answer for what was there", "statement": "try_eq of two RdfTripleStores over sled on two databases, while other callers are using the names and graphs of both: the answer is the one that try_eq gives for some fixed items of each side. These were all listed by that store at some moment during the call and stand under what they were called then or later; under the names of the end they are in order and none comes twice; their errors are storage failures that were met, or MissingPropertyData if another caller of that database rewrites an edge. On either side, everything that was there all the time is among them, or no further items would have changed the answer. So Ok(true) means that whatever was in one of the stores all the time was in it, at some moment, with properties equal to those that the other store had at some moment under the same name. With nobody else and no failures, the answer is that of try_eq for the items of the two stores.", "quantifier": "all pairs of databases left by any processes, numbers of other callers of each and their calls, schedules, storage failures on either side and ends of leaves", "why_tests_cant": "Both graphs are read leaf by leaf and in turn, names are looked up item by item, with the steps of others on both databases in between; the loop stops at the first difference. No test interleaves them.", "anchors": ["src/traits/triplestore.rs: try_eq", "src/rdf/iter.rs: iter_nodes"]}
{"id": "C85", "title": "Comparing two handles of one sled database in use, a store with itself among them", "statement": "try_eq of two sled stores on the same database, or of a store and itself, while other callers are using the database: Ok(true) means that every vertex and edge had equal properties at two moments of the call (perhaps the same one) or was missing at some moment. Ok(false) means that a vertex or edge was there at one moment and missing at another, or had properties that differ at two moments. Otherwise a storage failure was met by the call, or MissingPropertyData because another caller is rewriting an edge. For two RdfTripleStores over the same names and graph the answer is the one that try_eq gives for some fixed items of each side; these were all listed at some moment during the call and stand under what they were called then or later; on either side everything that was there all the time is among them, or no further items would have changed the answer. With nobody else and no failures, the answer is that of try_eq for the items of the database, and where properties equal themselves a store equals itself, whatever happened to its database before.", "quantifier": "all databases left by any processes, numbers of other callers and their calls, schedules, storage failures and ends of leaves, different for the two handles", "why_tests_cant": "Two iterators over the same trees advance in turn, leaf by leaf, the edges after all vertices, with the steps of others in between. No test compares a store with itself.", "anchors": ["src/traits/triplestore.rs: try_eq", "src/sled/iter.rs: iter_nodes", "src/rdf/iter.rs: iter_nodes"]}
{"id": "C86", "title": "Copying a sled store onto itself through a handle of the same database, in use, is a call by some fixed source", "statement": "extend and merge of a sled store by a store that is a handle of the same database, while other callers are using the database with any calls: although the iterators of the call may see what it and the others have just written, the call does to the database what one call of extend, or merge, by some source fixed beforehand does among the same other callers, with no storage failure that was not met, giving the same answer and drawing the same property record keys. Every vertex and edge of that source was listed by the database at some moment during the call, in order and none twice; its errors are storage failures that were met, or MissingPropertyData if an edge is rewritten. If the call succeeds, the source has everything that was there all the time. After a merge beside callers that neither extend nor remove, the database shows the steps of all calls in some order.", "quantifier": "all databases left by any processes, numbers of other callers and their calls, schedules, storage failures and ends of leaves", "why_tests_cant": "The call reads the trees leaf by leaf while it and others write to the same trees. No test copies a store onto itself, let alone with others writing.", "anchors": ["src/sled/extend.rs: extend", "src/sled/merge.rs: merge", "src/sled/iter.rs: into_iter_nodes"]}
{"id": "C87", "title": "Copying an RDF store over sled onto itself through another handle, in use, is a call by some fixed source", "statement": "extend and merge of an RDF store over sled by a handle of the same names and the same graph, while other callers are using them with any calls: although the iterators of the call may see what it and the others have just written, names included, the call does to the database what one call of extend, or merge, by some source fixed beforehand does among the same other callers, with no storage failure that was not met, giving the same answer and leaving the handle the same. Every vertex and edge of that source was listed at some moment during the call, under what it was called then or later; under the names of the end they are in order and none comes twice; its errors are storage failures that were met, or MissingPropertyData if an edge is rewritten. If the call succeeds, the source has everything that was there all the time.", "quantifier": "all databases left by any processes whose concurrent callers only add, numbers of other callers and their calls, schedules, storage failures and ends of leaves", "why_tests_cant": "The call reads names, vertices and edges from trees that it and others write to meanwhile. No test copies a store onto itself, let alone with others writing.", "anchors": ["src/rdf/extend.rs: extend", "src/rdf/merge.rs: merge", "src/rdf/iter.rs: into_iter_nodes"]}
