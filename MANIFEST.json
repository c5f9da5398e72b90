{
 "claims": [
  {
   "property": "C01",
   "status": "proved",
   "theorems": [
    "C01_roundtrip",
    "C01_bijection",
    "C01_length",
    "C01_wrong_length",
    "C01_big_endian"
   ],
   "note": "Both identifier kinds, all values and all byte lists."
  },
  {
   "property": "C02",
   "status": "proved",
   "theorems": [
    "C02_decode_encode",
    "C02_encode_decode",
    "C02_keys_distinct",
    "C02_layout"
   ],
   "note": "All triples and arrays; the panicking slice operations are explicit options and never None."
  },
  {
   "property": "C03",
   "status": "proved",
   "theorems": [
    "C03_key_order",
    "C03_key_eq",
    "C03_bytes_lt"
   ],
   "note": ""
  },
  {
   "property": "C04",
   "status": "proved",
   "theorems": [
    "C04_bounds_1",
    "C04_bounds_2",
    "C04_no_panic"
   ],
   "note": ""
  },
  {
   "property": "C05",
   "status": "proved",
   "theorems": [
    "C05_strict_total_order",
    "C05_lexicographic"
   ],
   "note": ""
  },
  {
   "property": "C06",
   "status": "proved",
   "theorems": [
    "C06_shows_total",
    "C06_shows_unique",
    "C06_history"
   ],
   "note": "Every reachable memory store, under the hypothesis that the identifiers its generator has drawn are pairwise different."
  },
  {
   "property": "C07",
   "status": "proved",
   "theorems": [
    "C07_orders",
    "C07_permutation"
   ],
   "note": "No hypothesis about the generator."
  },
  {
   "property": "C08",
   "status": "proved",
   "theorems": [
    "C08_insert_node",
    "C08_insert_edge",
    "C08_insert_node_twice",
    "C08_insert_edge_twice"
   ],
   "note": "Memory store; generator hypothesis for edges."
  },
  {
   "property": "C09",
   "status": "proved",
   "theorems": [
    "C09_remove_node",
    "C09_absent"
   ],
   "note": "Memory store; generator hypothesis."
  },
  {
   "property": "C10",
   "status": "proved",
   "theorems": [
    "C10_remove_edge",
    "C10_absent",
    "C10_twice",
    "C10_gone",
    "C10_queries"
   ],
   "note": "Memory store."
  },
  {
   "property": "C11",
   "status": "proved",
   "theorems": [
    "C11_merge_node",
    "C11_merge_edge"
   ],
   "note": "Memory store, any merge functions."
  },
  {
   "property": "C12",
   "status": "proved",
   "theorems": [
    "C12_extend",
    "C12_store"
   ],
   "note": "Memory store, sources failing at any position included."
  },
  {
   "property": "C13",
   "status": "proved",
   "theorems": [
    "C13_merge",
    "C13_store"
   ],
   "note": "Memory store, sources failing at any position included."
  },
  {
   "property": "C14",
   "status": "proved",
   "theorems": [
    "C14_union",
    "C14_errors",
    "C14_mem_operand"
   ],
   "note": ""
  },
  {
   "property": "C15",
   "status": "proved",
   "theorems": [
    "C15_intersection",
    "C15_errors"
   ],
   "note": ""
  },
  {
   "property": "C16",
   "status": "partial",
   "theorems": [
    "C16_refuted",
    "C16_plain_refuted",
    "C16_exact_partial",
    "C16_untouched_partial",
    "C16_errors"
   ],
   "note": "False of the code: dangling edges survive and other edges are dropped. The exact result is characterised."
  },
  {
   "property": "C17",
   "status": "proved",
   "theorems": [
    "C17_run"
   ],
   "note": "All eight query kinds."
  },
  {
   "property": "C18",
   "status": "proved",
   "theorems": [
    "C18_disjoint",
    "C18_nodes",
    "C17_run"
   ],
   "note": ""
  },
  {
   "property": "C19",
   "status": "proved",
   "theorems": [
    "C19_order",
    "C19_idempotent"
   ],
   "note": ""
  },
  {
   "property": "C20",
   "status": "proved",
   "theorems": [
    "C20_with_props"
   ],
   "note": ""
  },
  {
   "property": "C22",
   "status": "partial",
   "theorems": [
    "C22_refuted",
    "C22_exact_partial",
    "C22_same_size_partial"
   ],
   "note": "False of the code: == ignores the edges beyond the shorter edge list. The exact relation is characterised."
  },
  {
   "property": "C23",
   "status": "proved",
   "theorems": [
    "C23_try_eq",
    "C23_left",
    "C23_right",
    "C23_graph"
   ],
   "note": "Over the item sequences of any two stores. An error is not reported if the other side has already ended; the answer is then Ok(false)."
  },
  {
   "property": "C24",
   "status": "proved",
   "theorems": [
    "C24_macro"
   ],
   "note": ""
  },
  {
   "property": "C25",
   "status": "proved",
   "theorems": [
    "C25_view",
    "C25_query_map",
    "C25_query_try_map_ok",
    "C25_query_try_map_err",
    "C25_triple_map",
    "C25_triple_try_map_ok",
    "C25_triple_try_map_err",
    "C25_props_triple_map",
    "C25_props_triple_try_map_ok",
    "C25_props_triple_try_map_err",
    "C25_from_triples",
    "C25_props_to_triple"
   ],
   "note": "Pure closures."
  },
  {
   "property": "C37",
   "status": "proved",
   "theorems": [
    "C37_distinct",
    "C37_sequence",
    "C37_store"
   ],
   "note": ""
  },
  {
   "property": "C38",
   "status": "partial",
   "theorems": [
    "C38_refuted",
    "C38_partial",
    "C38_room_partial"
   ],
   "note": "False of the code: on overflow of the random part fresh() falls back to Ulid::new(), which can be smaller than or equal to earlier identifiers. True while no call overflows. The ulid crate is modelled from its documentation."
  },
  {
   "property": "C39",
   "status": "partial",
   "theorems": [
    "C39_refuted",
    "C39_partial",
    "C39_right_partial",
    "C39_monotone",
    "C39_set"
   ],
   "note": "False of the code: a call failing with DuplicateLeft has already changed the left map. The exact effect of every call is proved."
  },
  {
   "property": "C21",
   "status": "proved",
   "theorems": [
    "C21_mem",
    "C21_sled",
    "C21_sled_nodes",
    "C21_sled_vertices"
   ],
   "note": "Both backends; for sled on any contents and with any storage failures."
  },
  {
   "property": "C26",
   "status": "proved",
   "theorems": [
    "C26_history",
    "C26_run",
    "C26_works",
    "C26_caused"
   ],
   "note": "From an empty database, any storage failures; the property record keys that may be drawn are pairwise different; bincode is an arbitrary codec that round-trips."
  },
  {
   "property": "C27",
   "status": "proved",
   "theorems": [
    "C27_backends"
   ],
   "note": "Pairwise different identifiers on both sides. iter_edges_with_props is not included: see C28."
  },
  {
   "property": "C36",
   "status": "partial",
   "theorems": [
    "C36_refuted",
    "C36_sessions_partial",
    "C36_run_partial"
   ],
   "note": "False of the code with restarted generators (U64IdGenerator::new counts from 0 in every process). True if no property record key is drawn twice over all sessions."
  },
  {
   "property": "C29",
   "status": "proved",
   "theorems": [
    "C29_atomic",
    "C29_history",
    "C29_lives"
   ],
   "note": "Any contents and any storage failures for a single call; a crash leaves a prefix of the atomic storage steps (trusted about sled). C29_history: a crash anywhere in a run of single calls leaves the graph after some first part of them. C29_lives: any number of processes with failures and crashes; those that call extend must have come to their end without a failure (C53 says what happens otherwise)."
  },
  {
   "property": "C30",
   "status": "partial",
   "theorems": [
    "C30_refuted",
    "C30_merge_partial",
    "C30_extend_partial"
   ],
   "note": "False of the code for extend, which writes the record and the three orders in separate steps: a crash between them leaves orders that disagree. Missing from the partial theorems: agreement of the three orders after a crash inside extend. merge is atomic per element."
  },
  {
   "property": "C33",
   "status": "partial",
   "theorems": [
    "C33_refuted",
    "C33_single_partial",
    "C33_remove_edge_partial",
    "C33_serialiser"
   ],
   "note": "False of the code for remove_edge, which reports a failure of its second, untransacted removal although the edge is gone. True of all other single calls; the exact outcome of remove_edge is proved."
  },
  {
   "property": "C28",
   "status": "partial",
   "theorems": [
    "C28_refuted",
    "C28_partial",
    "C28_backends_partial"
   ],
   "note": "False of the code: iter_impl yields Err(MissingPropertyData) for an edge without both endpoints, where the memory backend leaves it out. Proved: the exact sequence; without its errors it equals the memory backend's."
  },
  {
   "property": "C34",
   "status": "proved",
   "theorems": [
    "C34_vertices",
    "C34_edges",
    "C34_edges_with_props",
    "C34_vertices_set",
    "C34_run"
   ],
   "note": "Any contents of the five tables and any storage failures. Index entries without a property record give MissingPropertyData in iteration and are skipped by queries."
  },
  {
   "property": "C35",
   "status": "partial",
   "theorems": [
    "C35_mem",
    "C35_sled_refuted",
    "C35_sled_partial",
    "C35_sled_lives_partial",
    "C35_sled_failures_partial"
   ],
   "note": "True of the memory store (identifiers drawn from the generator pairwise different). False of the sled store: insert_edge leaves the record of the edge it replaces. Proved for the sled store: exactly one record is left for each such call and nothing else leaks, for histories in which no call reports a failure; with failures and crashes of the processes anywhere, at most one record for each call of insert_edge and each call of extend that was cut short. Missing: that those are not there."
  },
  {
   "property": "C31",
   "status": "proved",
   "theorems": [
    "C31_serial",
    "C31_shows"
   ],
   "note": "Any number of callers, any schedule, any storage failures; C31_serial for any contents of the tables and at every moment, C31_shows for a new database when all callers are through and the identifiers drawn by all of them are pairwise different."
  },
  {
   "property": "C32",
   "status": "partial",
   "theorems": [
    "C32_serial_partial",
    "C32_shows_partial",
    "C32_all_partial",
    "C32_remove_edge_refuted",
    "C32_remove_node_refuted"
   ],
   "note": "False in general: an edge inserted between the transaction and the later steps of remove_edge is left in one order only, and what is inserted between the scan and the transaction of remove_node survives as in no order of the calls. Proved for any number of callers making any calls, any schedules, failures (not inside extend) and divisions of the trees into leaves when no caller writes an edge that another one removes or extends by; missing: callers that do."
  },
  {
   "property": "C40",
   "status": "proved",
   "theorems": [
    "C40_one_to_one",
    "C40_monotone",
    "C40_set",
    "C40_serial"
   ],
   "note": "Any number of callers, schedules, storage failures, serialisation failures, crashes and reopenings; serialisation is any codec that deserialises what it serialised."
  },
  {
   "property": "C41",
   "status": "proved",
   "theorems": [
    "C41_history",
    "C41_no_index_error",
    "C41_stable",
    "C41_plain",
    "C41_iterators",
    "C41_with_props"
   ],
   "note": "Over MemHashIndex and MemTripleStore; String is any type with equality, Ulid::new() any sequence. Graph record identifiers pairwise different."
  },
  {
   "property": "C42",
   "status": "partial",
   "theorems": [
    "C42_refuted",
    "C42_run_partial",
    "C42_unknown"
   ],
   "note": "False of the code: run fails with DuplicateRight as soon as a named entity occurs twice among the matching edges. The exact condition for success and the result are proved; missing: success in the other cases."
  },
  {
   "property": "C43",
   "status": "proved",
   "theorems": [
    "C43_remove_node",
    "C43_remove_edge",
    "C43_node_gone",
    "C43_edge_gone"
   ],
   "note": "The first unknown name of a triple is the one reported."
  },
  {
   "property": "C44",
   "status": "partial",
   "theorems": [
    "C44_refuted",
    "C44_exact_partial",
    "C44_same_ids_partial"
   ],
   "note": "False of the code: items are compared in the order of the Ulids behind the names. The exact relation is proved; missing: equal named graphs whose identifiers are ordered differently."
  },
  {
   "property": "C45",
   "status": "proved",
   "theorems": [
    "C45_edges",
    "C45_edges_adding",
    "C45_nodes",
    "C45_vertices",
    "C45_props",
    "C45_props_adding"
   ],
   "note": "Any number of callers and calls, schedules, storage failures, earlier crashes; scans cut at arbitrary keys. With writers that only insert and merge vertices there is no MissingPropertyData from iter_edges, and from iter_edges_with_props only for an edge whose end was missing."
  },
  {
   "property": "C46",
   "status": "partial",
   "theorems": [
    "C46_run_partial",
    "C46_run_adding_partial",
    "C46_iter_refuted",
    "C46_run_refuted"
   ],
   "note": "False of the code: merge_edge gives the edge a new record, and a reader that has read the old entry finds no record; queries then skip the edge silently. Proved: vertices are found next to any calls, edges next to insert_node, insert_edge and merge_node; C67 says which edges may be missed next to the others."
  },
  {
   "property": "C47",
   "status": "proved",
   "theorems": [
    "C47_history",
    "C47_readers"
   ],
   "note": "Any cuts, any tables sorted by key, any failures and crashes."
  },
  {
   "property": "C48",
   "status": "partial",
   "theorems": [
    "C48_snapshot_refuted",
    "C48_item_refuted"
   ],
   "note": "False of the code: scans go leaf by leaf and items are completed by separate reads. What holds instead is C45; a reader that nobody interrupts sees one moment by C47 and C34."
  },
  {
   "property": "C49",
   "status": "proved",
   "theorems": [
    "C49_epochs",
    "C49_stable",
    "C49_answers",
    "C49_caused",
    "C49_works",
    "C49_with_props",
    "C49_vertices",
    "C49_faults",
    "C49_removals",
    "C49_removals_stable"
   ],
   "note": "From an empty database; the property record keys that may be drawn are pairwise different; the serialisers round-trip; for the statement about failures the Ulids drawn for names are new. Callers that remove at the same time as others do not take away an edge that another one writes: see C50. The statements about failures and answers are for removals while nobody else uses the database. The readers are those of the quiet database; iter_nodes and the into_iter variants are not modelled for this backend."
  },
  {
   "property": "C50",
   "status": "partial",
   "theorems": [
    "C50_create_refuted",
    "C50_remove_refuted",
    "C50_failed_refuted",
    "C50_together_partial",
    "C50_caused_partial",
    "C50_apart_partial",
    "C50_removals_partial",
    "C50_edge_refuted"
   ],
   "note": "False of the code: two callers that give the same new name race and one gets a DuplicateRight error; a removal can see a name whose vertex is not there yet; a failed insert leaves its name; an edge that one caller removes while another writes it can end in one list only. Proved for callers that make any calls but keep out of each other's way in that respect: the graph is the one of their single calls in some order, and a removal answers by the names of some moment during the run. Proved for callers that insert and merge: a failure comes from the storage, a serialiser, or such a race over a name that was new and that another caller gives too, so a caller that shares no new name gets through. Missing: removals of edges that another caller writes, and the causes of failures next to removals."
  },
  {
   "property": "C51",
   "status": "partial",
   "theorems": [
    "C51_refuted",
    "C51_run_partial",
    "C51_unknown"
   ],
   "note": "False of the code like C42. The exact condition for success, the result and the behaviour under storage failures are proved; missing: success when a name occurs twice."
  },
  {
   "property": "C52",
   "status": "proved",
   "theorems": [
    "C52_backends",
    "C52_history"
   ],
   "note": "Pairwise different record identifiers on both sides; no Ulid used by the caller is drawn for a name."
  },
  {
   "property": "C53",
   "status": "proved",
   "theorems": [
    "C53_confined",
    "C53_retry",
    "C53_heals"
   ],
   "note": "From an empty database; the property record keys that may be drawn are pairwise different; the serialisers round-trip. C53_retry assumes that no other extend was made before; C53_heals has any calls before and excludes remove_node among the repairing calls, see C54."
  },
  {
   "property": "C54",
   "status": "partial",
   "theorems": [
    "C54_refuted",
    "C54_remove_partial"
   ],
   "note": "False of the code: remove_node finds the edges ending at the node in the OSP order, which a crashed extend has not written yet; the edge stays in the SPO order. Proved: nothing else stays. Missing: edges that end at the node and were left torn by an extend."
  },
  {
   "property": "C55",
   "status": "partial",
   "theorems": [
    "C55_prints",
    "C55_same_partial",
    "C55_refuted"
   ],
   "note": "False of the code when two edges have the same 64 bit hash, whatever the hash function: proved for every one. Otherwise proved. The hash is an arbitrary function of the bytes of the key, a line the values written in it. Drawn record identifiers pairwise different."
  },
  {
   "property": "C56",
   "status": "partial",
   "theorems": [
    "C56_readonly",
    "C56_works",
    "C56_prints_partial",
    "C56_torn_partial",
    "C56_torn_same_partial",
    "C56_same_partial",
    "C56_refuted"
   ],
   "note": "False of the code: node properties are printed as (), and records that belong to no edge give a line. Success, the page and what equal outputs mean otherwise are proved. C56_torn_partial says what is printed after an extend that was cut short, C56_torn_same_partial that equal outputs then mean equal nodes and an equal SPO order. Missing: that equal contents print the same in those cases."
  },
  {
   "property": "C57",
   "status": "proved",
   "theorems": [
    "C57_to_mem",
    "C57_to_mem_ok",
    "C57_to_sled",
    "C57_from_sled",
    "C57_round_trip"
   ],
   "note": "The identifiers drawn for the copy are pairwise different; the serialisers round-trip; nobody writes to the original meanwhile."
  },
  {
   "property": "C58",
   "status": "proved",
   "theorems": [
    "C58_total",
    "C58_union_self",
    "C58_intersection_self",
    "C58_difference_self",
    "C58_union_empty",
    "C58_empty_union",
    "C58_intersection_empty",
    "C58_difference_empty",
    "C58_union_assoc",
    "C58_intersection_assoc",
    "C58_absorb_union",
    "C58_absorb_intersection",
    "C58_distribute",
    "C58_disjoint",
    "C58_run_union",
    "C58_run_intersection",
    "C58_extend_union",
    "C58_extend_twice"
   ],
   "note": "The identifiers drawn for each result are pairwise different; == of the properties is reflexive. The stores are memory stores; sled has no set operations."
  },
  {
   "property": "C59",
   "status": "partial",
   "theorems": [
    "C59_refuted",
    "C59_parts_partial"
   ],
   "note": "False of the code, as difference drops edges (C16). Proved: the vertices are recovered and no edge is added or changed. Missing: the edges that difference drops."
  },
  {
   "property": "C60",
   "status": "proved",
   "theorems": [
    "C60_from_mem",
    "C60_from_sled",
    "C60_to_mem",
    "C60_to_sled",
    "C60_round_trip",
    "C60_into_iter",
    "C60_iter_nodes"
   ],
   "note": "No Ulid drawn for a name of the copy is an unnamed entity of the original, the identifiers drawn are pairwise different, the serialisers round-trip, and nobody writes to the original meanwhile. The order in which the copy lists its items depends on its Ulids, so try_eq may tell them apart: C44."
  },
  {
   "property": "C61",
   "status": "proved",
   "theorems": [
    "C61_open_store",
    "C61_open_index",
    "C61_store",
    "C61_store_together",
    "C61_index",
    "C61_rdf",
    "C61_rdf_together",
    "C61_rdf_parts",
    "C61_reopen"
   ],
   "note": "A sled::Db is a set of named trees, open_tree creates an empty one or gives the existing one."
  },
  {
   "property": "C62",
   "status": "partial",
   "theorems": [
    "C62_merge_partial",
    "C32_all_partial",
    "C62_refuted"
   ],
   "note": "False of extend: two callers that extend by the same edge may leave an order with a removed record, no call failing. Proved of merge next to insertions and merges without any condition, and of extend and merge next to all calls when no caller writes an edge another one removes or extends by and the storage does not fail inside extend; missing: callers and failures that do."
  },
  {
   "property": "C63",
   "status": "proved",
   "theorems": [
    "C63_nodes",
    "C63_vertices",
    "C63_edges",
    "C63_edges_adding",
    "C63_props",
    "C63_props_adding"
   ],
   "note": "Any number of callers and calls, schedules, storage failures, earlier crashes; scans cut at arbitrary keys. Identifiers drawn for property records pairwise different; the serialisers round-trip. Two entities count as the same if the names of the end make them so: an entity may get a name while the reader is at work."
  },
  {
   "property": "C64",
   "status": "partial",
   "theorems": [
    "C64_moment_refuted",
    "C64_nodes_partial",
    "C64_vertices_partial",
    "C64_edges_partial",
    "C64_props_partial"
   ],
   "note": "False of the code if a process draws for a name the Ulid of an entity that is used without a name. Proved for all callers, calls, schedules, storage failures and earlier crashes when no Ulid drawn for a name is mentioned by a call or shown without a name before; missing: callers that draw such a Ulid."
  },
  {
   "property": "C65",
   "status": "partial",
   "theorems": [
    "C65_refuted",
    "C65_run_partial",
    "C65_adding_partial"
   ],
   "note": "False of the code: merge_edge gives the edge a new record, and a query that has read the old entry skips the edge silently, as in C46. Proved: everything else next to any calls, and that no edge is missed next to insertions, vertex merges and extends. Identifiers drawn for property records pairwise different; the serialisers round-trip."
  },
  {
   "property": "C66",
   "status": "partial",
   "theorems": [
    "C66_refuted",
    "C66_run_partial",
    "C66_adding_partial"
   ],
   "note": "False of the code if a process draws for names the Ulids of entities that are used without a name. Proved for all callers, calls, schedules, storage failures and earlier crashes when no Ulid drawn for a name is mentioned by a call or shown without a name before; missing: callers that draw such a Ulid, and edges next to calls that take records away (C68)."
  },
  {
   "property": "C67",
   "status": "proved",
   "theorems": [
    "C67_edges",
    "C67_props",
    "C67_run"
   ],
   "note": "Any number of callers and calls, schedules, storage failures, earlier crashes; scans cut at arbitrary keys. Identifiers drawn for property records pairwise different; the serialisers round-trip."
  },
  {
   "property": "C68",
   "status": "proved",
   "theorems": [
    "C68_edges",
    "C68_props",
    "C68_run"
   ],
   "note": "As C67 for RDF stores. An entity of a call stands for the identifier its name has when the execution is over (names are never changed). Queries: for the edges only; the rest is C65."
  },
  {
   "property": "C69",
   "status": "proved",
   "theorems": [
    "C69_extend_self"
   ],
   "note": "Scans cut at arbitrary keys; an edge's record is looked up when the edge is delivered. Identifiers drawn for property records pairwise different; the serialisers round-trip. Nothing else runs at the same time."
  },
  {
   "property": "C70",
   "status": "proved",
   "theorems": [
    "C70_merge_self"
   ],
   "note": "As C69."
  },
  {
   "property": "C71",
   "status": "proved",
   "theorems": [
    "C71_any",
    "C71_readers",
    "C71_run",
    "C71_mem_names",
    "C71_sled_names",
    "C71_mem_graph",
    "C71_sled_graph",
    "C71_mem_sled",
    "C71_sled_mem",
    "C71_mem_mem",
    "C71_mem_mem_readers",
    "C71_mem_mem_run",
    "C71_sled_sled",
    "C71_sled_sled_readers",
    "C71_sled_sled_run"
   ],
   "note": "One caller alone. The Ulids drawn for names are pairwise different and have no name yet, those for edges are pairwise different and unused; the serialisers round-trip. Queries fail on a name in two matching places, as in C42 and C51, and only then."
  },
  {
   "property": "C72",
   "status": "proved",
   "theorems": [
    "C72_extend_self"
   ],
   "note": "Scans cut at arbitrary keys; an edge's record and the names of an item are looked up when it is delivered. Identifiers drawn for property records pairwise different; the serialisers round-trip, and that of identifiers never fails. Nothing else runs at the same time; before, removals were made only while nobody else used the database."
  },
  {
   "property": "C73",
   "status": "proved",
   "theorems": [
    "C73_merge_self"
   ],
   "note": "As C72."
  },
  {
   "property": "C74",
   "status": "proved",
   "theorems": [
    "C74_handed",
    "C74_extend",
    "C74_merge",
    "C74_sled_extend",
    "C74_sled_merge"
   ],
   "note": "Property record keys that may be drawn in the database that is read pairwise different; the serialisers round-trip; for the memory store also the identifiers it draws. The store that is written is not on the database that is read. C74_snapshot_refuted: the copy is not what the store had at any one moment."
  },
  {
   "property": "C75",
   "status": "proved",
   "theorems": [
    "C75_calls",
    "C75_alike",
    "C75_readers"
   ],
   "note": "The serialisers round-trip. Nothing is assumed about the generators or the calls. Calls are those of History.v, bulk calls from a source given beforehand."
  },
  {
   "property": "C76",
   "status": "proved",
   "theorems": [
    "C76_calls",
    "C76_alike",
    "C76_readers"
   ],
   "note": "The serialisers round-trip and equality of names is equality. Nothing is assumed about Ulids, calls or schedules in C76_calls and C76_readers. Bulk calls read a source given beforehand. What a query reports about the graph of its result (not its names) is not claimed here (see C42 and C65)."
  },
  {
   "property": "C77",
   "status": "proved",
   "theorems": [
    "C77_union",
    "C77_intersection",
    "C77_difference"
   ],
   "note": "Property record keys that may be drawn in the database that is read pairwise different; the serialisers round-trip; the identifiers the result draws pairwise different. C77_snapshot_refuted: the result is not right for all items at one moment."
  },
  {
   "property": "C78",
   "status": "proved",
   "theorems": [
    "C78_handed",
    "C78_extend",
    "C78_merge",
    "C78_mem_extend",
    "C78_mem_merge",
    "C78_sled_extend",
    "C78_sled_merge"
   ],
   "note": "Property record keys that may be drawn in the database that is read pairwise different; the serialisers round-trip, and that of Ulids accepts all; earlier processes as in C49. For a new memory store also: the identifiers it draws pairwise different, and none of them listed without a name. The store that is written is not on the database that is read. C78_snapshot_refuted, C78_split_refuted: the copy, and even an edge of it, is not what the store had at any one moment."
  },
  {
   "property": "C79",
   "status": "proved",
   "theorems": [
    "C79_mem",
    "C79_sled",
    "C79_loop"
   ],
   "note": "Property record keys that may be drawn in the database that is read pairwise different; the serialisers round-trip. C79_moment_refuted: Ok(true) does not mean that the stores were equal at any one moment."
  },
  {
   "property": "C80",
   "status": "proved",
   "theorems": [
    "C80_other",
    "C80_self",
    "C80_other_true",
    "C80_self_true",
    "C80_loop"
   ],
   "note": "Property record keys that may be drawn in the database that is read pairwise different; the serialisers round-trip, and that of Ulids accepts all; earlier processes as in C49. C80_moment_refuted: Ok(true) does not mean that the stores were equal at any one moment."
  },
  {
   "property": "C81",
   "status": "proved",
   "theorems": [
    "C81_extend",
    "C81_merge",
    "C81_merge_end",
    "C81_loop"
   ],
   "note": "Property record keys that may be drawn in the database that is read pairwise different; its serialisers round-trip. C81_merge_end also: the serialisers of the written store round-trip, the keys drawn there, for the items handed over too, are pairwise different, and earlier extends there as in C62. Storage failures of both databases have one type."
  },
  {
   "property": "C82",
   "status": "proved",
   "theorems": [
    "C82_extend",
    "C82_merge",
    "C82_extend_end",
    "C82_merge_end",
    "C82_loop"
   ],
   "note": "Property record keys that may be drawn in the database that is read pairwise different; its serialisers round-trip, and that of Ulids accepts all; earlier processes there as in C49. C82_extend_end and C82_merge_end also: the same for the written store, the keys drawn for the items handed over included. Storage failures of both databases have one type."
  },
  {
   "property": "C83",
   "status": "proved",
   "theorems": [
    "C83_eq",
    "C83_alone"
   ],
   "note": "Two different databases. Property record keys that may be drawn in each database pairwise different; the serialisers round-trip. Storage failures of both databases are of one type. C83_moment_refuted: Ok(true) does not mean that the stores were equal at any one moment."
  },
  {
   "property": "C84",
   "status": "proved",
   "theorems": [
    "C84_eq",
    "C84_true",
    "C84_alone"
   ],
   "note": "Two different databases. Property record keys that may be drawn in each database pairwise different; the serialisers round-trip, and that of Ulids accepts all; earlier processes as in C49. Storage failures of both databases are of one type. C84_moment_refuted: Ok(true) does not mean that the stores were equal at any one moment."
  },
  {
   "property": "C85",
   "status": "proved",
   "theorems": [
    "C85_sled",
    "C85_rdf",
    "C85_rdf_true",
    "C85_alone",
    "C85_rdf_alone",
    "C85_itself",
    "C85_rdf_itself"
   ],
   "note": "Property record keys that may be drawn in the database pairwise different; the serialisers round-trip, and for RDF stores that of Ulids accepts all; earlier processes as in C49. C85_itself and C85_rdf_itself also: properties equal themselves. C85_busy_refuted: a store may differ from itself while another caller adds a vertex."
  },
  {
   "property": "C86",
   "status": "proved",
   "theorems": [
    "C86_extend",
    "C86_merge",
    "C86_merge_end"
   ],
   "note": "The call has returned. Property record keys that may be drawn by the others, and those the call has drawn, pairwise different; the serialisers round-trip. C86_merge_end also: earlier extends as in C62. Stores without names; RDF stores are in C87."
  },
  {
   "property": "C87",
   "status": "proved",
   "theorems": [
    "C87_extend",
    "C87_merge"
   ],
   "note": "The call has returned. Property record keys that may be drawn by the others, those the call has drawn and the next one pairwise different; the serialisers round-trip, and that of Ulids accepts all; earlier processes as in C49."
  }
 ]
}