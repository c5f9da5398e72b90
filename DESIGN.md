# Formal model of simple_triplestore in Rocq

Source: `/repo` (read only, never built or run). Model and proofs: `/verif/rocq/theories`,
Coq 8.16.1, standard library only. Properties: `properties.jsonl`. Which theorem stands for which
property: `MANIFEST.json`. Deliberately wrong versions of the model and what they broke:
`seeded/LOG.jsonl`.

## 1. Trusted base

* **The kernel** of Coq 8.16.1 (`coqc`; `vm_compute` is used in examples and witnesses).
* **Assumptions.** `Print Assumptions` follows every theorem in the `Prop_*.v` files, and prints
  `Closed under the global context` for every one of them: no axiom of ours, none of the standard
  library, no functional extensionality, no proof irrelevance. (`coqchk` and `vcheck` also list
  `Coq.ssr.ssrunder.Under_rel.*`: these are the parameters of a module type inside the standard
  library that is loaded but used by nothing here.)
* **The correspondence of model and code**, by reading. Every definition in a model file cites the
  `/repo` file and lines it stands for and says where it simplifies. As a check, `Conformance.v` runs the
  project's own tests and documentation examples in the model, on both backends; all give what the
  tests expect.
* **The semantics given to the dependencies:**
  * `BTreeMap` and `sled::Tree` are sorted association lists (`OMap.v`): get, insert, remove,
    range with inclusive bounds, ordered iteration. `HashMap` is an association list whose order is
    never observed, `HashSet` (in queries) a list in arbitrary order with arbitrary repetitions.
  * sled: every call on a tree, and every transaction, is one atomic step; a failing call or an aborted
    transaction has no effect; a crash leaves the effect of a prefix of the atomic steps (the
    store never calls `flush`; steps that had not reached the disk when the process died make that prefix shorter, and
    what is assumed is that sled recovers a prefix). A scan is
    read leaf by leaf: the leaves end at arbitrary keys, each leaf is copied when the scan gets there, and
    its entries are delivered one by one, each delivery being a step that may fail (`SledLeaf.v`); a failed
    delivery yields the error in place of the entry, and the scan goes on with the next one (an iterator that tried the
    entry again would yield the error in addition). `Sled.v`
    has the scans in one piece; C47 shows that the two agree for a caller that is alone; everything about
    concurrent callers is about scans read leaf by leaf.
  * bincode is an arbitrary pair of partial functions; where a theorem needs it, with the
    hypothesis that deserialising what was serialised gives it back.
  * The `ulid` crate is modelled from its documentation (48 bit time, 80 bit random part, `Generator`
    increments within a millisecond and fails on overflow). `Ulid::new()` is an arbitrary sequence.
  * `Clone` is the identity, closures passed in (merge functions, maps) are pure, and memory never runs out.

## 2. The model

| file | models | from `/repo` |
|---|---|---|
| `Bytes.v` | bytes, big-endian codec, slices that may panic (options) | std |
| `OMap.v` | ordered maps | std, sled |
| `Core.v` | Triple, PropsTriple, EdgeOrder, Query and the `query!` macro, result types | `src/lib.rs`, `src/triple.rs`, `src/traits/query.rs`, `src/traits/iter.rs` |
| `IdType.v` | u64 and Ulid identifiers, three key layouts, key bounds | `src/id/*.rs` |
| `IdGen.v` | U64IdGenerator, UlidIdGenerator | `src/id/u64.rs`, `src/id/ulid.rs` |
| `Store.v` | what a store looks like to another one: its item sequences | `src/traits/*.rs` |
| `Mem.v` | MemTripleStore: insert, remove, merge, extend, set operations, queries, iterators, `==` and try_eq | `src/mem.rs`, `src/mem/*.rs` |
| `MemIndex.v` | MemHashIndex | `src/mem.rs:321-391` |
| `Prog.v` | programs of atomic storage steps, run alone with failures, cut by a crash, or interleaved | |
| `Sled.v` | SledTripleStore as such programs: all its methods | `src/sled.rs`, `src/sled/*.rs` |
| `SledLeaf.v` | the scanning methods of SledTripleStore, leaf by leaf | `src/sled/iter.rs`, `src/sled/query.rs`, `src/sled/remove.rs` |
| `SledLazy.v` | extend and merge by a handle on the same database, read while they write | `src/sled/extend.rs`, `src/sled/merge.rs`, `src/sled/iter.rs:226-301` |
| `SledCopy.v` | extend and merge by a sled store that other callers are using | `src/mem/extend.rs`, `src/mem/merge.rs`, `src/sled/extend.rs`, `src/sled/merge.rs`, `src/sled/iter.rs:226-301` |
| `SledSetLive.v` | union, intersection and difference with a sled store that other callers are using | `src/mem/set.rs`, `src/sled/iter.rs:226-301` |
| `SledEqLive.v` | try_eq with a sled store that other callers are using | `src/traits/triplestore.rs:43-86`, `src/sled/iter.rs:89-111`, `162-220` |
| `SledTwo.v` | extend and merge of a sled store by one on another database, others using both; one program on two databases | `src/sled/extend.rs`, `src/sled/merge.rs`, `src/sled/iter.rs:226-301` |
| `SledEqTwo.v` | try_eq of two sled stores on two databases, others using both | `src/traits/triplestore.rs:43-86`, `src/sled/iter.rs:89-111`, `162-220` |
| `RdfSledEqTwo.v` | try_eq of two RDF stores over sled on two databases, others using both | `src/traits/triplestore.rs:43-86`, `src/rdf/iter.rs:28-51` |
| `SledEqSame.v` | try_eq of two handles of one sled database, with and without names, others using it | `src/traits/triplestore.rs:43-86`, `src/sled/iter.rs:89-111, 162-220`, `src/rdf/iter.rs:28-51` |
| `RdfSledSelfLive.v` | the property record keys that an extend or merge of an RDF store over sled by a handle on the same names and graph has drawn, and the next one, others using them (the call itself is in `RdfSledLazy.v`) | `src/rdf/extend.rs:16-37`, `src/rdf/merge.rs:16-37` |
| `SledSelfLive.v` | the property record keys that an extend or merge by a handle on the same database has drawn, others using it (the call itself is in `SledLazy.v`) | `src/sled/extend.rs:19-65`, `src/sled/merge.rs:18-36` |
| `RdfSledCopy.v` | extend and merge of an RDF store by one over sled that other callers are using | `src/rdf/extend.rs`, `src/rdf/merge.rs`, `src/rdf/iter.rs:98-127` |
| `RdfSledTwo.v` | extend and merge of an RDF store over sled by one on another database, others using both | `src/rdf/extend.rs`, `src/rdf/merge.rs`, `src/rdf/iter.rs:98-127` |
| `RdfSledEqLive.v` | try_eq of any store of named entities with an RDF store over sled that other callers are using | `src/traits/triplestore.rs:43-86`, `src/rdf/iter.rs:28-51` |
| `SledIndex.v` | SledHashIndex | `src/sled.rs:339-` |
| `Debug.v` | the `Debug` output of both stores, as lists of lines; the hash of a key is an arbitrary function | `src/mem.rs:120-229`, `src/sled.rs:199-328` |
| `Rdf.v` | RdfTripleStore over MemHashIndex and MemTripleStore | `src/rdf.rs`, `src/rdf/*.rs` |
| `RdfSled.v` | RdfTripleStore over SledHashIndex and SledTripleStore, as programs | `src/rdf.rs`, `src/rdf/*.rs` |
| `RdfSledLazy.v` | extend and merge of an RDF store by a handle on the same names and graph, read while they write | `src/rdf/extend.rs`, `src/rdf/merge.rs`, `src/rdf/iter.rs:98-127` |
| `RdfAny.v` | RdfTripleStore over any name index and any graph, generic as in the code; the indexes and graphs of the crate as instances | `src/rdf.rs`, `src/rdf/*.rs`, `src/traits/bidir_index.rs` |
| `RdfSledLeaf.v` | the scanning methods of the RdfTripleStore over sled, leaf by leaf | `src/rdf/iter.rs`, `src/rdf/query.rs`, `src/rdf/remove.rs` |
| `SledOpen.v` | opening a SledTripleStore and a SledHashIndex in one sled::Db, and programs on it | `src/sled.rs:150-178`, `360-375` |

Specifications, independent of the model's helpers: `Spec.v` (a graph is two partial functions, and
what each operation does to it), `History.v` and `SledHistory.v` (sequences of calls, sessions and
crashes), `SledSched.v` (concurrent callers, one-at-a-time executions), `SledBeside.v` (a reader next to
writers), `SledMixSpec.v` (extend and merge next to other
callers), `SledCrowd.v` and `RdfSledCrowd.v` (crowds of processes, why a call may fail), `SledTornSpec.v` (orders that differ on some edges), `DebugSpec.v` (what is printed), `LawSpec.v` and `RdfCopySpec.v` (copies), `GenSpec.v`, `RdfSpec.v`
and `RdfSledSpec.v` (named graphs; with failures, crashes and several callers), `RdfAnySpec.v` (what an index and a graph must do). Statements, an example beside each, and `Print Assumptions`: `Prop_*.v`. Everything
else (`*Facts.v`, `Mem*`, `Sled*`, `Rdf*`) is lemmas.

Decisions that matter for reading the theorems:

* **Identifiers** are numbers below `2^64` / `2^128` with a boolean proof, so equality needs no axiom.
  Store theorems quantify over the kind. The two codecs are written separately, as in the code.
* **Generators** are sequences with a position. Freshness is a hypothesis about the finitely many
  identifiers the history at hand draws, never about the whole sequence, so it is satisfiable.
* **Property types** are arbitrary, with arbitrary boolean equality and merge functions.
* **The other store** in extend, merge, the set operations and try_eq is any pair of lists of results,
  i.e. any backend with errors at any position.
* **Panics** (`unwrap`, slice indexing, array conversions) are options in the model; theorems show
  they are never `None`.

**Not modelled:** the text of the lines of the `Debug` implementations (which line follows which, with
which values, is); `std::error::Error` formatting; lifetimes, borrowing and consumption (`self` by value) —
the type system's business; integer widths of `usize`; laziness of iterators (an iterator is
the list it yields, and the two iterators of `iter_nodes` run one after the other) except in `SledLazy.v` and
`RdfSledLazy.v`, where a store is copied onto itself, and `SledCopy.v`, `SledSetLive.v`,
`SledEqLive.v`, `SledTwo.v`, `SledEqTwo.v`, `RdfSledCopy.v`, `RdfSledTwo.v`, `RdfSledEqLive.v`,
`RdfSledEqTwo.v`, `SledEqSame.v`, `SledSelfLive.v` and `RdfSledSelfLive.v`, where others use the store that is read; performance.

## 3. Properties, how they are proved

| id | status | how |
|---|---|---|
| C01-C05 | proved | induction on the width of the codec; slice algebra; lexicographic = numeric order |
| C06-C15 | proved | the memory store refines the graph of `Spec.v`, over every history; loop invariants of the merge-joins |
| C16 | partial | refuted by a witness; the exact result of `difference` is characterised |
| C17-C21 | proved | per query kind from the key bounds and the agreement of the three orders |
| C22 | partial | refuted (`zip` ignores the longer tail); exact relation proved |
| C23-C25 | proved | induction over the item sequences; case analysis |
| C26, C27 | proved | the sled programs refine the same graphs, with failures; both backends compared through the graph |
| C28 | partial | refuted; exact sequence proved, equal to the memory store's up to the errors |
| C29 | proved | every prefix of every program has at most one effective step on the graph |
| C30 | partial | refuted for extend; merge and the state of a crashed extend per element proved |
| C31 | proved | simulation between interleavings and one-at-a-time executions |
| C32 | partial | two refutations by schedules; serialisability when nobody writes an edge that another one removes (or extends by, if extend is called) |
| C33 | partial | refuted for remove_edge; all other calls, and the exact outcome of remove_edge |
| C34 | proved | any contents of the five trees |
| C35 | partial | memory store proved; sled refuted, with the exact count of records left; with failures and crashes a bound: records outside the SPO order are covered by a list that grows by one per `insert_edge` and per `extend` that is cut short |
| C36 | partial | refuted (restarted counter); sessions whose record keys differ |
| C37 | proved | atomic fetch_add modulo 2^64, any interleaving |
| C38 | partial | refuted (fallback on overflow); true while there is room |
| C39 | partial | refuted (half inserted pair); exact effect of every call |
| C40 | proved | invariant of the transactions, under concurrency, failures and crashes |
| C41, C43 | proved | named graphs refined by the store |
| C42 | partial | refuted; exact condition of success and the result |
| C44 | partial | refuted; exact relation |
| C45 | proved | rely-guarantee: what each storage step of a writer may do to the five trees (`SledOwn.v`), and what a reader gets under such interference (`SledRely.v`) |
| C46 | partial | refuted by a schedule; vertices always, edges next to writers that take no record away |
| C47 | proved | equivalence of programs on sorted tables |
| C48 | partial | two refutations by schedules; C45 is what holds instead |
| C49 | proved | invariant over names and graph (`RdfSledSafe.v`), simulation by graphs over entities (`RdfSledConc.v`, `RdfSledTop.v`), causes of failures (`RdfSledBlame.v`) |
| C50 | partial | four refutations; for callers none of which removes an edge that another writes the graph is that of a shuffle of their single calls: the calls on the graph are singled out and run as callers of the graph alone (`RdfSledMixOk.v` to `RdfSledMixAll.v`), to which the result behind C62 applies (`RdfSledMixTop.v`); for inserting and merging callers every failure is one of the storage, of a serialiser, or a race over a new name that two callers give (rely-guarantee argument in `RdfSledRace.v`) |
| C51 | partial | refuted like C42; exact condition of success and result, under failures |
| C52 | proved | both refine the same history of named graphs |
| C53 | proved | invariant with the list of edges on which the orders may differ (`SledTorn.v`), induction on what the calls did (`SledTornTop.v`) |
| C54 | partial | refuted by a crashed extend; everything but its torn edge is removed |
| C55 | partial | the output is a page about the graph (`DebugFacts.v`); refuted for every 64 bit hash by the pigeonhole principle (`DebugHash.v`) |
| C56 | partial | as C55, over the invariant of the sled store and the fact that every record was written by the serialiser (`DebugSled.v`); after an extend that was cut short the page of the SPO order with up to one edge per such call missing or without hash in the others; refuted by three pairs of databases |
| C57 | proved | the copying call is a one-call history; C26 and C23 give the rest (`LawFacts.v`) |
| C58 | proved | each result shows the graph the operation specifies, then pointwise case analysis (`LawFacts.v`) |
| C59 | partial | refuted by a witness; vertices and inclusion of the edges from the exact rule of C16 |
| C60 | proved | the copying call is a one-call history; C41 and C49 give the rest (`RdfCopyFacts.v`) |
| C61 | proved | the trees of a store and of an index are separate parts of a map from names to trees (`SledOpenFacts.v`) |
| C62 | partial | one refutation by a schedule; simulation by single calls with a pending part of extend (`SledMixTree.v` to `SledMixMain.v`) |
| C63 | proved | rely-guarantee as for C45 with the index as part of the state (`RdfSledOwn.v`, `RdfSledReaders.v`); names only grow |
| C64 | partial | refuted by a schedule; under apartness an identifier in the graph without a name never gets one (`RdfSledExact.v`: invariant kept by every step of every call; `RdfSledExactTop.v`) |
| C65 | partial | refuted by a schedule; rely-guarantee for the lookups, the search and the naming of the result one after another (`RdfSledQuery.v`, `RdfSledQueryTop.v`) |
| C66 | partial | refuted by a schedule; C65 with the invariant of C64 |
| C67 | proved | the rely/guarantee of C45/C46 with the triple of every record key known to it, so that only records of rewritten edges go away |
| C68 | proved | C67 lifted through the name index; the final names, known from a first pass, say which identifiers a call means |
| C69-C70 | proved | invariant of a loop over leaves that may hold stale entries: the keys never change, the entries behind the current one are still those of the database (`SledLazyFacts.v`, `SledLazyTop.v`) |
| C71 | proved | laws of an index and of a graph (`RdfAnySpec.v`), the history theorem from the laws alone (`RdfAnyFacts.v`, `RdfAnyTop.v`), queries and failing readers (`RdfAnyQuery.v`), the laws of the four implementations (`RdfAnyLaws.v`), and that `Rdf.v` and `RdfSled.v` are two of the instances (`RdfAnyBridge.v`) |
| C72-C73 | proved | the loop over leaves of C69-C70 again, with the lookups of the names as steps that change nothing because every name is known (`RdfSledLazyFacts.v`, `RdfSledLazyTop.v`) |
| C74 | proved | the loop over leaves in the rely-guarantee framework of C45, for any state of the store that is written; then C12 and C13 (`SledCopyFacts.v`, `SledCopyTop.v`) |
| C75 | proved | an invariant that needs no freshness: every key has the length of its tree and every value was written by its serialiser; each step of each call keeps it and, from any database with it, goes on without decoding errors (`SledTame.v`) |
| C76 | proved | the invariant of C75 with an index that is one to one; each step of a caller relies on names only being added, by others only names that others give, and guarantees the same to them (`RdfSledTame.v`) |
| C77 | proved | the loops of C74, which also stop when `self` has no more items; a loop that stops early has read up to the last key of `self`; then C14 - C16 on what was read (`SledSetLiveFacts.v`, `SledSetLiveTop.v`) |
| C78 | proved | the loop of C74 for a database with names, the lookups as in C63; what is handed to a new store is then carried over by the laws of C41 (`RdfSledCopyFacts.v`, `RdfSledCopyTop.v`) |
| C79 | proved | the loop of C74, stopping at the first difference; equal lists of items say what was there, and a list read to the end says what was missing; shown to be the loop of C23 (`SledEqLiveFacts.v`, `SledEqLiveTop.v`) |
| C80 | proved | the reading of C78, stopping at the first difference: the items that were handed over decide the answer, whatever might have followed; the answer of C23 for them says the rest (`RdfSledEqLiveFacts.v`, `RdfSledEqLiveTop.v`) |
| C81 | proved | the steps of one program on two databases are those of a program on each of them; the one on the read database does with an item what a list of steps says and is the reader of C74, and the list is followed by a call from the source that C74 gives (`SledTwoFacts.v`, `SledTwoTop.v`) |
| C82 | proved | as C81, with the reader of C78; for the end of the written store, the callers of C50 (`RdfSledTwoTop.v`) |
| C83 | proved | the steps on each database are those of a reader there that is told when to stop; two lists of items that are equal, or differ first somewhere, say what each store had or lacked, each at a moment of its own; alone it is the try_eq of C23 (`SledEqTwoFacts.v`, `SledEqTwoTop.v`, `SledEqTwoAlone.v`) |
| C84 | proved | as C83, with the readers of C80 on both sides; the loop over the items of the second store is that of C80, started with what the first one handed over; what is left of either list when the loop ends cannot change the answer (`RdfSledEqTwoFacts.v`, `RdfSledEqTwoTop.v`) |
| C85 | proved | on two copies of the database, with every step of the others done on both, the program of C83 or C84 behaves as this one does on the one database, so what they say of the copies holds of it; lists of items that are all `Ok` equal themselves (`SledEqSameFacts.v`, `SledEqSameTop.v`) |
| C86 | proved | the call is the program of C81 with both databases the same; its turns are shared out between the reader of C74 and a call by what the reader has handed over, which is one more of the callers, so C74 applies to the reader; then the reader, which only reads, is left out of the schedule (`SledSelfLiveFacts.v`, `SledSelfLiveTop.v`) |
| C87 | proved | as C86, with the reader of C78: its turns and those of a call by what it has handed over are told apart, C78 applies to the reader beside that call, and the reader is left out of the schedule; an item whose names the call cannot look up draws no key, so one key more than were drawn must be new (`RdfSledSelfLiveTop.v`) |

## 4. Findings (behaviour of the code that differs from what its documentation or names suggest)

* **C16** `MemTripleStore::difference` keeps edges by a rule of its own: edges may survive whose end points
  are gone, and edges only in the left operand may be dropped.
* **C59** consequently `(a - b) + (a & b)` is not `a`: it may lack edges.
* **C22** `MemTripleStore ==` zips the two edge lists, so a store equals another one with extra edges.
* **C28** sled's `iter_edges_with_props` (and queries with properties) yields `Err(MissingPropertyData)` for
  an edge without both end points in the store; the memory backend leaves it out.
* **C30** sled's `extend` writes a record and the three orders in separate steps: a crash between them
  leaves orders that disagree.
* **C32** `remove_edge` repeats its removals outside of the transaction: an edge another handle inserts in
  between ends up in some orders only. `remove_node` collects edges before its transaction: an edge inserted
  in between survives.
* **C33** for the same reason `remove_edge` can report a failure although the edge is gone.
* **C35** sled's `insert_edge` over an existing edge leaves the old property record behind for ever.
* **C36** `U64IdGenerator::new` starts at 0 in every process, so a reopened database overwrites records.
* **C38** `UlidIdGenerator::fresh` falls back to `Ulid::new()` when the random part overflows; the result may be
  smaller than, or equal to, earlier ones.
* **C39** `MemHashIndex::set` failing with `DuplicateLeft` has already changed the left map.
* **C40** (proved) but: the two errors carry their payload in opposite orders in the two backends, and two
  `SledHashIndex`es with different types on one `Db` share their trees.
* **C42** `RdfTripleStore::run` fails with `DuplicateRight` as soon as a named entity occurs twice among the
  matching edges.
* **C44** RDF stores are compared in the order of the random identifiers behind the names, so equal named
  graphs can be unequal.
* **C46** sled's `merge_edge` stores the merged properties under a new identifier and deletes the old record. A
  reader that has read the index entry just before finds no record: the iterators report
  `MissingPropertyData`, `run` leaves the edge out, although the edge is there all the time.
* **C48** iterations read leaf by leaf, and the three parts of an item of `iter_edges_with_props` one after the
  other: the result may be the content of the store at no moment. The same holds of a copy made by `extend` or
  `merge`, which reads the vertices before the edges (`C74_snapshot_refuted`); nor is the result of a
  set operation with such a store right for one moment (`C77_snapshot_refuted`), and `try_eq` may answer
  `Ok(true)` though the stores were equal at no moment (`C79_moment_refuted`, `C80_moment_refuted`, `C83_moment_refuted`,
  `C84_moment_refuted`).  The copy of an RDF
  store has in addition a loop torn into an edge between two vertices, when the identifier of a vertex
  without a name is drawn for a name meanwhile (`C78_snapshot_refuted`, `C78_split_refuted`).
* **C79** when one store has no more items, `try_eq` answers `Ok(false)` without looking at the item of the other:
  a storage failure met there is not reported (`C79_errors_case`, `C80_errors_case`).
* **C85** `try_eq` of a store with itself may answer `Ok(false)` while another caller adds a vertex: the two iterators read
  the same leaf at different moments (`C85_busy_refuted`).
* **C86** `extend` of a store by a handle of the same database is not without effect while another caller removes: a vertex that
  was read before it is removed is put back (`C86_case`). Items others add meanwhile may be merged with themselves.
* **C50** `lookup_or_create_entity` looks a name up and sets it in two steps: two processes that use a new name
  at the same time race, and one of them reports `NameIndexStorageError(DuplicateRight)` and does nothing,
  though trying again would succeed. A name is set before its vertex is inserted, so a concurrent removal
  answers `Ok` and removes nothing, and a failed insert leaves the name behind. Next to a removal of an edge that another
  caller writes, the SPO order may list an edge that the POS order does not (`C50_edge_refuted`).
* **C54** `remove_node` looks for the edges that end at the node in the OSP order, which a crashed `extend` writes
  last: the torn edge survives in the SPO order, ends nowhere, and `iter_edges_with_props` reports
  `MissingPropertyData` for it from then on.
* **C55** the `Debug` output keys the properties of edges by a 64 bit hash of the edge: of two edges with the same
  hash one loses its properties, and which one depends on the record identifiers.
* **C56** the `Debug` implementation of the sled store deserialises node properties at the type `()`, as nothing
  determines it, so it prints `()` for all of them; it prints edge properties as raw bytes, and one line for
  all records that belong to no edge (C35). A storage failure becomes `fmt::Error`, on which `format!` and
  `println!` panic.
* **C62** `extend` removes the record it found in the SPO order after having written the other two: two handles
  that extend by the same edge at the same time may leave the POS or OSP order with a removed record, and
  `iter_edges` reports `MissingPropertyData` for it from then on, though no call failed.
* **C64** the readers of an RDF store look up each identifier of an item on its own: if a process draws for a name
  a Ulid that is in use without a name, one item may show the same vertex without and with the name.
* **C65** a query of an RDF store over sled next to `merge_edge` may leave the edge out silently, like the one of the
  graph (C46); next to writers that name entities it may also fail with `NameNotFound` or `DuplicateRight`, or not,
  depending on the moment.
* **C66** the names of a result are looked up one after another: under the same condition as for C64 it may hold
  an edge whose ends the store calls so at no moment.
