# rotonda-store: a machine-checked model in Rocq

Source: `/repo` (NLnetLabs/rotonda-store), read as text, never built here.
Prover: Coq 8.16.1, standard library only.  Model and proofs: `rocq/theories/`.

## What is modelled

One Gallina function per Rust function, on explicit machine values.  Every
definition carries the file and the lines it was read from.

| File | Rust code |
|------|-----------|
| `Word.v`, `Af.v` | u8/u16/u32/u128 arithmetic, `types/af.rs`, `types/prefix_id.rs` |
| `BitSpan.v` | `types/bit_span.rs` |
| `ChtMath.v` | `cht/mod.rs` sizes, `hash_node_id`, `hash_prefix_id` |
| `Cht.v` | chained hash table (`cht/*.rs`, `node_cht.rs`, walks in `tree_bitmap/mod.rs` and `prefix_cht/cht.rs`) |
| `Node.v` | `tree_bitmap_node.rs`, `atomic_bitmap.rs` (one node) |
| `Tree.v` | `tree_bitmap/mod.rs` |
| `Iter.v` | `tree_bitmap_iterators.rs`, `tree_bitmap_query.rs` |
| `MultiMap.v`, `PrefixCht.v` | `prefix_cht/cht.rs` |
| `Lsm.v` | `lsm_tree/mod.rs`, byte layouts of `types/prefix_record.rs` |
| `Rib.v` | `rib/starcast_af.rs`, `rib/starcast_af_query.rs` |
| `StarCast.v` | `rib/starcast.rs` |
| `RecordSet.v` | `types/prefix_record.rs` (RecordSet) |
| `Public.v` | `types/prefix_id.rs` conversions, `into_ipaddr` of `types/af.rs` |
| `Durable.v` | `flush_to_disk` with the outcomes of the I/O calls, the directories that `new_with_config` chooses |
| `Conc.v` | interleaving of any number of calls, each a small-step machine |
| `ConcOnce.v` | `cht/oncebox.rs`, every load and compare_exchange a step |
| `ConcMarks.v` | `update_withdrawn_muis_bmin`, `AtomicBitmap::merge_with` |
| `ConcTree.v` | `set_prefix_exists`, `store_node`, `retrieve_node_mut`, `eval_node_or_prefix_at`, `prefix_exists` as steps |
| `ConcStore.v` | `insert`, local marks, `contains` and record look-up of one family as steps |
| `ConcWhole.v` | both families side by side, with the global marks, and `get_value` that loads them |
| `ConcQuery.v` | `match_prefix`, the iterators with records, as steps beside the whole store |
| `WeakOnce.v` | `cht/oncebox.rs` on a weak memory (views; the C11 fragment it uses) |
| `WeakDrop.v` | the drop of a `OnceBoxSlice`, after any execution of `WeakOnce.v` |
| `WeakPtr.v` | the atomic pointers to the global marks and to path selections, on a weak memory |
| `WeakPtrHeap.v` | what the calls of `WeakPtr.v` free |
| `WeakTree.v` | the tree of `ConcTree.v` on a weak memory: each thread knows a part of it |
| `WeakTable.v` | the prefix table of `ConcTable.v` and the records under their locks, in the same way |
| `WeakScan.v` | the iterators of `ConcScan.v` run by one thread of `WeakTree.v`, on the part of the tree that it knows |
| `WeakStore.v` | `insert`, `contains`, marks and `get_records_for_prefix` on the tree of `WeakTree.v` and the table of `WeakTable.v` together; the lock of the records passes on what is known |
| `WeakMatch.v` | `match_prefix` and the iterators of `ConcQuery.v` run by a thread of `WeakStore.v` |
| `ConcLock.v` | `acquire_write_lock`, `acquire_read_guard`, with user code that panics or calls back |
| `ConcScan.v` | `retrieve_node`, the more-specifics and less-specifics iterators and the longest match as steps |

Specification, written without the model's internals: `Spec.v` (covering, bit
by bit), `HistSpec.v` (what a history of calls means), `PropSpec.v` (the other
notions the theorems use), `Ask.v` (all read-only methods as one type).

Proofs: `ChainProofs.v`, `TreeProofs.v`, `NodeProofs.v`, `IterProofs.v`,
`PrefixChtProofs.v`, `LsmProofs.v`, `Loop.v`, `Maps.v` (components);
`RibProofs.v`, `RibLsm.v`, `RibOk.v` (the invariant of one address family after
any history); `Queries*.v`, `Disk.v`, `MuiWalk.v`, `Facts*.v`, `Public*.v` (observable
facts); `Refute.v` (counterexamples); `Examples.v` (concrete histories).
Concurrency: `ConcTreeProofs.v`, `ConcTreeInv.v`, `ConcTreeStep.v`,
`ConcTreeEnd.v`, `ConcTreeSeen.v` (the tree), `ConcTable.v` (the prefix table),
`ConcStoreInv.v`, `ConcStoreStep.v`, `ConcInsert.v`, `ConcCalls.v` (the invariant
of the whole store, by rely-guarantee over `Conc.v`), `ConcSpec.v` (the notions
the theorems use), `ConcFacts.v`, `ConcMore.v` (observable facts), `ConcDemo.v`,
`ConcRefute.v`, `ConcRefute2.v` (schedules), `ConcCount.v`, `ConcNodes.v`, `ConcRetry.v`, `ConcLen.v` (counters),
`ConcSelect.v` (path selection), `ConcOnly.v`, `ConcSerial.v` (PersistOnly);
`ConcScanProofs.v`, `ConcScanSpec.v`, `ConcScanFacts.v`,
`ConcScanDemo.v` (one reader of many steps beside the calls of the store);
`SameSpec.v`, `SameProofs.v` (two stores that answer alike), `ConcRbm.v`
(muis in the tree), `ConcQuiet.v`, `ConcRefute3.v` (the store when all calls are done), `AloneSpec.v`,
`ConcAlone.v`, `ConcSolo.v`, `ConcStill.v` (a call that runs undisturbed), `WholeSpec.v`,
`ConcWholeSim.v`, `ConcWholeFacts.v`, `ConcWholeRead.v`, `ConcWholeDemo.v` (the whole store);
`QuerySpec.v`, `ConcQueryProofs.v`, `ConcQueryInv.v`, `ConcEachInv.v`, `ConcQueryFacts.v`,
`ConcQueryAlone.v`, `ConcQueryEnds.v`, `ConcQueryDemo.v` (queries beside the whole store);
`WeakRace.v`, `WeakDemo.v`, `WeakOnceInv.v`, `WeakOnceFacts.v`, `WeakOnceEnds.v`, `WeakDropFacts.v`,
`WeakPtrRace.v`, `WeakPtrHeapFacts.v`,
`WeakPtrDemo.v`, `WeakPtrInv.v`, `WeakPtrFacts.v`, `WeakPtrRun.v`, `WeakTreeView.v`, `WeakTreeStep.v`,
`WeakTreeInv.v`, `WeakTreeFacts.v`, `WeakTreeRun.v`, `WeakTableView.v`, `WeakTableInv.v`, `WeakTableFacts.v`, `WeakTableRun.v`,
`WeakScanFacts.v`, `WeakScanRun.v`, `WeakStoreInv.v`, `WeakStoreFacts.v`, `WeakStoreRun.v`,
`WeakMatchInv.v`, `WeakMatchFacts.v`, `WeakMatchEnds.v`, `WeakStoreEnds.v`, `WeakMatchReturns.v`, `WeakMatchRun.v`, `WeakMatchMarks.v`, `WeakCount.v`, `WeakCountFacts.v`, `WeakCountRun.v` (weak memory).

Theorems: `PropAddr.v`, `PropQuery.v`, `PropRecords.v`, `PropPath.v`,
`PropDisk.v`, `PropPublic.v`, `PropPublicConc.v`, `PropPublicWeak.v`, `PropDurable.v`, `PropConc.v`, `PropConc2.v`,
`PropScan.v`, `PropQuiet.v`, `PropAlone.v`, `PropWhole.v`,
`PropConcQuery.v`, `PropWeak.v`, `PropWeakPtr.v`, `PropWeakTree.v`, `PropWeakTable.v`, `PropWeakScan.v`, `PropWeakStore.v`, `PropWeakMatch.v`, `PropWeakCount.v`, `PropLock.v` hold nothing but the theorems named in
`MANIFEST.json`, each with `Print Assumptions` and an example.  A `_refuted`
theorem is the negation of the property; a `_partial` theorem is the part of it
that holds, or the exact behaviour of the code in its place.

### Conventions

* Addresses and machine words are `N`; widths are explicit.  An operation that
  panics in a debug build (u8 overflow, shift by at least the width, index out
  of bounds) is the value `Panic` of the result monad; a loop that runs out of
  model fuel is the value `OutOfFuel`.  Theorems exclude both.
* A chained hash table is a finite map from (root bucket, path of slot indices)
  to entries.  Lazily allocated slot arrays are their declared size: reading
  outside gives nothing, creating outside is `Panic`.
* `RoaringBitmap` is a finite set of muis, `HashMap` an association list whose
  order is not observable (results are stated up to membership and NoDup).
* The `lsm_tree` crate is a map from key bytes to value bytes; the last write
  to a key wins, prefix scans return the live keys with that prefix.  All
  sequence numbers are 0 in the code.  `Durable.v` adds that the crate keeps
  inserts in memory without a log until `flush_active_memtable`, that a segment
  counts once it is registered, and that any of the three calls of a flush may
  fail.  This is from the crate's documentation, not from its code.
* `inetnum`'s `Prefix::new` fails exactly if the length is larger than the family allows or a
  bit beyond it is set; an `IpAddr` is its octets.  zerocopy's conversions from bytes fail exactly
  if the number of bytes is not that of the type.
* Metadata is a list of bytes.  The user's tie-breaker info is the order it
  induces (`list N -> N`).  `routecore`'s `best_backup_generic` is taken to
  return the least and second least element.
* Concurrency: sequentially consistent interleavings of the individual atomic
  operations, any number of calls, calls may begin at any time.  A probe of a
  slot array is one step, which `ConcOnce.v` justifies.  A critical section of a
  lock is one step: no thread is ever seen waiting for a lock.  A call of the
  `lsm_tree` crate is one step.  The store machine of one
  family has no global marks; `ConcMarks.v` has them on their own, and `ConcWhole.v`
  puts two families and the marks together.  Scans and longest matches are readers
  beside it (`ConcScan.v`), of the prefixes only; `ConcQuery.v` puts them together with the look-ups of
  the records into `match_prefix` and the iterators.  `ss_log`, `ss_made`, `ss_counted` are ghost fields: no step
  reads them.  Epoch reclamation is not modelled; a compare_exchange
  does not fail spuriously.
* Weak memory: `OnceBoxSlice`/`OnceBox`, in `WeakOnce.v`, and the two atomic pointers (global marks, path
  selections), in `WeakPtr.v`, each on its own.  The
  memory is a view-based operational fragment of the C11 model that Rust refers to: loads may be
  stale, relaxed and acquire loads, compare_exchange with any ordering, SeqCst
  fences, happens-before edges made by the callers.  Not covered: loads that read from
  writes that are later in program order (load buffering), and that some hardware orders
  loads that depend on each other, which Rust does not promise.
  `WeakTree.v` has the prefix tree.  All that is read there only grows, so that what a
  thread knows is a tree below the one in memory; it may learn more of any place at any
  time and learns nothing by itself, so that no ordering of the code is used.  It allows
  more than the memory does (bits of one bitmap may be learnt in any order), and less in
  one respect: a node is seen initialised by who has the pointer to it, the race of C88.
  `WeakTable.v` has the prefix table in the same way; the records of an entry are read and
  changed under its lock, so that there the present value counts.  `WeakStore.v` puts the
  two together; there the lock of the records also passes on what is known.
  `WeakMatch.v` lets a thread run a query: steps in the tree read what it knows, records are
  looked up as in `WeakStore.v`, and the set of globally withdrawn muis that a load gives is
  any of a given family.
  `crossbeam_epoch::pin` runs a SeqCst fence, but only if the thread is not pinned yet;
  a caller may hold a guard all the time, as queries are given one, and `contains` pins
  nothing, so no fence is assumed.  All other
  concurrent models are sequentially consistent, also where the code has `Relaxed`.

### Not modelled

Display/Debug output, statistics formatting, `Config` parsing, `disk_space`,
errors of the `lsm_tree` crate other than those of a flush, the CLI and the
unused modules (`prefix_cht/iterators.rs`, `iterators_cp.rs`), memory
reclamation (epoch guards), allocation failure, the counter
wrap-around at 2^64.

## Trusted base

* Coq's kernel.  `coqchk -o`, run on all `Prop*.v` files and what they use, accepts them and
  lists no axioms.
* `Print Assumptions` under every theorem of the `Prop*.v` files: each prints
  "Closed under the global context", no axiom is used anywhere.
* The reading of the Rust code in the model's definitions, the stand-ins for
  external crates listed above.

## Plan per property

`refute` means: the stated property is false for the code as it is; the plan is
a `_refuted` theorem with a concrete witness plus the strongest positive
statement that does hold.

* **C01** Every prefix owns one existence bit. Characterise the shift code as div/mod slices of the address; show (node id, bit) -> prefix is a left inverse.
* **C02** Truncating an address keeps exactly its first len bits. testbit lemma for truncate_to_len from the rotate/xor/wrapping_sub formula by case analysis on len = 0, 0 < len < BITS, len = BITS.
* **C03** Chained-hash slot index is always inside its slot array. nodeset_size/prev_node_size over all (len, level) by finite computation lifted with forallb_forall; hash = slice of bits, bounded by 2^size.
* **C04** Collision chains never run out of levels. Invariant of the path map: the entry at a path is on the hash path of its id and all shorter paths are occupied by other ids; the hash path determines the id at the last level.
* **C05** contains(prefix) is exact. Refinement: contains = membership in the inserted set, by induction over histories.
* **C06** The default route behaves like any other prefix. refute (contains, match, less specifics, iteration); positive: get_records_for_prefix and counters do cover it.
* **C07** contains(prefix, mui) is exact. refute both directions with witnesses; positive partial: exact condition in terms of node chains.
* **C08** Exact match finds exactly the stored prefix. Corollary of the refinement and the longest-match characterisation.
* **C09** Longest match returns the longest stored covering prefix. LMPrefixIter characterised as a downward search over lengths.
* **C10** Longest match falls back to the longest visible route. refute; positive: exact behaviour (longest stored prefix, records filtered).
* **C11** Less specifics are complete, sound and ordered. Iterator characterised as a filter over decreasing lengths.
* **C12** More specifics are complete, sound and duplicate free. Induction on the tree below a node (height = remaining bits), mask table by exhaustive computation per span, stack invariant; total correctness with fuel.
* **C13** Iterating all prefixes yields each stored prefix once. prefixes_iter as more specifics of 0/0 plus record lookup.
* **C14** 'Including the prefix itself' holds for less/more specifics queries. refute (full length for more specifics, always for less specifics); positive: C11, C12.
* **C15** match_prefix attaches the right records to less and more specifics. Corollary of C11/C12 and record lookup refinement.
* **C16** more_specifics_from / less_specifics_from return each prefix with its own records. refute; positive: exact description of what is returned.
* **C17** Last write wins per (prefix, mui) and nothing else changes. Refinement of the prefix CHT + multi map to a map (prefix, mui) -> record.
* **C18** A record query returns every record of a prefix exactly once. Multi map lemma lifted through the refinement.
* **C19** Default queries show exactly the active records. Multi map lemma lifted through the refinement.
* **C20** A global withdrawal also hides the mui when asked for by name. refute for queries naming the mui (memory); positive: None-mui queries; PersistOnly queries.
* **C21** Global withdrawal is reversible and keeps local statuses. Abstract state keeps global set and local statuses apart; refinement gives the round trip.
* **C22** Local marks change one record only. Frame lemma on the refinement.
* **C23** Marking an unknown prefix fails and has no effect. refute; positive: first call does error and no record appears.
* **C24** IPv4 and IPv6 do not influence each other. Product state; step acts on one component.
* **C25** is_mui_active means active for both families. refute; exact: v4 or v6.
* **C26** insert reports prefix_new exactly for the first insert. Report characterised by the inserted set.
* **C27** insert reports mui_new and mui_count truthfully. refute; exact: mui_new always true etc.
* **C28** prefixes_count().total is the number of distinct inserted prefixes. Counter invariant over histories.
* **C29** routes_count().total is the number of distinct (prefix, mui) pairs. refute; exact: total = number of inserts.
* **C30** Best path is the minimal record after recalculation. Minimality of (order, mui) and storing of the result.
* **C31** The outdated flag tells whether records changed since the last selection. refute in both directions.
* **C32** Best path is never a withdrawn route, and insert with tie-break info selects one. refute; positive: with best record Active.
* **C33** Persistence keys identify records and prefix scans do not mix prefixes. Byte list codec lemmas.
* **C34** A persisted record decodes to the record that was written. Byte list codec round trip.
* **C35** PersistOnly: queries answer from disk like a map. Refinement of the key/value map to (prefix, mui) -> record.
* **C36** PersistOnly: local marks keep the metadata and take effect. refute; exact behaviour.
* **C37** WriteAhead: everything inserted is on disk. Invariant over histories relating persisted map and insert log.
* **C38** PersistHistory: superseded records are on disk, current ones in memory. Step characterisation of the persisted map.
* **C39** History records carry the right status. refute for active.
* **C40** The in-memory strategies answer alike. Simulation between strategies: equal in-memory components.
* **C41** PersistOnly answers like the in-memory strategies. refute with witness; positive for histories with Active records only.
* **C42** Iterating persisted prefixes returns every persisted record. refute with witness.
* **C43** Concurrent inserts are never lost. Interleaving machine for set_prefix_exists over a shared heap; inductive invariant.
* **C44** Concurrent inserts never create phantom prefixes. Monotonicity of bitmaps and invariant 'bit set implies started insert'.
* **C45** Concurrent creators agree on one entry per id. Interleaving machine for chain walks; invariant of C04 preserved by every step.
* **C46** Concurrent upserts of records are linearizable. Machine with critical sections; the record map equals the fold of the log.
* **C47** Concurrent global marks all take effect and return. refute: after a failed CAS the caller can never succeed, for all schedules; witness schedule.
* **C48** Prefix counters and prefix_new are exact under concurrency. refute with a schedule; positive: at least one reports new.
* **C49** A concurrent scan sees everything inserted before it started. refute with a schedule.
* **C50** Insert loops terminate under contention. Variant: each failed CAS means another bit was set; bitmaps have 15/31 bits.
* **C51** A once-cell has a single winner. Machine for one cell.
* **C52** RecordSet behaves as the concatenation of its two families. List lemmas on the model of RecordSet.
* **C53** No sequential operation panics or fails internally. All refinement lemmas are stated as `= Ok`.
* **C54** Store invariant of the tree: a pointer bit has its node and a node has its pointer bit. Tree invariant by induction over histories.
* **C55** Iterating the records of one mui. Corollary of C12 and record lookup.
* **C56** Slot-size formulas equal their documented naive versions. Finite computation over all (len, level) lifted to a for-all.
* **C57** Merging into a bitmap never loses bits and terminates. refute termination with a schedule; unreachability: new nodes are empty.
* **C58** PersistOnly: insert reports prefix_new truthfully. refute; exact: always true.
* **C59** include_history returns historical records. refute; exact: the option changes nothing.
* **C60** nodes_count. Invariant: the heap holds exactly the nodes on the paths of inserted prefixes.
* **C61** Statistics per length. From the counters of C28.
* **C62** flush_to_disk. By strategy; the disk itself is assumed to work.
* **C63** Activity per family. The withdrawn bitmap is the fold of the global marks.
* **C64** Results of calls. Characterisation of every call's result over histories.
* **C65** Disk contents. Decoding lemmas of C34 lifted to the invariant.
* **C66** Retry count. refute with a schedule (one lost compare_exchange, /128). Partial (ConcRetry.v): the accumulated count at depth s is at most 16 * 2^(s/4) - 16, since a stride loses at most 16 compare_exchanges and every turn doubles what was there.
* **C67** Fresh selection. refute with a schedule.
* **C68** Insert with selection. refute with a schedule; positive: the only error there is.
* **C69** Node counter under concurrency. refute with a schedule. The bounds on both sides (ConcNodes.v): every pointer bit that is set is owed to a successful compare_exchange, which the thread that made it counts next; a node has its pointer bit set, so no node goes uncounted, also those that retrieve_node_mut creates without counting.
* **C70** Memory and disk under WriteAhead. refute with a schedule; positive: without clashing keys.
* **C71** A query is a snapshot. refute with two schedules.
* **C72** Longest match beside inserts. Invariant of the reader, kept by its own steps and by the growth of the tree.
* **C73** Less specifics beside inserts. The same invariant.
* **C74** Flush. refute with an I/O error; positive: durable contents equal the tree when the memory table could be written.
* **C75** Crash. refute without a flush; positive: the stable contents are those of the tree at some moment after the last good flush (induction over histories), then C37.
* **C76** Restart. refute with two names; positive: the exact state of a new store.
* **C77** Route counter. Invariant: counter = returned new routes + those counted but not yet returned.
* **C78** PersistOnly, concurrent. refute with a mark as active; positive: an order of the calls grown with the execution, a withdrawal placed at its write.
* **C79** All calls done. The invariant of one family that the queries need (`rib_ans`) holds of the idle concurrent store for the history of the critical sections; two stores with it answer alike.
* **C80** One call undisturbed. The steps of each call, taken one after the other, are its sequential function (by induction on that function's recursion), and the invariant of the concurrent store makes that function succeed. This also checks the concurrent model against the sequential one.
* **C81** Both families and global marks. Each step of the whole store is some steps of each family's machine, a call elsewhere standing as a finished look-up; the histories of the families and the successful marks are merged into one as the execution goes on.
* **C82** One look-up. refute with a schedule; positive: its last step gives what the sequential function gives in that state with the set loaded before.
* **C83** Queries beside the calls. A query is a sequence of a search for the longest match, scans, and look-ups; each part begins at some moment of the execution, and the lemmas about it (C49, C72, C73, C82) apply to the rest.
* **C84**, **C85** What was there. refute with schedules; positive: from the completeness of the parts.
* **C86** Undisturbed query. The steps of the parts compose to the sequential functions.
* **C87** Queries end. Count: the steps of the scans are bounded, and a look-up has at most 259.
* **C88** Data races of OnceBox. refute with a schedule; exact: invariant that each message with a pointer carries the initialisation, and a schedule for each ordering left out.
* **C89** OnceBox on a weak memory. Invariant: each pointer is null or null and then one value; the threads at work own what they allocated; views only grow.
* **C90** Locks and user code that fails. refute with a schedule; exact: a lock that is poisoned, or waited for by its holder, stays so, and no call on that prefix changes its state.
* **C91** Data races of the two atomic pointers. Invariant: each message carries the initialisation of its object; a schedule for each ordering left out.
* **C92** The same pointers with any orderings. Invariant: each message is the outcome of the writes before it; a pointer that was replaced does not come back; views bound what happened before.
* **C93** OnceBox memory. Invariant: what is allocated is freed, in place, or owned by the call that made it; the length of each location's messages is in some thread's view.
* **C94** Memory of the marks and selections. Count allocations, frees, writes and calls at work; refute the bound with calls one after the other.
* **C95** The tree on a weak memory. Invariant: each thread's part is below the memory and closed under the chains of slot arrays, so it satisfies the invariant of the tables itself; the step on the part is below the step on the memory, as compare_exchange agrees on both.
* **C96** The prefix table and the records on a weak memory. Invariant: each thread's part of the table is below the memory and closed under the chains; the records of an entry are what the log of critical sections leaves; what a thread knows to have happened is a prefix of that log, and its cell is in the thread's part.
* **C97** Store buffering. Refuted by two executions of `WeakTable.v`; the sequentially consistent half follows from C46's found records.
* **C98** The more-specifics iterator on a weak memory. The invariant of C49 holds of the part of the tree that the thread knows, with `linked` (stored, and all pointers and nodes on the way known) in place of stored. Completeness is refuted by an execution in which nothing is under way.
* **C99** The longest match and the less specifics, in the same way.
* **C100** The tree and the table together. Invariant: an insert that happened before for a thread is one that it knows of in the tree, and one of the critical sections that it knows of in the table; C95 and C96 do the rest.
* **C101** Message passing through the records. Invariant: a thread that knows of n critical sections on a prefix knows all that was known in each of them, as the lock keeps it and passes it on.
* **C102** Refuted by two executions of `WeakStore.v`: the tree's bits pass nothing on.
* **C103** The query is the one of C84 to C86, its tree steps run on the thread's view. Invariant: what is gathered so far comes from look-ups of the thread, each of which C100 describes; C98 and C99 give the scans.
* **C104** Refuted by two executions of `WeakMatch.v` in which every thread is idle; proved for a thread that knows of all inserts.
* **C105** The iterators in the same way; refuted for `prefixes_iter` in general.
* **C106** Every step of a thread in the tree or the table can be taken after the thread has learnt the place it is about to change, and lowers the measures of C95 and C96; the bound of C103 and C105 serves as the measure of a query.
* **C107** The set of marks that a query may be given (`B` in C103 and C105) is here what a load of the pointer to the marks gives the thread in some state of the model of C91/C92 in which it knows of the withdrawal; C92 says that the mui is in it. The marks and the rest of the store are two memories that share threads, not one: what a thread knows of the one it need not know of the other, so nothing is assumed about their order.
* **C108** The counter of the routes in memory beside the prefix table of C96: a fetch_add takes the last value, a load any that is not older than one the thread knows. The fetch_adds of a thread, with the one it is about to make, are the first upserts of their routes among its critical sections; so no route is counted twice. Only this counter: those of the prefixes and of the nodes are not exact even on a sequentially consistent memory (C48, C69).
* **C109** Bits of the octets against bits of the word (`le_val_bit`); that every prefix shown is one that was inserted follows from C08, C09, C11 to C16, and for the iterator over the disk from what can be on disk (C37, C38, C65). Beside concurrent calls it follows from C83, on a weak memory from C103 and C105, as every call begun is one that the caller may make.
* **C110** refute; positive: the exact condition.
