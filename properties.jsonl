{"id": "C01", "title": "Every prefix owns one existence bit", "statement": "For IPv4 and IPv6, the position in the prefix tree that records whether a prefix exists (the node it lives in and the bit inside that node) is computed without overflow or panic for every valid prefix, and two different prefixes of length >= 1 never share a position; from the position the prefix can be read back exactly.", "quantifier": "all valid prefixes of both families (all lengths 0..=32 / 0..=128, all addresses with zero host bits)", "why_tests_cant": "2^33 / 2^129 prefixes cannot be enumerated; the code is shift arithmetic with special cases at the ends of the range", "anchors": ["src/tree_bitmap/mod.rs: node_id_for_prefix", "src/types/bit_span.rs: into_bit_pos, from_bit_pos_index", "src/types/af.rs: into_bit_span, add_bit_span", "src/tree_bitmap/tree_bitmap_node.rs: NodeId::add_bit_span"]}
{"id": "C02", "title": "Truncating an address keeps exactly its first len bits", "statement": "Truncating any address to any length 0..=BITS keeps the first len bits and zeroes every later bit, for both families, and truncation composes (truncating to m then to n <= m equals truncating to n).", "quantifier": "all addresses, all lengths, both families", "why_tests_cant": "bit trick (rotate/xor/wrapping_sub) over 2^128 inputs", "anchors": ["src/types/af.rs: truncate_to_len", "src/types/prefix_id.rs: truncate_to_len"]}
{"id": "C03", "title": "Chained-hash slot index is always inside its slot array", "statement": "For every prefix and every tree node, at every level of the collision chain that a lookup or an insert can reach, computing the slot index neither overflows u8 nor shifts out of range, and the index is smaller than the size of the slot array at that level, so no insert can panic with an index out of bounds.", "quantifier": "all ids of both families, all levels reachable by an insert in any store state", "why_tests_cant": "needs all (length, level, bits) combinations and an argument about which levels are reachable; the unit tests only sample len<128 and lvl<len/4 with address zero", "anchors": ["src/cht/mod.rs: nodeset_size, prev_node_size", "src/tree_bitmap/mod.rs: hash_node_id", "src/prefix_cht/cht.rs: hash_prefix_id", "src/cht/oncebox.rs: OnceBoxSlice::get_or_init"]}
{"id": "C04", "title": "Collision chains never run out of levels", "statement": "Whatever was inserted before, looking up or creating the entry of any id in the chained hash table stops after at most ceil(len/4) (at least one) probes, never reaches the 'out of levels' error, and finds the entry iff it was created before; two different ids never share an entry.", "quantifier": "all insertion histories, all ids", "why_tests_cant": "depends on all collision patterns between stored ids", "anchors": ["src/tree_bitmap/mod.rs: store_node, retrieve_node, retrieve_node_mut", "src/prefix_cht/cht.rs: non_recursive_retrieve_prefix_mut, non_recursive_retrieve_prefix"]}
{"id": "C05", "title": "contains(prefix) is exact", "statement": "After any sequence of operations, contains(p, None) for a prefix of length >= 1 is true iff an insert of p was performed in the sequence.", "quantifier": "all operation histories, all prefixes of length >= 1, both families, all persist strategies", "why_tests_cant": "history and prefix space are unbounded; false positives and negatives come from hash collisions and shared bitmaps", "anchors": ["src/rib/starcast_af.rs: insert, contains", "src/tree_bitmap/mod.rs: set_prefix_exists, prefix_exists"]}
{"id": "C06", "title": "The default route behaves like any other prefix", "statement": "After inserting 0.0.0.0/0 (or ::/0), contains(0/0) is true, exact and longest match queries find it, it shows up among the less specifics of other prefixes and in prefixes_iter.", "quantifier": "all histories that insert a default route", "why_tests_cant": "special-cased in five places; needs a statement over all query functions", "anchors": ["src/tree_bitmap/mod.rs: set_prefix_exists (299-306), prefix_exists", "src/tree_bitmap/tree_bitmap_iterators.rs: LMPrefixIter, LessSpecificPrefixIter, prefixes_iter"]}
{"id": "C07", "title": "contains(prefix, mui) is exact", "statement": "After any sequence of operations contains(p, Some(mui)) is true iff a record for (p, mui) was inserted.", "quantifier": "all histories, prefixes and muis", "why_tests_cant": "false negatives need a hash collision between two tree nodes; false positives need two prefixes in one subtree", "anchors": ["src/rib/starcast_af.rs: contains", "src/tree_bitmap/mod.rs: prefix_exists_for_mui, retrieve_node_for_mui", "src/tree_bitmap/node_cht.rs: update_rbm_index"]}
{"id": "C08", "title": "Exact match finds exactly the stored prefix", "statement": "match_prefix with ExactMatch returns the search prefix with all its visible records iff the search prefix (length >= 1) was inserted and has at least one visible record; otherwise it returns no prefix, no records and EmptyMatch.", "quantifier": "all histories, all search prefixes, all option combinations", "why_tests_cant": "unbounded histories", "anchors": ["src/rib/starcast_af_query.rs: match_prefix", "src/tree_bitmap/tree_bitmap_query.rs: match_prefix"]}
{"id": "C09", "title": "Longest match returns the longest stored covering prefix", "statement": "The prefix chosen by a longest match query is an inserted prefix (length >= 1) that covers the search prefix, and no inserted prefix that covers the search prefix is longer; if the query finds none, no inserted prefix of length >= 1 covers the search prefix.", "quantifier": "all histories, all search prefixes, both families", "why_tests_cant": "for-all over stored sets and search addresses", "anchors": ["src/tree_bitmap/tree_bitmap_iterators.rs: LMPrefixIter, longest_matching_prefix", "src/rib/starcast_af_query.rs: match_prefix"]}
{"id": "C10", "title": "Longest match falls back to the longest visible route", "statement": "If the records of the longest stored covering prefix are all hidden by the query options (withdrawn, other mui), a longest match query returns the longest covering prefix that does have visible records.", "quantifier": "all histories and query options", "why_tests_cant": "requires combining withdrawal state with covering structure", "anchors": ["src/rib/starcast_af_query.rs: match_prefix (214-229)"]}
{"id": "C11", "title": "Less specifics are complete, sound and ordered", "statement": "The less-specific prefixes reported for any search prefix are exactly the inserted prefixes of length >= 1 that cover it and are strictly shorter, each reported once, in strictly decreasing length.", "quantifier": "all histories, all search prefixes", "why_tests_cant": "for-all over stored sets", "anchors": ["src/tree_bitmap/tree_bitmap_iterators.rs: LessSpecificPrefixIter, less_specific_prefix_iter"]}
{"id": "C12", "title": "More specifics are complete, sound and duplicate free", "statement": "For every search prefix shorter than the full address length, iterating its more specifics terminates, does not panic, and yields exactly the inserted prefixes of length >= 1 that the search prefix covers (itself included), each exactly once.", "quantifier": "all histories, all search prefixes, both families", "why_tests_cant": "tree walk with masks and an explicit stack; all trees of any shape", "anchors": ["src/tree_bitmap/tree_bitmap_iterators.rs: MoreSpecificPrefixIter, more_specific_prefix_iter_from", "src/tree_bitmap/tree_bitmap_node.rs: ms_prefix_mask_arr, ptr_range, NodeMoreSpecificChildIter, NodeMoreSpecificsPrefixIter"]}
{"id": "C13", "title": "Iterating all prefixes yields each stored prefix once", "statement": "prefixes_iter terminates and yields every inserted prefix of length >= 1 of the family exactly once and nothing else, each with all its current records.", "quantifier": "all histories", "why_tests_cant": "all tree shapes", "anchors": ["src/tree_bitmap/tree_bitmap_iterators.rs: prefixes_iter", "src/rib/starcast_af.rs: prefixes_iter"]}
{"id": "C14", "title": "'Including the prefix itself' holds for less/more specifics queries", "statement": "As documented, less_specifics_iter_from, less_specifics_from, more_specifics_iter_from and more_specifics_from include the search prefix itself when it is stored and visible.", "quantifier": "all histories, all search prefixes of any length", "why_tests_cant": "off-by-one at every length and at the full address length", "anchors": ["src/rib/starcast.rs: less_specifics_iter_from, more_specifics_iter_from docs", "src/tree_bitmap/tree_bitmap_iterators.rs: LessSpecificPrefixIter, more_specific_prefix_iter_from"]}
{"id": "C15", "title": "match_prefix attaches the right records to less and more specifics", "statement": "When requested, the less_specifics and more_specifics of a match_prefix result list exactly the inserted strict covering (resp. covered) prefixes that have visible records, each with its own visible records.", "quantifier": "all histories, search prefixes and options", "why_tests_cant": "for-all over stored sets and statuses", "anchors": ["src/rib/starcast_af_query.rs: match_prefix (231-282)"]}
{"id": "C16", "title": "more_specifics_from / less_specifics_from return each prefix with its own records", "statement": "more_specifics_from(p) and less_specifics_from(p) return every stored more (less) specific prefix with that prefix's own visible records, and report p in the result iff p is stored.", "quantifier": "all histories and search prefixes", "why_tests_cant": "needs the relation between each listed prefix and the record map", "anchors": ["src/rib/starcast_af_query.rs: more_specifics_from, less_specifics_from"]}
{"id": "C17", "title": "Last write wins per (prefix, mui) and nothing else changes", "statement": "In the in-memory strategies, after any history, the record reported for (prefix, mui) with include_withdrawn carries the metadata of the last insert for that pair and the time and status set by the last insert or local mark for it; pairs never inserted have no record. Operations on one pair never change the record of another pair.", "quantifier": "all histories, all (prefix, mui) pairs including the default route", "why_tests_cant": "unbounded histories over colliding prefixes", "anchors": ["src/prefix_cht/cht.rs: upsert_prefix, MultiMap::upsert_record, get_records_for_prefix"]}
{"id": "C18", "title": "A record query returns every record of a prefix exactly once", "statement": "get_records_for_prefix(p, None, true) lists each mui that has a record for p exactly once, with status Withdrawn if the mui is globally withdrawn and its own status otherwise; it is None iff there is no record.", "quantifier": "all histories and prefixes, in-memory strategies", "why_tests_cant": "unbounded record sets", "anchors": ["src/prefix_cht/cht.rs: get_filtered_records, as_records_with_rewritten_status"]}
{"id": "C19", "title": "Default queries show exactly the active records", "statement": "get_records_for_prefix(p, None, false) lists exactly the records of p whose local status is Active and whose mui is not globally withdrawn; it is None iff there is none.", "quantifier": "all histories and prefixes, in-memory strategies", "why_tests_cant": "combination of two independent status sources over all histories", "anchors": ["src/prefix_cht/cht.rs: as_active_records_not_in_bmin"]}
{"id": "C20", "title": "A global withdrawal also hides the mui when asked for by name", "statement": "After mark_mui_as_withdrawn(mui) and before mark_mui_as_active(mui), no query with include_withdrawn = false returns a record of that mui, whether or not the query names the mui.", "quantifier": "all histories, all queries, all strategies", "why_tests_cant": "needs the cross product of query kinds and status histories", "anchors": ["src/prefix_cht/cht.rs: get_filtered_record_for_mui, get_record_for_mui", "src/rib/starcast.rs: mark_mui_as_withdrawn docs"]}
{"id": "C21", "title": "Global withdrawal is reversible and keeps local statuses", "statement": "Marking a mui globally withdrawn and then active again restores the visibility and status of every record to what the local operations performed before and in between dictate; global marks of one mui do not affect records of other muis.", "quantifier": "all histories interleaving global and local marks", "why_tests_cant": "unbounded interleavings", "anchors": ["src/tree_bitmap/mod.rs: mark_mui_as_active, mark_mui_as_withdrawn", "src/prefix_cht/cht.rs: mark_as_withdrawn_for_mui, mark_as_active_for_mui"]}
{"id": "C22", "title": "Local marks change one record only", "statement": "In the in-memory strategies mark_mui_as_withdrawn_for_prefix / mark_mui_as_active_for_prefix on a stored (prefix, mui) set its status and time and keep its metadata; every other record, and the set of stored prefixes, is unchanged.", "quantifier": "all histories, prefixes and muis", "why_tests_cant": "for-all frame property", "anchors": ["src/rib/starcast_af.rs: mark_mui_as_withdrawn_for_prefix, mark_mui_as_active_for_prefix"]}
{"id": "C23", "title": "Marking an unknown prefix fails and has no effect", "statement": "mark_mui_as_withdrawn_for_prefix and mark_mui_as_active_for_prefix on a prefix that was never inserted return an error each time and leave every later answer of the store unchanged.", "quantifier": "all histories that mark a prefix before any insert of it", "why_tests_cant": "the effect only shows in later calls", "anchors": ["src/rib/starcast_af.rs: mark_mui_as_withdrawn_for_prefix (229-239)", "src/prefix_cht/cht.rs: non_recursive_retrieve_prefix_mut"]}
{"id": "C24", "title": "IPv4 and IPv6 do not influence each other", "statement": "Every operation on a prefix of one family leaves the answer of every query about the other family unchanged.", "quantifier": "all histories mixing families, all queries", "why_tests_cant": "frame property over all histories", "anchors": ["src/rib/starcast.rs: StarCastRib (v4, v6)"]}
{"id": "C25", "title": "is_mui_active means active for both families", "statement": "is_mui_active(mui) is true iff the mui is not globally withdrawn for IPv4 and not globally withdrawn for IPv6.", "quantifier": "all histories of global marks", "why_tests_cant": "all combinations of per-family marks", "anchors": ["src/rib/starcast.rs: is_mui_active (632-637)"]}
{"id": "C26", "title": "insert reports prefix_new exactly for the first insert", "statement": "In a sequential history with an in-memory strategy the UpsertReport of an insert has prefix_new = true iff no earlier insert of that prefix exists (default route included).", "quantifier": "all sequential histories without marks on unknown prefixes and with them", "why_tests_cant": "unbounded histories", "anchors": ["src/rib/starcast_af.rs: insert (132-142)", "src/tree_bitmap/mod.rs: set_prefix_exists"]}
{"id": "C27", "title": "insert reports mui_new and mui_count truthfully", "statement": "The UpsertReport has mui_new = false when a record for (prefix, mui) is overwritten and true otherwise, and mui_count is the number of records for the prefix after the insert.", "quantifier": "all histories", "why_tests_cant": "unbounded histories", "anchors": ["src/prefix_cht/cht.rs: upsert_prefix (597-682)", "src/types/stats.rs: UpsertReport"]}
{"id": "C28", "title": "prefixes_count().total is the number of distinct inserted prefixes", "statement": "In any sequential history the total prefix counter of a family equals the number of different prefixes inserted, and the per-length counter equals the number of different inserted prefixes with that length.", "quantifier": "all sequential histories, all strategies", "why_tests_cant": "unbounded histories", "anchors": ["src/rib/starcast_af.rs: insert, prefixes_count, prefixes_count_for_len", "src/types/stats.rs: Counters"]}
{"id": "C29", "title": "routes_count().total is the number of distinct (prefix, mui) pairs", "statement": "In any sequential history the total route counter equals the number of different (prefix, mui) pairs inserted, and the in-memory counters report the number of prefixes and routes held in memory.", "quantifier": "all sequential histories", "why_tests_cant": "unbounded histories", "anchors": ["src/rib/starcast_af.rs: routes_count, prefixes_count_for_len", "src/prefix_cht/cht.rs: routes_count"]}
{"id": "C30", "title": "Best path is the minimal record after recalculation", "statement": "After calculate_and_store_best_and_backup_path on a stored prefix, the returned (best, backup) muis are the least and second least records of the prefix in the user's order (ties broken by mui), and, if the best record is locally Active, best_path returns that record.", "quantifier": "all record sets, all total orders, all histories", "why_tests_cant": "quantifies over all orders and record sets", "anchors": ["src/prefix_cht/cht.rs: best_backup, calculate_and_store_best_backup, set_path_selections", "src/rib/starcast_af_query.rs: best_path, calculate_and_store_best_and_backup_path"]}
{"id": "C31", "title": "The outdated flag tells whether records changed since the last selection", "statement": "is_ps_outdated(p) is true iff the records of p changed (insert or local mark) since the last completed best path calculation for p.", "quantifier": "all histories of inserts, marks and recalculations", "why_tests_cant": "temporal property over histories", "anchors": ["src/prefix_cht/cht.rs: set_ps_outdated, set_path_selections, is_ps_outdated"]}
{"id": "C32", "title": "Best path is never a withdrawn route, and insert with tie-break info selects one", "statement": "A best path calculation ignores withdrawn records, so that best_path returns an active record whenever the prefix has one; an insert that passes tie-breaker info leaves a best path selected.", "quantifier": "all histories", "why_tests_cant": "temporal property over histories", "anchors": ["src/prefix_cht/cht.rs: best_backup, upsert_prefix (604-632)", "src/rib/starcast_af_query.rs: best_path"]}
{"id": "C33", "title": "Persistence keys identify records and prefix scans do not mix prefixes", "statement": "The byte keys of two records are equal iff prefix, mui (and for history keys also time and status) are equal; a key starts with the scan bytes of (prefix) or (prefix, mui) iff it belongs to that prefix (and mui). Key widths are the ones the readers assume (18 / 30 bytes).", "quantifier": "all prefixes, muis, times and statuses, both families", "why_tests_cant": "2^200 keys", "anchors": ["src/lsm_tree/mod.rs: ShortKey, LongKey, records_for_prefix", "src/types/prefix_id.rs: PrefixId layout"]}
{"id": "C34", "title": "A persisted record decodes to the record that was written", "statement": "Encoding any record under a short or a long key and decoding the concatenated key and value gives back the same prefix, mui, time, status and metadata bytes.", "quantifier": "all records with any metadata bytes, both families", "why_tests_cant": "infinite input space", "anchors": ["src/types/prefix_record.rs: ZeroCopyRecord, ValueHeader", "src/lsm_tree/mod.rs: persist_record_w_long_key, persist_record_w_short_key"]}
{"id": "C35", "title": "PersistOnly: queries answer from disk like a map", "statement": "With strategy PersistOnly, after any history of inserts and global marks, a record query returns for every (prefix, mui) exactly the last inserted record, hides records that are withdrawn locally or globally unless include_withdrawn is set, and never returns a decoding error.", "quantifier": "all histories of inserts and global marks, all queries", "why_tests_cant": "unbounded histories", "anchors": ["src/rib/starcast_af.rs: upsert_prefix (189-204)", "src/lsm_tree/mod.rs: records_for_prefix, persist_record_w_short_key", "src/rib/starcast_af_query.rs: get_value"]}
{"id": "C36", "title": "PersistOnly: local marks keep the metadata and take effect", "statement": "With strategy PersistOnly mark_mui_as_withdrawn_for_prefix sets status and time of the stored record and keeps its metadata, and mark_mui_as_active_for_prefix sets it back to Active.", "quantifier": "all histories, all records", "why_tests_cant": "data loss only shows for records with metadata after a mark", "anchors": ["src/lsm_tree/mod.rs: rewrite_header_for_record (480-499), most_recent_record_for_prefix_mui (344-375)", "src/rib/starcast_af.rs: 240-267, 317-332"]}
{"id": "C37", "title": "WriteAhead: everything inserted is on disk", "statement": "With strategy WriteAhead every inserted record can be found in the persisted data under its (prefix, mui, time, status) with the metadata of the last insert with that key, persisted data holds nothing else, and it is written before the in-memory state changes.", "quantifier": "all histories; for the order of the two writes, all interleavings and every moment at which the process may stop", "why_tests_cant": "unbounded histories", "anchors": ["src/rib/starcast_af.rs: upsert_prefix (155-170)", "src/lsm_tree/mod.rs: persist_record_w_long_key"]}
{"id": "C38", "title": "PersistHistory: superseded records are on disk, current ones in memory", "statement": "With strategy PersistHistory, an insert that overwrites the record of (prefix, mui) persists the overwritten record with its own time, status and metadata, and an insert that does not overwrite persists nothing; earlier history is kept unless it has the same (prefix, mui, time, status).", "quantifier": "all histories; for the overwritten record, also all interleavings of concurrent calls", "why_tests_cant": "unbounded histories", "anchors": ["src/rib/starcast_af.rs: upsert_prefix (171-184)"]}
{"id": "C39", "title": "History records carry the right status", "statement": "With strategy PersistHistory a mark_mui_as_withdrawn_for_prefix appends a Withdrawn history record and a mark_mui_as_active_for_prefix appends an Active one.", "quantifier": "all histories", "why_tests_cant": "temporal property", "anchors": ["src/rib/starcast_af.rs: 268-293, 333-360", "src/lsm_tree/mod.rs: insert_empty_record"]}
{"id": "C40", "title": "The in-memory strategies answer alike", "statement": "For the same history of operations, MemoryOnly, WriteAhead and PersistHistory give the same answer to every query and the same success result and report for every insert.", "quantifier": "all histories, all queries", "why_tests_cant": "relational property over histories", "anchors": ["src/rib/starcast_af.rs: upsert_prefix", "src/rib/starcast_af_query.rs"]}
{"id": "C41", "title": "PersistOnly answers like the in-memory strategies", "statement": "For the same history of operations, PersistOnly returns the same records as MemoryOnly for every query.", "quantifier": "all histories, all queries", "why_tests_cant": "relational property over histories", "anchors": ["src/lsm_tree/mod.rs: records_for_prefix", "src/prefix_cht/cht.rs: get_filtered_records"]}
{"id": "C42", "title": "Iterating persisted prefixes returns every persisted record", "statement": "persist_prefixes_iter yields each persisted prefix once, with all its persisted records decoded.", "quantifier": "all persisted contents", "why_tests_cant": "depends on key/value layouts and all contents", "anchors": ["src/lsm_tree/mod.rs: PersistedPrefixIter::next, Key::header", "src/rib/starcast_af.rs: persist_prefixes_iter"]}
{"id": "C43", "title": "Concurrent inserts are never lost", "statement": "For any number of threads inserting any prefixes under any interleaving of their atomic steps: once an insert of p has returned, contains(p) is true in every later state; no insert panics or reports that it could not create a node.", "quantifier": "all thread counts, all programs of inserts, all interleavings (sequentially consistent)", "why_tests_cant": "schedules cannot be enumerated by tests", "anchors": ["src/tree_bitmap/mod.rs: set_prefix_exists, store_node, retrieve_node_mut", "src/tree_bitmap/tree_bitmap_node.rs: eval_node_or_prefix_at", "src/cht/oncebox.rs: get_or_init"]}
{"id": "C44", "title": "Concurrent inserts never create phantom prefixes", "statement": "Under any interleaving contains(p) is true only if some thread has begun an insert of p; bits set by one thread are never erased by another, so a prefix seen once is seen forever.", "quantifier": "all interleavings", "why_tests_cant": "schedules", "anchors": ["src/tree_bitmap/tree_bitmap_node.rs: eval_node_or_prefix_at (compare_exchange loops)"]}
{"id": "C45", "title": "Concurrent creators agree on one entry per id", "statement": "Under any interleaving of threads that look up or create chained-hash entries, all threads that ask for the same id get the same entry, entries never move or disappear, and no two entries have the same id.", "quantifier": "all interleavings, all ids including colliding ones", "why_tests_cant": "schedules and collisions", "anchors": ["src/cht/oncebox.rs: OnceBox::get_or_init", "src/prefix_cht/cht.rs: non_recursive_retrieve_prefix_mut", "src/tree_bitmap/mod.rs: retrieve_node_mut"]}
{"id": "C46", "title": "Concurrent upserts of records are linearizable", "statement": "Under any interleaving of record upserts and local marks by any number of threads, the record map of every prefix equals the result of executing the completed operations one after the other in the order of their critical sections; no completed upsert is lost.", "quantifier": "all interleavings", "why_tests_cant": "schedules", "anchors": ["src/prefix_cht/cht.rs: upsert_prefix, MultiMap"]}
{"id": "C47", "title": "Concurrent global marks all take effect and return", "statement": "Under any interleaving of mark_mui_as_withdrawn / mark_mui_as_active calls, every call returns under fair scheduling and the final set of withdrawn muis is that of some sequential order of the calls.", "quantifier": "all interleavings", "why_tests_cant": "needs a particular schedule between load and compare_exchange", "anchors": ["src/tree_bitmap/mod.rs: update_withdrawn_muis_bmin (557-579)"]}
{"id": "C48", "title": "Prefix counters and prefix_new are exact under concurrency", "statement": "Under any interleaving of inserts, for each prefix exactly one insert reports prefix_new = true and the total prefix counter ends as the number of distinct prefixes.", "quantifier": "all interleavings", "why_tests_cant": "needs a particular schedule", "anchors": ["src/tree_bitmap/tree_bitmap_node.rs: eval_node_or_prefix_at (205-239)", "src/rib/starcast_af.rs: insert"]}
{"id": "C49", "title": "A concurrent scan sees everything inserted before it started", "statement": "An iteration over more specifics (or over all prefixes) that runs concurrently with inserts yields every covered prefix whose insert had returned before the iteration started.", "quantifier": "all interleavings of one scan with inserts", "why_tests_cant": "needs a particular schedule", "anchors": ["src/tree_bitmap/tree_bitmap_iterators.rs: MoreSpecificPrefixIter::next (166-169)", "src/tree_bitmap/tree_bitmap_node.rs: eval_node_or_prefix_at"]}
{"id": "C50", "title": "Insert loops terminate under contention", "statement": "Each compare-exchange retry loop of an insert fails at most as often as there are bits in the bitmap, so an insert finishes after a bounded number of its own steps whatever other threads do; so does every local mark, contains and record look-up.", "quantifier": "all interleavings", "why_tests_cant": "liveness over all schedules", "anchors": ["src/tree_bitmap/tree_bitmap_node.rs: eval_node_or_prefix_at loops"]}
{"id": "C51", "title": "A once-cell has a single winner", "statement": "Whatever the interleaving of get and get_or_init calls on one cell, exactly one initialiser's value is ever installed, every call that returns a value returns that one, and exactly the installing call is told so.", "quantifier": "all interleavings, any number of threads", "why_tests_cant": "schedules", "anchors": ["src/cht/oncebox.rs: OnceBox"]}
{"id": "C52", "title": "RecordSet behaves as the concatenation of its two families", "statement": "For every RecordSet built from any sequence of prefix records, iterating gives the v4 records in insertion order followed by the v6 records, len is the number of items iterated, indexing i < len gives the i-th item iterated, is_empty iff len = 0, reverse reverses each family.", "quantifier": "all sequences of prefix records", "why_tests_cant": "unbounded sequences", "anchors": ["src/types/prefix_record.rs: RecordSet, RecordSetIter"]}
{"id": "C53", "title": "No sequential operation panics or fails internally", "statement": "In any sequential history over valid prefixes no operation panics, no chain walk or tree walk runs forever, and insert always returns a report (in every strategy with a persist tree present or not needed).", "quantifier": "all histories, all operations, both families", "why_tests_cant": "unbounded histories", "anchors": ["src/rib/starcast_af.rs", "src/tree_bitmap/mod.rs", "src/prefix_cht/cht.rs"]}
{"id": "C54", "title": "Store invariant of the tree: a pointer bit has its node and a node has its pointer bit", "statement": "In every state reached by a sequential history, every tree node other than the root can be reached from the root by set pointer bits and every set pointer bit leads to an existing node.", "quantifier": "all histories", "why_tests_cant": "structural invariant over all reachable states", "anchors": ["src/tree_bitmap/mod.rs: set_prefix_exists", "src/tree_bitmap/tree_bitmap_node.rs: eval_node_or_prefix_at"]}
{"id": "C55", "title": "Iterating the records of one mui", "statement": "iter_records_for_mui_v4/v6(mui, include_withdrawn) yields exactly the prefixes (length >= 1) that have a record of that mui - with include_withdrawn = false only if that record is Active and the mui is not globally withdrawn - each once, with just that record.", "quantifier": "all histories, muis", "why_tests_cant": "unbounded histories", "anchors": ["src/rib/starcast.rs: iter_records_for_mui_v4, iter_records_for_mui_v6", "src/rib/starcast_af_query.rs: more_specifics_iter_from"]}
{"id": "C56", "title": "Slot-size formulas equal their documented naive versions", "statement": "The optimised size and offset formulas of the chained hash table equal the documented naive ones for every prefix length 0..=128 and every level up to one past the last.", "quantifier": "all lengths and levels of both families", "why_tests_cant": "the unit test covers only lvl < len/4, so never the last level, nor len = 128", "anchors": ["src/cht/mod.rs: nodeset_size, prev_node_size"]}
{"id": "C57", "title": "Merging into a bitmap never loses bits and terminates", "statement": "merge_with, if it returns, leaves the or of its argument and everything set by others; it always returns under contention; and the inserts of this version never call it with a non-empty bitmap.", "quantifier": "all interleavings; all histories", "why_tests_cant": "schedules", "anchors": ["src/tree_bitmap/atomic_bitmap.rs: merge_with (34-52)", "src/tree_bitmap/mod.rs: store_node (650-703)"]}
{"id": "C58", "title": "PersistOnly: insert reports prefix_new truthfully", "statement": "With strategy PersistOnly the report of an insert has prefix_new = true iff the prefix was not inserted before.", "quantifier": "all histories", "why_tests_cant": "unbounded histories", "anchors": ["src/rib/starcast_af.rs: upsert_prefix (189-204)"]}
{"id": "C59", "title": "include_history returns historical records", "statement": "A match_prefix query with include_history set returns, besides the current record, the persisted history of the matched prefix.", "quantifier": "all strategies, histories, prefixes and options", "why_tests_cant": "the option is silently accepted; only a proof shows that no query depends on it", "anchors": ["src/types/match_options.rs: MatchOptions::include_history", "src/rib/starcast_af_query.rs: match_prefix"]}
{"id": "C60", "title": "nodes_count is the number of nodes that the inserted prefixes need", "statement": "In any sequential history the node counter of a family is one for the root plus the number of different (address, multiple of four) pairs that lie strictly above an inserted prefix.", "quantifier": "all histories", "why_tests_cant": "the counter is kept by hand in two places; equality with a set size needs an invariant", "anchors": ["src/tree_bitmap/mod.rs: nodes_count", "src/tree_bitmap/mod.rs: set_prefix_exists"]}
{"id": "C61", "title": "Prefix statistics list every length in use once", "statement": "The per-length statistics of a family contain (len, n) iff n > 0 different prefixes of length len were inserted, and contain no length twice.", "quantifier": "all histories, all lengths", "why_tests_cant": "depends on the whole history of inserts", "anchors": ["src/rib/starcast.rs: stats", "src/types/stats.rs"]}
{"id": "C62", "title": "flush_to_disk fails exactly without a persist strategy", "statement": "After any history flush_to_disk returns an error with MemoryOnly and succeeds with every other strategy (given that the disk works).", "quantifier": "all strategies and histories", "why_tests_cant": "quantifies over all histories", "anchors": ["src/rib/starcast.rs: flush_to_disk"]}
{"id": "C63", "title": "Activity of a mui per family", "statement": "is_mui_active_v4/v6 and mui_is_withdrawn_v4/v6 tell whether the last global mark of the mui for the family was a withdrawal.", "quantifier": "all histories, all muis, both families", "why_tests_cant": "depends on the whole history of marks", "anchors": ["src/rib/starcast.rs: is_mui_active_v4, mui_is_withdrawn_v4", "src/tree_bitmap/mod.rs: update_withdrawn_muis_bmin"]}
{"id": "C64", "title": "Every call returns what the history of calls dictates", "statement": "The value or error returned by every insert, local mark, global mark and best path calculation is a function of the sequence of earlier calls: no hidden state influences it.", "quantifier": "all strategies, histories and calls", "why_tests_cant": "error cases depend on which prefixes were touched before, in any order", "anchors": ["src/rib/starcast.rs", "src/rib/starcast_af.rs"]}
{"id": "C65", "title": "The data on disk always decode", "statement": "After any history each persisted key/value pair decodes to a record of its own family, no record is stored twice, MemoryOnly persists nothing, and PersistOnly holds exactly one record per inserted (prefix, mui).", "quantifier": "all strategies and histories", "why_tests_cant": "a single undecodable pair makes iteration fail later", "anchors": ["src/lsm_tree/mod.rs: persist_record_w_long_key, persist_record_w_short_key, rewrite_header_for_record"]}
{"id": "C66", "title": "The reported number of retries is the number of retries", "statement": "The cas_count in the report of an insert is at most the number of steps the insert made, whatever other threads do.", "quantifier": "all interleavings, all prefixes", "why_tests_cant": "needs contention in an early stride of a long prefix", "anchors": ["src/tree_bitmap/mod.rs: set_prefix_exists (311, 362-367, 416-420)"]}
{"id": "C67", "title": "A path selection that is not outdated is that of the present records", "statement": "When all calls have returned and only inserts with one tie-breaker were made, a best path that is not flagged outdated is the best of the records the prefix has.", "quantifier": "all interleavings of inserts", "why_tests_cant": "needs one insert to flag, another to select and clear the flag, before the first stores its record", "anchors": ["src/prefix_cht/cht.rs: upsert_prefix (645-672), set_ps_outdated, calculate_and_store_best_backup"]}
{"id": "C68", "title": "An insert that also selects the best path does not fail because of other threads", "statement": "An insert returns a report and its prefix is counted, whatever the other threads do.", "quantifier": "all interleavings", "why_tests_cant": "needs a schedule between load and compare_exchange of the selection", "anchors": ["src/prefix_cht/cht.rs: 435-460, 666-671", "src/rib/starcast_af.rs: insert (123-147)"]}
{"id": "C69", "title": "The node counter is the number of nodes under concurrency", "statement": "When all calls have returned, nodes_count is the number of nodes in the tree.", "quantifier": "all interleavings of inserts", "why_tests_cant": "needs two inserts that both find a pointer bit unset", "anchors": ["src/tree_bitmap/mod.rs: store_node (598)", "src/tree_bitmap/tree_bitmap_node.rs: eval_node_or_prefix_at (163-196)"]}
{"id": "C70", "title": "WriteAhead: memory and disk agree under concurrency", "statement": "With strategy WriteAhead, when all calls have returned, the record in memory of a (prefix, mui) that was last inserted is on disk with the same metadata.", "quantifier": "all interleavings of inserts", "why_tests_cant": "needs two inserts of the same key whose write to disk and upsert happen in opposite orders", "anchors": ["src/rib/starcast_af.rs: upsert_prefix (155-170)"]}
{"id": "C71", "title": "A concurrent query shows the store as it was at one moment", "statement": "If the insert of prefix a returned before the insert of prefix b began, a query that runs beside them and takes b into account takes a into account as well.", "quantifier": "all interleavings of one scan or longest match with inserts", "why_tests_cant": "needs two inserts between two memory accesses of a query", "anchors": ["src/tree_bitmap/tree_bitmap_iterators.rs: MoreSpecificPrefixIter::next (66-173), LMPrefixIter::next (185-201)"]}
{"id": "C72", "title": "A longest match beside inserts is right about what was there before", "statement": "A longest match for p that runs beside any other calls never panics and ends; its answer is an inserted prefix that covers p; it is at least as long as every prefix covering p whose insert had returned before the query began.", "quantifier": "all interleavings, all prefixes of length > 0", "why_tests_cant": "ranges over all schedules", "anchors": ["src/tree_bitmap/tree_bitmap_iterators.rs: LMPrefixIter::next (185-201), longest_matching_prefix (342-351)"]}
{"id": "C73", "title": "Less specifics beside inserts", "statement": "An iteration over the less specifics of p that runs beside any other calls never panics and ends; it gives inserted prefixes that cover p and are shorter, the longest first and none twice, among them every one whose insert had returned before the iteration began.", "quantifier": "all interleavings, all prefixes of length > 0", "why_tests_cant": "ranges over all schedules", "anchors": ["src/tree_bitmap/tree_bitmap_iterators.rs: LessSpecificPrefixIter::next (230-244), less_specific_prefix_iter (326-340)"]}
{"id": "C74", "title": "A flush that succeeds has made everything durable", "statement": "If flush_to_disk returns Ok, every record persisted before, of both address families, is on stable storage.", "quantifier": "all histories, all outcomes of the I/O calls of the key/value store", "why_tests_cant": "needs I/O errors at chosen points and a crash", "anchors": ["src/lsm_tree/mod.rs: flush_to_disk (396-408)", "src/rib/starcast_af.rs: flush_to_disk (508-515)", "src/rib/starcast.rs: flush_to_disk (956-961)"]}
{"id": "C75", "title": "WriteAhead: what an insert has reported survives a crash", "statement": "With strategy WriteAhead, a record whose insert has returned Ok is on stable storage from then on, until a record of the same prefix, mui, time and status replaces it.", "quantifier": "all histories of calls and flushes, a crash at any moment", "why_tests_cant": "needs a crash", "anchors": ["src/lsm_tree/mod.rs: insert (144-146), flush_to_disk (396-408)", "src/rib/starcast_af.rs: upsert_prefix (155-170)", "src/rib/config.rs: WriteAheadConfig"]}
{"id": "C76", "title": "A new store with the same configuration finds what was persisted", "statement": "A store created with the configuration of an earlier one, after that one is gone, has the records that the earlier one persisted.", "quantifier": "all file systems, all strategies, all random names", "why_tests_cant": "needs two processes", "anchors": ["src/rib/starcast.rs: new_with_config (83-109)", "src/rib/starcast_af.rs: init (78-112)", "src/lsm_tree/mod.rs: new (131-142)"]}
{"id": "C77", "title": "The route counter is exact under concurrency", "statement": "At every moment routes_count().total() is at least the number of inserts that have returned reporting a new route, and exceeds it by no more than the number of inserts under way; when no call is under way it is equal to it. An insert that reports its route as not new did replace a record of the same prefix and mui.", "quantifier": "all interleavings, strategies and address families", "why_tests_cant": "ranges over all schedules", "anchors": ["src/rib/starcast_af.rs: upsert_prefix (142-206)", "src/types/stats.rs: Counters::inc_routes_count (176)", "src/rib/starcast.rs: routes_count (852)"]}
{"id": "C78", "title": "PersistOnly: concurrent calls leave on disk what they leave one after the other", "statement": "With strategy PersistOnly the contents of the disk after any concurrent inserts and marks are those after the same calls one after the other, in an order in which each call comes after those that had returned before it began.", "quantifier": "all interleavings, all numbers of calls", "why_tests_cant": "ranges over all schedules", "anchors": ["src/rib/starcast_af.rs: upsert_prefix (142-206), mark_mui_as_withdrawn_for_prefix, mark_mui_as_active_for_prefix", "src/lsm_tree/mod.rs: rewrite_header_for_record (480)"]}
{"id": "C79", "title": "When the calls are done, the store answers as if they had been made one after the other", "statement": "When no call is under way, after any concurrent inserts and marks of a prefix, every question about prefixes and records (matching, look-up, iteration, the records of a mui, which muis are withdrawn) is answered as by a store to which the same calls were made one after the other, in an order in which each call comes after those that had returned before it began. The answers are equal up to the order in which records and prefixes are listed.", "quantifier": "all interleavings, numbers of calls, strategies and address families; all questions", "why_tests_cant": "ranges over all schedules and over all questions asked afterwards", "anchors": ["src/rib/starcast_af.rs: insert, upsert_prefix, mark_mui_as_withdrawn_for_prefix, mark_mui_as_active_for_prefix", "src/tree_bitmap/mod.rs: set_prefix_exists", "src/prefix_cht/cht.rs: upsert_prefix", "src/rib/starcast.rs: match_prefix, get_records_for_prefix, more_specifics_iter_from, less_specifics_iter_from, iter_records_for_mui_v4, prefixes_iter"]}
{"id": "C80", "title": "A call that runs undisturbed does what the sequential code does", "statement": "Whatever calls are under way, however far each of them has come and whether or not it ever goes on, a call that begins then and whose steps are not mixed with those of others returns without a panic; it returns and leaves exactly what the sequential code returns and leaves on the store as it is then. An insert returns Ok and reports no retry. The longest match, the less-specifics and the more-specifics iterator likewise.", "quantifier": "all reachable states of all interleavings, all calls, strategies and address families", "why_tests_cant": "ranges over all states in which other threads can be suspended", "anchors": ["src/tree_bitmap/mod.rs: set_prefix_exists, retrieve_node_mut, store_node", "src/prefix_cht/cht.rs: upsert_prefix, retrieve_prefix_mut, get_records_for_prefix", "src/rib/starcast_af.rs: insert, upsert_prefix, mark_mui_as_withdrawn_for_prefix, mark_mui_as_active_for_prefix", "src/tree_bitmap/tree_bitmap_iterators.rs"]}
{"id": "C81", "title": "Concurrent calls on both families, global marks included, have one order", "statement": "For any execution of concurrent inserts, marks of a prefix, look-ups and global marks of a mui on either or both families, there is one order of the calls, in which each call comes after those that had returned before it began, that explains every moment: at any moment get_records_for_prefix, mui_is_withdrawn and is_mui_active answer as a store to which a beginning of that order was applied one after the other, containing all calls returned by then; and when no call is under way so does every question about prefixes and records. No call but an insert (retry counter, C43) panics.", "quantifier": "all interleavings, numbers of calls, strategies, both address families; all moments and all questions", "why_tests_cant": "ranges over all schedules and all moments; a wrong order shows only for rare interleavings across the families", "anchors": ["src/rib/starcast.rs: insert, mark_mui_as_withdrawn, mark_mui_as_withdrawn_v4, mark_mui_as_active_v4, mark_mui_as_withdrawn_v6, mark_mui_as_active_v6", "src/rib/starcast_af.rs: mark_mui_as_withdrawn, mark_mui_as_active, is_mui_active", "src/tree_bitmap/mod.rs: mark_mui_as_active, mark_mui_as_withdrawn, update_withdrawn_muis_bmin"]}
{"id": "C82", "title": "A look-up of records sees the store of one moment", "statement": "get_records_for_prefix, while other calls change the records and the global marks, returns what it would have returned at some moment between its beginning and its end.", "quantifier": "all interleavings, strategies, address families and arguments", "why_tests_cant": "the look-up loads the set of withdrawn muis and the records at different moments; only some schedules show it", "anchors": ["src/rib/starcast_af_query.rs: get_value", "src/prefix_cht/cht.rs: get_records_for_prefix, get_filtered_records", "src/tree_bitmap/mod.rs: withdrawn_muis_bmin"]}
{"id": "C83", "title": "A query beside concurrent calls gives only what was in the store while it ran", "statement": "match_prefix, more_specifics_iter_from, less_specifics_iter_from, prefixes_iter and iter_records_for_mui, run while any number of other calls change the store, never panic or fail. Every prefix they give covers, is covered by, or equals the one asked for as requested, had an insert begun, is given once, and comes with exactly the records a look-up of it would have given at some moment while the query ran, with the global marks of an earlier such moment.", "quantifier": "all interleavings, numbers of calls, strategies, address families, prefixes and options", "why_tests_cant": "a query is hundreds of steps, between any two of which other calls may change tree, records and marks", "anchors": ["src/rib/starcast_af_query.rs: match_prefix, get_value, more_specifics_iter_from, less_specifics_iter_from", "src/tree_bitmap/tree_bitmap_query.rs: match_prefix", "src/rib/starcast_af.rs: prefixes_iter", "src/rib/starcast.rs: iter_records_for_mui_v4, iter_records_for_mui_v6"]}
{"id": "C84", "title": "A match beside inserts finds the longest prefix that was there before", "statement": "If a prefix that covers the one asked for was inserted before match_prefix began, and no route is ever withdrawn, then a longest match made while other routes are being inserted finds a prefix, at least as long, with its records; and it and the less specifics are those of one moment. All less specifics that were there are given.", "quantifier": "all interleavings, strategies, address families, prefixes and options", "why_tests_cant": "goes wrong only if the query runs in the few steps between the bit in the tree and the record in the table", "anchors": ["src/rib/starcast_af.rs: insert", "src/rib/starcast_af_query.rs: match_prefix", "src/tree_bitmap/tree_bitmap_iterators.rs: LMPrefixIter, LessSpecificPrefixIter"]}
{"id": "C85", "title": "The more specifics and the iterators miss nothing that was there before they began", "statement": "A prefix inserted before match_prefix with more specifics, more_specifics_iter_from, prefixes_iter or iter_records_for_mui began, and not withdrawn, is given by it, with its records, whatever is being inserted meanwhile; and no prefix is given without records.", "quantifier": "all interleavings, strategies, address families, prefixes and options", "why_tests_cant": "goes wrong only if the query meets a node pointer whose node is not stored yet, or a prefix whose record is not", "anchors": ["src/tree_bitmap/tree_bitmap_iterators.rs: MoreSpecificPrefixIter", "src/tree_bitmap/mod.rs: set_prefix_exists, store_node", "src/rib/starcast_af.rs: insert, prefixes_iter", "src/rib/starcast_af_query.rs: more_specifics_iter_from"]}
{"id": "C86", "title": "An undisturbed query gives what the sequential code gives", "statement": "If no other call makes a step while match_prefix or one of the iterators runs, it gives what the sequential function gives for the store of that moment, also when other calls are half done.", "quantifier": "all reachable stores, including those in the middle of calls; all prefixes and options", "why_tests_cant": "ranges over every intermediate state of every set of concurrent calls", "anchors": ["src/rib/starcast_af_query.rs: match_prefix, more_specifics_iter_from, less_specifics_iter_from", "src/rib/starcast_af.rs: prefixes_iter", "src/rib/starcast.rs: iter_records_for_mui_v4, iter_records_for_mui_v6"]}
{"id": "C87", "title": "A query ends whatever the other calls do", "statement": "The number of steps match_prefix and the iterators make is bounded, however many inserts run at the same time, and from any point they come to an end if left to themselves.", "quantifier": "all interleavings, with any number of calls, all prefixes and options", "why_tests_cant": "termination under every schedule", "anchors": ["src/rib/starcast_af_query.rs: match_prefix", "src/tree_bitmap/tree_bitmap_iterators.rs: MoreSpecificPrefixIter, LessSpecificPrefixIter, LMPrefixIter"]}
{"id": "C88", "title": "Reading what another thread put in a OnceBox is no data race", "statement": "A thread that gets a reference from OnceBoxSlice::get or get_or_init, and reads through it, sees a value that was fully written: every access is ordered after the initialisation of the array and of the value, on a memory as weak as the C11 model that Rust specifies allows for the orderings in the code.", "quantifier": "all executions of the weak memory model, any number of threads, calls, indices, fences between the calls and edges made by the callers; for the characterisation all choices of the orderings", "why_tests_cant": "a data race is undefined behaviour that need never show on the machine or with the compiler of the test", "anchors": ["src/cht/oncebox.rs: OnceBox::get, OnceBox::get_or_init, OnceBoxSlice::get, OnceBoxSlice::get_or_init, OnceBoxSlice::get_or_make_slice"]}
{"id": "C89", "title": "A OnceBox is filled once, and all see the same value, on a weak memory", "statement": "For an index of a OnceBoxSlice at most one get_or_init returns true; all references given out lead to the value of that call; nothing that was freed is used; a call that comes after a read of the index finds it; each call returns after a bounded number of its own steps. This does not depend on the memory orderings.", "quantifier": "all executions of the weak memory model, all choices of orderings, any number of threads, calls and indices", "why_tests_cant": "ranges over all weak executions", "anchors": ["src/cht/oncebox.rs: OnceBox::get, OnceBox::get_or_init, OnceBoxSlice::get, OnceBoxSlice::get_or_init, OnceBoxSlice::get_or_make_slice"]}
{"id": "C90", "title": "The user's code cannot leave a prefix unusable", "statement": "A call that reads, inserts or marks the records of a prefix, or selects its paths, can always come to an end, whatever the user's code (Meta::as_orderable, the comparison and the clone of the metadata) did in other calls: a panic in one call reaches the caller of that call and no other.", "quantifier": "all interleavings of any number of calls for any prefixes, with any of them running user code that returns, panics, or reads the same prefix", "why_tests_cant": "needs a panic or a call back in the user's code while a lock is held, and then a wait that has no end", "anchors": ["src/prefix_cht/cht.rs: MultiMap::acquire_write_lock, MultiMap::acquire_read_guard, MultiMap::best_backup, MultiMap::get_record_for_mui, MultiMap::as_active_records_not_in_bmin, MultiMap::upsert_record, MultiMap::mark_as_withdrawn_for_mui", "src/types/prefix_record.rs: Meta::as_orderable"]}
{"id": "C91", "title": "Reading the global marks or the selections of a prefix is no data race", "statement": "A thread that reads the set of globally withdrawn muis, or the path selections of a prefix, while other threads change them, sees a value that was fully written, on a memory as weak as the C11 model that Rust specifies allows for the orderings in the code.", "quantifier": "all executions of the weak memory model, any number of threads and calls, fences and edges made by the callers; for the characterisation all choices of the orderings", "why_tests_cant": "a data race is undefined behaviour that need never show on the machine or with the compiler of the test", "anchors": ["src/tree_bitmap/mod.rs: TreeBitMap::withdrawn_muis_bmin, TreeBitMap::mark_mui_as_active, TreeBitMap::mark_mui_as_withdrawn, TreeBitMap::update_withdrawn_muis_bmin", "src/prefix_cht/cht.rs: StoredPrefix::get_path_selections, StoredPrefix::set_path_selections, StoredPrefix::set_ps_outdated, StoredPrefix::is_ps_outdated"]}
{"id": "C92", "title": "Global marks and path selections that happened before are seen, on a weak memory", "statement": "All threads see the set of globally withdrawn muis, and the selections and the outdated flag of a prefix, change in one and the same order; a read gives the outcome of the first so many changes of that order, among them every change, and every change seen by a read, that happened before it. So a mark that has returned is seen by each later read unless an opposite mark came after it, and likewise a stored selection.", "quantifier": "all executions of the weak memory model, all choices of orderings, any number of threads and calls", "why_tests_cant": "ranges over all weak executions", "anchors": ["src/tree_bitmap/mod.rs: TreeBitMap::withdrawn_muis_bmin, TreeBitMap::mark_mui_as_active, TreeBitMap::mark_mui_as_withdrawn, TreeBitMap::update_withdrawn_muis_bmin", "src/prefix_cht/cht.rs: StoredPrefix::get_path_selections, StoredPrefix::set_path_selections, StoredPrefix::set_ps_outdated, StoredPrefix::is_ps_outdated"]}
{"id": "C93", "title": "What a OnceBoxSlice allocates is freed exactly once", "statement": "When all calls on a OnceBoxSlice have returned and its only owner drops it, every array and every value that any call allocated, winners and losers alike, has been freed, and none has been freed twice; the drop is no data race, whatever the orderings of the calls were. Before that no more is held than one array, one value for each index, and one array or value for each call that is about to try to put it in place.", "quantifier": "all executions of the weak memory model, all choices of orderings, any number of threads, calls and indices", "why_tests_cant": "ranges over all weak executions; a leak or a double free in a race shows in few schedules", "anchors": ["src/cht/oncebox.rs: OnceBox::get_or_init, OnceBox::drop, OnceBoxSlice::get_or_make_slice, OnceBoxSlice::drop"]}
{"id": "C94", "title": "Marking muis and selecting paths again and again holds no more memory than once", "statement": "The memory that is held for the global marks of a store, or for the path selections of a prefix, does not depend on how many calls marked or selected before, only on what is marked or selected now and on the calls at work.", "quantifier": "all executions, any number of threads and calls", "why_tests_cant": "a claim about all lengths of executions; memory that is never freed is not seen by assertions on results", "anchors": ["src/tree_bitmap/mod.rs: TreeBitMap::update_withdrawn_muis_bmin", "src/prefix_cht/cht.rs: StoredPrefix::set_path_selections"]}
{"id": "C95", "title": "On a weak memory a prefix is found by whoever knows that its insert has returned, and nothing else is found", "statement": "With loads that may give old values and no ordering between different places, a look-up finds each prefix (but the default route) whose insert happened before it, and none for which no insert was called; an insert of a prefix whose insert happened before does not report it as new, and at least one insert of it does; no prefix is lost, and once no insert is under way the tree holds exactly the prefixes that were inserted, each of them reachable; no call fails, and each returns after a bounded number of its own steps, whatever the others do.", "quantifier": "all executions of the weak memory model, any number of threads and calls, both families", "why_tests_cant": "ranges over all interleavings and all stale reads; the hardware that tests run on shows few of them", "anchors": ["src/tree_bitmap/mod.rs: TreeBitMap::set_prefix_exists, TreeBitMap::prefix_exists, TreeBitMap::store_node, TreeBitMap::retrieve_node_mut, TreeBitMap::retrieve_node", "src/tree_bitmap/tree_bitmap_node.rs: TreeBitMapNode::eval_node_or_prefix_at", "src/tree_bitmap/atomic_bitmap.rs: AtomicBitmap"]}
{"id": "C96", "title": "On a weak memory the records of a prefix are those after the first so many critical sections, at least those that happened before", "statement": "With loads that may give old values and no ordering between different places, each upsert and each mark takes effect once, in one order per prefix that agrees with the order of each thread and with what happened before; a look-up of the records gives exactly what the first so many of them left, among them all that happened before it; an upsert reports whether there was a record for the mui and how many there are, and does not take a known prefix for new; a mark fails only if nothing on the prefix happened before it; two threads that insert a prefix at the same time work on one entry; nothing in memory is lost; no call panics, and each returns after at most 67 of its own steps.", "quantifier": "all executions of the weak memory model, any number of threads and calls, both families", "why_tests_cant": "ranges over all interleavings and all stale reads; the hardware that tests run on shows few of them", "anchors": ["src/prefix_cht/cht.rs: PrefixCht::upsert_prefix, PrefixCht::non_recursive_retrieve_prefix_mut, PrefixCht::non_recursive_retrieve_prefix, PrefixCht::get_records_for_prefix, MultiMap", "src/rib/starcast_af.rs: StarCastAfRib::mark_mui_as_withdrawn_for_prefix, StarCastAfRib::mark_mui_as_active_for_prefix", "src/cht/oncebox.rs: OnceBoxSlice::get, OnceBoxSlice::get_or_init"]}
{"id": "C97", "title": "Of two threads that insert a prefix each and then look up that of the other at least one finds it, and all see two inserts in one order", "statement": "If one thread inserts A and then looks up B, and another inserts B and then looks up A, at least one of the two finds the other's prefix; and if a third thread sees A without B, then no fourth one sees B without A.", "quantifier": "all executions, with any other calls beside them", "why_tests_cant": "a store buffering outcome needs a particular timing and hardware; its absence is a claim on all executions", "anchors": ["src/prefix_cht/cht.rs: PrefixCht::upsert_prefix, PrefixCht::get_records_for_prefix", "src/cht/oncebox.rs: OnceBoxSlice::get, OnceBoxSlice::get_or_init", "src/rib/starcast_af.rs: StarCastAfRib::insert, StarCastAfRib::contains"]}
{"id": "C98", "title": "On a weak memory a scan of the more specifics gives all that its thread knows to be inserted when it begins", "statement": "With loads that may give old values and no ordering between different places, a scan of the more specifics gives, whatever is inserted beside it, nothing but prefixes that some insert was called for and that the searched prefix covers, each once; it ends without a panic; and it gives all whose insert happened before it began. (The last is false: the scan stops at a pointer bit whose node it does not see yet.)", "quantifier": "all executions of the weak memory model, any number of threads and calls, any steps of others between those of the scan, both families", "why_tests_cant": "ranges over all interleavings and stale reads; tests run on hardware that shows few of them", "anchors": ["src/tree_bitmap/tree_bitmap_iterators.rs: TreeBitMap::more_specific_prefix_iter_from, MoreSpecificPrefixIter", "src/cht/oncebox.rs: OnceBoxSlice::get"]}
{"id": "C99", "title": "On a weak memory the longest match and the less specifics are of all that their thread knows to be inserted", "statement": "With such loads, and whatever is inserted beside it, a longest match gives at most one prefix, one that some insert was called for and that covers the searched one, and no prefix whose insert happened before it began is longer; the less specifics are such prefixes, shorter than the searched one, longest first, and among them are all whose insert happened before. Both end without a panic, after a number of steps linear in the length of the prefix.", "quantifier": "all executions of the weak memory model, any number of threads and calls, any steps of others between those of the reader, both families", "why_tests_cant": "ranges over all interleavings and stale reads; tests run on hardware that shows few of them", "anchors": ["src/tree_bitmap/tree_bitmap_iterators.rs: TreeBitMap::less_specific_prefix_iter, LMPrefixIter", "src/cht/oncebox.rs: OnceBoxSlice::get"]}
{"id": "C100", "title": "On a weak memory every call on the store takes all inserts into account that happened before it", "statement": "With loads that may give old values and no ordering between different places but what locks pass on: contains says true of every prefix whose insert happened before, and of no prefix that no insert was called for; get_records_for_prefix gives the records after the first so many critical sections on the prefix, among them those of all inserts that happened before; marks come after those inserts and fail only if there are none; an insert that has returned has happened before all that its thread does next. No call fails or panics but for the retry counter of C43.", "quantifier": "all executions of the weak memory model (one family, MemoryOnly, no path selections), any number of threads and calls, any stale reads, both families", "why_tests_cant": "ranges over all interleavings and stale reads; tests run on hardware that shows few of them", "anchors": ["src/rib/starcast_af.rs: StarCastAfRib::insert, StarCastAfRib::contains, StarCastAfRib::mark_mui_as_withdrawn_for_prefix", "src/prefix_cht/cht.rs: PrefixCht::upsert_prefix, PrefixCht::get_records_for_prefix, MultiMap"]}
{"id": "C101", "title": "On a weak memory whoever reads a record of a prefix knows all that its inserter knew", "statement": "If a thread reads the records of a prefix, and what it gets takes into account an insert or a mark that another thread did after certain inserts (its own or ones it knew of), then those inserts have happened before all that the reader does next: it finds them in the tree and in the table, though the threads do not synchronise otherwise. In particular contains then says true of that prefix.", "quantifier": "all executions of the weak memory model (one family, MemoryOnly, no path selections), any number of threads and calls, any stale reads, both families", "why_tests_cant": "ranges over all interleavings and stale reads; tests run on hardware that shows few of them", "anchors": ["src/prefix_cht/cht.rs: MultiMap::upsert_record, MultiMap::get_filtered_records", "src/rib/starcast_af.rs: StarCastAfRib::insert, StarCastAfRib::contains"]}
{"id": "C102", "title": "On a weak memory a thread that finds a prefix with contains finds its records next, and whatever its inserter inserted before", "statement": "If a thread inserts one prefix and then another, a thread for which contains says true of the second then gets true for the first, and gets the records of the second. (Both are false: the bits of the tree are read and set with Relaxed loads and a compare_exchange without Release, so they pass nothing on.)", "quantifier": "all executions of the weak memory model (one family, MemoryOnly, no path selections), any number of threads and calls, any stale reads, both families", "why_tests_cant": "ranges over all interleavings and stale reads; tests run on hardware that shows few of them", "anchors": ["src/tree_bitmap/atomic_bitmap.rs: AtomicPfxBitArr::load, AtomicPfxBitArr::compare_exchange", "src/tree_bitmap/mod.rs: TreeBitMap::prefix_exists, TreeBitMap::set_prefix_exists"]}
{"id": "C103", "title": "On a weak memory match_prefix takes into account what happened before it", "statement": "A thread that asks match_prefix while other threads insert and mark, and whose loads may give old values, gets no error and no panic, after a number of steps and look-ups that the others cannot drive beyond a bound. The match covers the prefix asked for; less specifics are shorter and cover it; more specifics are covered by it; each is given once. Every prefix comes with records as they were at some moment after all inserts of it that happened before the query. No less specific that happened before is left out unless it has no records to show, and the longest match is looked for among prefixes no shorter than any that happened before.", "quantifier": "all executions of the weak memory model (one family, MemoryOnly, no path selections), any number of threads and calls, any stale reads and any stale set of globally withdrawn muis, both families, all prefixes and match options", "why_tests_cant": "ranges over all interleavings and stale reads; tests run on hardware that shows few of them", "anchors": ["src/rib/starcast_af_query.rs: StarCastAfRib::match_prefix", "src/tree_bitmap/tree_bitmap_iterators.rs", "src/prefix_cht/cht.rs: PrefixCht::get_records_for_prefix"]}
{"id": "C104", "title": "On a weak memory the more specifics and the longest match do not miss what is known", "statement": "If a thread knows of an insert of a prefix with active records, no call is under way and none that changes something is begun, then match_prefix gives it among the more specifics of a shorter prefix, and the longest match of a prefix it covers is not empty. (Both are false: the thread may see a bit of the tree that belongs to an insert of which it does not know the rest. The first is true of a thread that knows of all inserts.)", "quantifier": "all executions of the weak memory model (one family, MemoryOnly, no path selections), any number of threads and calls, any stale reads and any stale set of globally withdrawn muis, both families, all prefixes and match options", "why_tests_cant": "ranges over all interleavings and stale reads; tests run on hardware that shows few of them", "anchors": ["src/rib/starcast_af_query.rs: StarCastAfRib::match_prefix", "src/tree_bitmap/tree_bitmap_iterators.rs", "src/prefix_cht/cht.rs: PrefixCht::get_records_for_prefix"]}
{"id": "C105", "title": "On a weak memory an iterator gives what happened before it", "statement": "An iterator over all prefixes, over the more or less specifics of a prefix or over the records of a mui, run while other threads insert and mark, neither panics nor fails, and ends after a bounded number of steps and look-ups. It gives each prefix at most once, only prefixes for which an insert was called, with records as they were at some moment after all inserts of it that happened before the iterator began. It gives all prefixes that happened before. (The last is false for all but the less specifics: a scan can be cut short; it is true if the thread knows of all inserts.)", "quantifier": "all executions of the weak memory model (one family, MemoryOnly, no path selections), any number of threads and calls, any stale reads and any stale set of globally withdrawn muis, both families, all prefixes and iterators", "why_tests_cant": "ranges over all interleavings and stale reads; tests run on hardware that shows few of them", "anchors": ["src/rib/starcast_af.rs: StarCastAfRib::prefixes_iter", "src/rib/starcast_af_query.rs: more_specifics_iter_from, less_specifics_iter_from", "src/rib/starcast.rs: iter_records_for_mui", "src/tree_bitmap/tree_bitmap_iterators.rs"]}
{"id": "C106", "title": "On a weak memory no call has to wait for another one", "statement": "Wherever the threads of the store are, a thread that is in the middle of an insert, of contains, of a mark, of a look-up of records, of match_prefix or of an iterator can go on to the end of it while the others stand still (none of them inside a critical section), though its loads may have given old values: there is no state from which it is stuck or goes round for ever. An insert that so returns has happened before what the thread does next. (The insert does so unless it runs into the overflow of C43.)", "quantifier": "all executions of the weak memory model (one family, MemoryOnly, no path selections), any number of threads, wherever each of them is, any stale reads; both families, all prefixes, match options and iterators", "why_tests_cant": "ranges over all states that any interleaving with stale reads leads to", "anchors": ["src/rib/starcast_af.rs: StarCastAfRib::insert, contains", "src/prefix_cht/cht.rs: PrefixCht::upsert_prefix, get_records_for_prefix", "src/tree_bitmap/mod.rs: TreeBitMap::set_prefix_exists", "src/rib/starcast_af_query.rs: StarCastAfRib::match_prefix", "src/tree_bitmap/tree_bitmap_iterators.rs"]}
{"id": "C107", "title": "A thread that knows of a global withdrawal is shown nothing of the mui as active", "statement": "If a thread has withdrawn a mui for all prefixes, or has learnt from another thread that it was, and nobody has marked it active since, then no match_prefix and no iterator of this thread, while others insert and mark and its loads may otherwise give old values, shows a record of the mui as active: with withdrawn records included each of them has the status withdrawn, without them there is none. (False if match_prefix or less_specifics_iter_from is asked for the mui by name without withdrawn records: the records are shown as active.)", "quantifier": "all executions of the weak memory model (one family, MemoryOnly, no path selections), any number of threads and calls, any stale reads, any orderings of the atomic operations on the marks; both families, all prefixes, muis, match options and iterators", "why_tests_cant": "ranges over all interleavings with stale reads; a test on one machine sees few of them", "anchors": ["src/tree_bitmap/mod.rs: TreeBitMap::mark_mui_as_withdrawn, withdrawn_muis_bmin", "src/rib/starcast_af_query.rs: StarCastAfRib::get_value, match_prefix, more_specifics_iter_from, less_specifics_iter_from", "src/prefix_cht/cht.rs: MultiMap::get_filtered_records, get_filtered_record_for_mui"]}
{"id": "C108", "title": "On a weak memory the number of routes in memory takes into account what was counted before", "statement": "When threads insert routes, and ask for the number of routes in memory with loads that may give old values, a thread is given at least the number of distinct routes (prefix, mui) whose first insert it knows to have returned, at most the number of routes that there are, and never less than it was given before; a thread that knows that the first inserts of all routes have returned is given exactly their number. A thread is given at least the number of routes that it has inserted itself. (The last is false: if another thread stored the route first and counts it only then, the thread can be given 0, even when all calls have returned.)", "quantifier": "all executions of the weak memory model of the prefix table and the counter, any number of threads and upserts, marks and look-ups, any stale loads; both families", "why_tests_cant": "ranges over all interleavings with stale loads", "anchors": ["src/types/stats.rs: Counters::inc_routes_count, routes_count", "src/prefix_cht/cht.rs: PrefixCht::upsert_prefix, routes_count"]}
{"id": "C109", "title": "Prefixes cross the boundary of the API unchanged", "statement": "The Prefix that a caller passes becomes an internal id with the same family, length and bits, and that id becomes the same Prefix again. Every prefix that a query or iterator shows, from memory or from disk, is turned into a valid Prefix: the unwrap in the conversion never panics, also when other calls run beside the query.", "quantifier": "all prefixes of both families; all histories of calls, all strategies, all queries and iterators; all interleavings of match_prefix and of the iterators with other calls, also on a weak memory", "why_tests_cant": "there are 2^32 resp. 2^128 addresses per length; the absence of the panic depends on all histories and on what can be on disk", "anchors": ["src/types/prefix_id.rs: From, try_ref_from_bytes, into_ipaddr", "src/types/af.rs: into_ipaddr", "src/rib/starcast_af_query.rs: QueryResult", "src/rib/starcast_af.rs: persist_prefixes_iter"]}
{"id": "C110", "title": "A PrefixId is decoded from any array of more than one byte", "statement": "The conversion of an array of PREFIX_SIZE bytes to a PrefixId does not panic for PREFIX_SIZE greater than 1, as its comment says, and gives back the id whose bytes they are. (The first is false: it panics for every size but 5 for IPv4 and 17 for IPv6.)", "quantifier": "all arrays of bytes, both families", "why_tests_cant": "ranges over all arrays of all sizes", "anchors": ["src/types/prefix_id.rs: PREFIX_SIZE, ref_from_bytes"]}
