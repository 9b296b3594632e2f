{"claims": [
{"property": "C01", "status": "proved", "theorems": ["C01_place_total", "C01_place_injective"], "note": "Proved for every prefix of both families."},
{"property": "C02", "status": "proved", "theorems": ["C02_truncate_bits", "C02_truncate_range", "C02_truncate_compose"], "note": "Proved for every history, state and input of the model."},
{"property": "C03", "status": "proved", "theorems": ["C03_slot_in_bounds"], "note": "Proved for every history, state and input of the model."},
{"property": "C04", "status": "proved", "theorems": ["C04_node_chain", "C04_prefix_chain"], "note": "Proved for every history, state and input of the model."},
{"property": "C05", "status": "proved", "theorems": ["C05_contains"], "note": "Proved for every history, state and input of the model."},
{"property": "C06", "status": "partial", "theorems": ["C06_default_contains_refuted", "C06_default_match_refuted", "C06_default_invisible"], "note": "REFUTED: an inserted default route is contained in nothing, matched by nothing and listed by nothing (C06_default_invisible holds for every state); only get_records and the counters know it."},
{"property": "C07", "status": "partial", "theorems": ["C07_contains_mui_misses_refuted", "C07_contains_mui_extra_refuted", "C07_contains_mui_partial"], "note": "REFUTED in both directions: false negatives when another mui took the hash slot, false positives for muis of neighbours in the tree node. The partial theorem characterises the answer."},
{"property": "C08", "status": "proved", "theorems": ["C08_exact"], "note": "Proved for every history, state and input of the model."},
{"property": "C09", "status": "proved", "theorems": ["C09_longest"], "note": "Proved for every history, state and input of the model."},
{"property": "C10", "status": "partial", "theorems": ["C10_fallback_refuted", "C10_fallback_partial"], "note": "REFUTED: if the longest covering prefix has no visible record the query returns nothing. The partial theorem covers a visible longest prefix."},
{"property": "C11", "status": "proved", "theorems": ["C11_less_all", "C11_less_visible"], "note": "Proved for every history, state and input of the model."},
{"property": "C12", "status": "proved", "theorems": ["C12_more_all", "C12_more_visible"], "note": "Proved for every history, state and input of the model."},
{"property": "C13", "status": "proved", "theorems": ["C13_prefixes", "C13_both"], "note": "Proved for every history, state and input of the model."},
{"property": "C14", "status": "partial", "theorems": ["C14_less_itself_refuted", "C14_more_itself_refuted", "C14_more_itself_partial"], "note": "REFUTED: less specifics never include the search prefix; more specifics leave out a stored full-length search prefix. The partial theorem covers the other lengths."},
{"property": "C15", "status": "proved", "theorems": ["C15_sets"], "note": "Proved for every history, state and input of the model."},
{"property": "C16", "status": "partial", "theorems": ["C16_more_records_refuted", "C16_less_records_refuted", "C16_prefix_refuted", "C16_more_from_partial", "C16_less_from_partial"], "note": "REFUTED: every returned prefix carries the records of the search prefix, and the search prefix is reported exactly when contains denies it. The partial theorems give the exact result."},
{"property": "C17", "status": "proved", "theorems": ["C17_last_write", "C17_frame"], "note": "Proved for every history, state and input of the model."},
{"property": "C18", "status": "proved", "theorems": ["C18_all_records"], "note": "Proved for every history, state and input of the model."},
{"property": "C19", "status": "proved", "theorems": ["C19_active_records"], "note": "Proved for every history, state and input of the model."},
{"property": "C20", "status": "partial", "theorems": ["C20_named_refuted", "C20_hidden_partial"], "note": "REFUTED for in-memory strategies: a query that names the mui ignores the global status. The partial theorem covers queries without a mui, and PersistOnly."},
{"property": "C21", "status": "proved", "theorems": ["C21_reversible", "C21_others"], "note": "Proved for every history, state and input of the model."},
{"property": "C22", "status": "proved", "theorems": ["C22_mark_withdrawn", "C22_mark_active", "C22_prefixes_kept"], "note": "Proved for every history, state and input of the model."},
{"property": "C23", "status": "partial", "theorems": ["C23_error_refuted", "C23_effect_refuted", "C23_mark_unknown_partial"], "note": "REFUTED: the second mark of an unknown prefix succeeds, and the in-memory prefix counter misses a later insert. The partial theorem shows that record queries do not change."},
{"property": "C24", "status": "proved", "theorems": ["C24_families_apart"], "note": "Proved for every history, state and input of the model."},
{"property": "C25", "status": "partial", "theorems": ["C25_active_refuted", "C25_active_partial"], "note": "REFUTED: is_mui_active is true when the mui is active for either family."},
{"property": "C26", "status": "proved", "theorems": ["C26_prefix_new"], "note": "Proved for every history, state and input of the model."},
{"property": "C27", "status": "partial", "theorems": ["C27_mui_new_refuted", "C27_mui_count_refuted", "C27_report_partial"], "note": "REFUTED: mui_new is always true, mui_count is 1 for a new mui. The partial theorem gives the whole report."},
{"property": "C28", "status": "proved", "theorems": ["C28_prefix_counts", "C28_n_prefixes"], "note": "Proved for every history, state and input of the model."},
{"property": "C29", "status": "partial", "theorems": ["C29_routes_refuted", "C29_memory_routes_refuted", "C29_memory_prefixes_refuted", "C29_counts_partial", "C29_route_totals_partial", "C29_routes_partial", "C29_memory_partial"], "note": "REFUTED: overwrites count as routes; routes in memory are not counted; a mark before the first insert hides a prefix from the in-memory counter. The partial theorems give the exact counters."},
{"property": "C30", "status": "proved", "theorems": ["C30_calculate", "C30_selection_unique"], "note": "Proved for every history, state and input of the model."},
{"property": "C31", "status": "partial", "theorems": ["C31_cleared_refuted", "C31_mark_refuted", "C31_first_insert_refuted", "C31_outdated_partial", "C31_insert_partial", "C31_calculate_partial"], "note": "REFUTED three ways: recalculating the same selection leaves the flag set, marks do not set it, the first insert does not set it. The partial theorems give the exact flag."},
{"property": "C32", "status": "partial", "theorems": ["C32_best_refuted", "C32_insert_refuted", "C32_best_partial", "C32_best_exact_partial"], "note": "REFUTED: withdrawn records can be selected, after which best_path fails although an active record exists; the first insert with tie-breaker info selects nothing. The partial theorems give the exact answer."},
{"property": "C33", "status": "proved", "theorems": ["C33_keys_injective", "C33_scans_exact"], "note": "Proved for every history, state and input of the model."},
{"property": "C34", "status": "proved", "theorems": ["C34_round_trip"], "note": "Proved for every history, state and input of the model."},
{"property": "C35", "status": "proved", "theorems": ["C35_map"], "note": "Proved for every history, state and input of the model."},
{"property": "C36", "status": "partial", "theorems": ["C36_withdrawn_refuted", "C36_active_refuted", "C36_withdrawn_partial", "C36_active_partial", "C36_latest"], "note": "REFUTED: a withdrawal empties the meta data; an activation is ignored unless the meta data is empty."},
{"property": "C37", "status": "proved", "theorems": ["C37_ahead", "C37_write_ahead"], "note": "Contents of the disk after every history; under every interleaving and at every moment, whatever has been upserted is on disk under its key, and nothing else is."},
{"property": "C38", "status": "proved", "theorems": ["C38_concurrent", "C38_mark_concurrent", "C38_insert", "C38_step"], "note": "Sequential: exact contents; concurrent: the record that an insert replaced, and the change a mark made, are on disk when the call returns."},
{"property": "C39", "status": "partial", "theorems": ["C39_active_refuted", "C39_mark_partial"], "note": "REFUTED: marking active writes a Withdrawn history record."},
{"property": "C40", "status": "proved", "theorems": ["C40_queries", "C40_calls"], "note": "Proved for every history, state and input of the model."},
{"property": "C41", "status": "partial", "theorems": ["C41_alike_refuted", "C41_alike_partial"], "note": "REFUTED: InActive records and named globally withdrawn muis are treated differently. The partial theorem covers active records without local marks."},
{"property": "C42", "status": "partial", "theorems": ["C42_iter_refuted", "C42_no_meta_partial", "C42_errors_partial", "C42_both_no_meta_partial", "C42_both_errors_partial"], "note": "REFUTED: a persisted record with meta data is returned as FatalError. The partial theorems cover data without, and with only, meta data."},
{"property": "C43", "status": "partial", "theorems": ["C43_no_panic_refuted", "C43_inserted_stays_partial", "C43_no_panic_partial", "C43_errors_partial"], "note": "REFUTED in one respect: with overflow checks an insert of a long IPv6 prefix panics after four failed compare_exchanges in the first stride (the accumulated retry count doubles per stride). All else proved for every interleaving."},
{"property": "C44", "status": "proved", "theorems": ["C44_no_phantom", "C44_seen_forever"], "note": "Proved for every interleaving, any number of calls."},
{"property": "C45", "status": "proved", "theorems": ["C45_entries_stay", "C45_one_entry", "C45_same_entry"], "note": "Proved for every interleaving, for the prefix table and the node table."},
{"property": "C46", "status": "proved", "theorems": ["C46_records", "C46_order_calls", "C46_no_lost_update", "C46_order_extends", "C46_read", "C46_mui_count"], "note": "Proved for every interleaving of inserts, local marks and look-ups."},
{"property": "C47", "status": "partial", "theorems": ["C47_returns_refuted", "C47_order_partial", "C47_alone_partial"], "note": "REFUTED: a mark that loses one compare_exchange never returns, whatever the schedule. The calls that return are linearizable."},
{"property": "C48", "status": "partial", "theorems": ["C48_new_refuted", "C48_count_refuted", "C48_new_partial", "C48_not_new_again_partial", "C48_count_low_partial", "C48_count_high_partial", "C48_len_low_partial", "C48_len_high_partial", "C48_memory_twice_refuted", "C48_memory_never_refuted"], "note": "REFUTED: two racing inserts both report the prefix as new and count it; the counter of prefixes in memory errs in both directions. The partial theorems bound the counters, total and per length, from both sides."},
{"property": "C49", "status": "partial", "theorems": ["C49_scan_refuted", "C49_scan_partial", "C49_scan_sound", "C49_scan_complete_partial", "C49_scan_cut", "C49_scan_ends"], "note": "REFUTED: the pointer bit is set before the node is stored, and a scan that meets such a bit stops. Proved for every schedule: the scan ends, gives nothing false, and is complete for what was inserted before unless it is cut off, which only happens while an insert is under way or after one has panicked."},
{"property": "C50", "status": "proved", "theorems": ["C50_steps", "C50_progress"], "note": "Proved for every interleaving: a bound on the own steps of every call, and that it can always go on."},
{"property": "C51", "status": "proved", "theorems": ["C51_one_value", "C51_one_winner", "C51_forever", "C51_panic", "C51_returns", "C51_atomic"], "note": "Proved for every interleaving; also that the calls behave as atomic ones."},
{"property": "C52", "status": "proved", "theorems": ["C52_record_set_laws", "C52_record_set_push", "C52_record_for_mui"], "note": "Proved for every history, state and input of the model."},
{"property": "C53", "status": "proved", "theorems": ["C53_calls", "C53_queries", "C53_insert"], "note": "Proved for every history, state and input of the model."},
{"property": "C54", "status": "proved", "theorems": ["C54_tree_shape"], "note": "Proved for every history, state and input of the model."},
{"property": "C55", "status": "proved", "theorems": ["C55_mui_iter"], "note": "Proved for every history, state and input of the model."},
{"property": "C56", "status": "proved", "theorems": ["C56_sizes_agree"], "note": "Proved for every history, state and input of the model."},
{"property": "C57", "status": "partial", "theorems": ["C57_returns_refuted", "C57_keeps_partial", "C57_unused_partial"], "note": "REFUTED: merge_with never returns after one lost compare_exchange. Nothing is lost, and the inserts never call it with bits to merge."},
{"property": "C58", "status": "partial", "theorems": ["C58_prefix_new_refuted"], "note": "REFUTED: always true. C27_report_partial gives the report."},
{"property": "C59", "status": "partial", "theorems": ["C59_history_refuted", "C59_history_ignored"], "note": "REFUTED: the option is read by no query."},
{"property": "C60", "status": "proved", "theorems": ["C60_nodes_count", "C60_both"], "note": "Proved for every history, state and input of the model."},
{"property": "C61", "status": "proved", "theorems": ["C61_stats", "C61_stats_once"], "note": "Proved for every history, state and input of the model."},
{"property": "C62", "status": "proved", "theorems": ["C62_flush"], "note": "Proved for every history, state and input of the model."},
{"property": "C63", "status": "proved", "theorems": ["C63_active_one"], "note": "Proved for every history, state and input of the model."},
{"property": "C64", "status": "proved", "theorems": ["C64_results"], "note": "Proved for every history, state and input of the model."},
{"property": "C65", "status": "proved", "theorems": ["C65_decodes", "C65_memory_only", "C65_persist_only"], "note": "Proved for every history, state and input of the model."},
{"property": "C66", "status": "partial", "theorems": ["C66_retries_refuted", "C66_retries_partial", "C66_bound_partial"], "note": "REFUTED: one retry in the first stride of a /128 is reported as 2^30. Proved for prefixes of up to 36 bits, so for all of IPv4; and a bound in terms of the length for prefixes of up to 108 bits."},
{"property": "C67", "status": "partial", "theorems": ["C67_fresh_refuted", "C67_all_select_refuted", "C67_origin_partial", "C67_best_partial", "C67_selects_partial", "C67_flagged_partial"], "note": "REFUTED: the flag is set before the record is stored, a selection in between clears it; even when every insert selects, an older selection can be stored last. The partial theorems say where a selection comes from, that an insert that selects stores one, and when the flag is up."},
{"property": "C68", "status": "partial", "theorems": ["C68_fails_refuted", "C68_uncounted_refuted", "C68_without_selection_partial"], "note": "REFUTED: PathSelectionOutdated although the record has been stored; the prefix may then not be counted at all."},
{"property": "C69", "status": "partial", "theorems": ["C69_nodes_refuted", "C69_nodes_low_partial", "C69_nodes_lag_partial", "C69_nodes_high_partial"], "note": "REFUTED: two racing inserts count the same node twice. Proved: when idle the counter is at least the number of nodes that the inserts that have returned rely on; while inserts are under way it lacks at most one for each; and it is never more than one and one for every four bits of every prefix for which insert has been called."},
{"property": "C70", "status": "partial", "theorems": ["C70_agree_refuted", "C70_agree_partial"], "note": "REFUTED: two inserts with the same (prefix, mui, time, status) can leave one's metadata in memory and the other's on disk. Holds when no two inserts clash."},
{"property": "C71", "status": "partial", "theorems": ["C71_scan_refuted", "C71_longest_refuted"], "note": "REFUTED: the readers take many steps and there is no version. What they do guarantee is C49, C72 and C73."},
{"property": "C72", "status": "proved", "theorems": ["C72_sound", "C72_longest", "C72_ends"], "note": "Proved for every schedule of the reader beside any calls of the store."},
{"property": "C73", "status": "proved", "theorems": ["C73_sound", "C73_sorted", "C73_complete", "C73_ends"], "note": "Proved for every schedule of the reader beside any calls of the store."},
{"property": "C74", "status": "partial", "theorems": ["C74_flush_refuted", "C74_flush_partial", "C74_answer", "C74_registered", "C74_nothing_new", "C74_error"], "note": "REFUTED: an Err of flush_active_memtable is dropped (lsm_tree/mod.rs:399) and Ok is returned. Proved for every history when that call does not fail."},
{"property": "C75", "status": "partial", "theorems": ["C75_crash_refuted", "C75_crash_partial", "C75_survivors"], "note": "REFUTED: inserts go to the memory table of the key/value store, which has no log, and nothing flushes but flush_to_disk. Proved: they survive once a flush could write everything, whatever happens later."},
{"property": "C76", "status": "partial", "theorems": ["C76_reopen_refuted", "C76_fresh_partial", "C76_same_partial"], "note": "REFUTED: new_with_config puts a fresh random component in the path, so it never opens existing data. The exact behaviour is proved."},
{"property": "C77", "status": "proved", "theorems": ["C77_routes", "C77_routes_idle", "C77_known"], "note": "Proved for every interleaving of the model."},
{"property": "C78", "status": "partial", "theorems": ["C78_serial_refuted", "C78_serial_partial", "C78_stays_partial", "C78_no_phantom_partial", "C78_withdrawn_partial", "C78_marks_return_partial"], "note": "REFUTED: a mark as active reads and writes in two steps and can empty the record of an insert in between. Without such marks there is always an order of the calls that leaves the same on disk."},
{"property": "C79", "status": "partial", "theorems": ["C79_serial_refuted", "C79_serial_partial", "C79_memory_partial", "C79_order_partial", "C79_extends_partial"], "note": "REFUTED for PersistOnly with a mark as active among the calls (see C78). Proved for all other strategies, and for PersistOnly without such marks. The calls are insert and the two marks of one prefix; marks that failed are left out of the order. Not covered: contains and more/less_specifics_from for one mui, best path, counters, the disk. Global marks: see C81."},
{"property": "C80", "status": "proved", "theorems": ["C80_alone", "C80_first_try", "C80_longest", "C80_less", "C80_more"], "note": "Proved for every reachable state of the concurrent model."},
{"property": "C81", "status": "partial", "theorems": ["C81_both_refuted", "C81_serial_partial", "C81_panics"], "note": "REFUTED if mark_mui_as_withdrawn (both families) is to be one call: it marks IPv4, then IPv6, and mark_mui_as_active_v4 and _v6, one after the other, can come in between. Proved with the two marks as two calls; with PersistOnly, without marks as active of a prefix (see C78). Not covered: as for C79."},
{"property": "C82", "status": "partial", "theorems": ["C82_refuted", "C82_two_partial", "C82_moment_partial", "C82_order_partial"], "note": "REFUTED: get_value loads the set of globally withdrawn muis before it looks for the records; a mui that is marked as withdrawn, and a record of it that is inserted after that, can both fall in between, and the record is given as active. Proved: records of one moment, global marks of an earlier moment of the same call; one moment if no global mark runs at the same time."},
{"property": "C83", "status": "proved", "theorems": ["C83_no_panic", "C83_main", "C83_less", "C83_more", "C83_each_no_panic", "C83_each"], "note": "Proved for every execution of the whole store with any calls beside the query. A moment here is a pair: the records of one moment with the global marks of an earlier one, as in C82."},
{"property": "C84", "status": "partial", "theorems": ["C84_refuted", "C84_snapshot_refuted", "C84_longest_partial", "C84_less"], "note": "REFUTED twice. An insert sets the prefix's bit in the tree before it stores the record: a longest match in between finds the new prefix, finds no record, and gives EmptyMatch although a shorter route was there throughout. And the search may pass a length before a prefix of that length is inserted, then find a shorter one inserted later. Proved: the prefix looked up is as long as any that was there before, and the answer is that of looking it up; all less specifics that were there are looked up."},
{"property": "C85", "status": "partial", "theorems": ["C85_more_refuted", "C85_each_refuted", "C85_empty_refuted", "C85_more_partial", "C85_each_partial"], "note": "REFUTED: the scan stops at a pointer bit whose node is not stored yet (as C49), losing prefixes that were there; prefixes_iter gives a prefix with an empty record list while its first insert is under way. Proved without concurrent inserts (any marks, withdrawals and look-ups may run)."},
{"property": "C86", "status": "proved", "theorems": ["C86_match", "C86_each"], "note": "Proved for every reachable store, calls under way included."},
{"property": "C87", "status": "proved", "theorems": ["C87_match_bound", "C87_match_ends", "C87_each_bound", "C87_each_ends"], "note": "Proved. The bound 2^214 is not tight: it comes from the number of nodes a tree can have."},
{"property": "C88", "status": "partial", "theorems": ["C88_refuted", "C88_orderings", "C88_later_partial"], "note": "REFUTED for the orderings in the code: compare_exchange has Acquire on success but not Release, and the loads, as well as compare_exchange on failure, are Relaxed; so a thread may follow a pointer to an array or a value whose initialisation it need not see, which is undefined behaviour. Pinning the epoch at the beginning of each call does not help. Proved: race free exactly with Acquire loads, Acquire on failure and Release on success; and, whatever the orderings, no race on an index if a read of it happened before."},
{"property": "C89", "status": "proved", "theorems": ["C89_once", "C89_agree", "C89_created", "C89_not_freed", "C89_later", "C89_goes_on", "C89_ends"], "note": "Proved for all orderings. The steps of a thread after a data race are not considered: what the code does then is undefined."},
{"property": "C90", "status": "partial", "theorems": ["C90_refuted", "C90_poisoned_partial", "C90_reentered_partial", "C90_exclusion", "C90_ends_partial"], "note": "REFUTED: a panic in as_orderable, a comparison or a clone under the lock poisons the Mutex of the prefix; acquire_write_lock and acquire_read_guard go round on an Err of any kind, so every later call on that prefix spins for ever (the comment in acquire_write_lock expects an error instead). The same when such code reads the prefix it is called for. Proved: this exact behaviour, mutual exclusion, and that the calls on a prefix can end if the user's code returns in all of them, whatever happens at other prefixes. Assumes panic=unwind and std's rules of poisoning."},
{"property": "C91", "status": "proved", "theorems": ["C91_code", "C91_orderings"], "note": "Proved for the orderings of the code, and that Acquire loads, Acquire on failure and Release on success are exactly what it takes. That the StoredPrefix itself is seen initialised is C88, which fails."},
{"property": "C92", "status": "proved", "theorems": ["C92_read", "C92_flag", "C92_past", "C92_order", "C92_made", "C92_marks", "C92_unmarked", "C92_selection", "C92_outdated", "C92_lost"], "note": "Proved for all orderings. C92_lost: as under sequential consistency (C47) a mark whose first compare_exchange failed never returns."},
{"property": "C93", "status": "proved", "theorems": ["C93_all", "C93_drop", "C93_before"], "note": "Proved for all orderings. C93_drop: the one that drops it knows of all that the other threads did, as Rust's &mut requires."},
{"property": "C94", "status": "partial", "theorems": ["C94_refuted", "C94_selections_refuted", "C94_held_partial", "C94_not_freed_partial"], "note": "Refuted, for the marks and for the selections, with one thread: an object that is replaced is never retired, so that each call that replaces one holds one more. C94_held_partial: exactly so much is held. C94_not_freed_partial: what is freed is never in use."},
{"property": "C95", "status": "proved", "theorems": ["C95_found", "C95_no_phantom", "C95_not_new", "C95_said_new", "C95_settled", "C95_kept", "C95_no_error", "C95_steps", "C95_insert_returns", "C95_contains_returns"], "note": "Proved for memory orderings as weak as Relaxed. In the model the node that a pointer leads to is seen initialised; that this can fail is C88. C95_no_error: the one panic is that of the retry counter, C43. C95_stale_example: a look-up that does not know of the insert may miss it."},
{"property": "C96", "status": "proved", "theorems": ["C96_read", "C96_upserted", "C96_found", "C96_marked", "C96_order", "C96_memory", "C96_past", "C96_kept", "C96_one_entry", "C96_no_panic", "C96_steps", "C96_returns"], "note": "Proved for memory orderings as weak as Relaxed, and without using that a lock passes on what its last holder knew. Records and marks in memory, without path selections, counters and the disk. In the model the entry that a pointer leads to is seen initialised; that this can fail is C88. C96_stale_example: a look-up that does not know of the insert may miss it, and a mark may fail with PrefixNotFound."},
{"property": "C97", "status": "partial", "theorems": ["C97_both_miss_refuted", "C97_opposite_refuted", "C97_one_sees_partial"], "note": "Refuted on a weak memory, for both halves, with records looked up in the prefix table: the loads of OnceBoxSlice::get are Relaxed (Acquire would not do), so nothing orders an insert before a later look-up of another place. C97_one_sees_partial: on a sequentially consistent memory the first half holds. A SeqCst fence between the two calls of each thread mends the first half; crossbeam's epoch::pin() has one when it is the outermost pin, but not when the caller holds a guard over both calls. The fence of pin() is not in the model."},
{"property": "C98", "status": "partial", "theorems": ["C98_scan_sound", "C98_scan_complete_partial", "C98_scan_cut", "C98_scan_ends", "C98_scan_refuted"], "note": "REFUTED: on a weak memory a scan can be cut short though no call is under way and nothing happens while it reads: the thread sees the pointer bit of an insert it does not know of, and not the node; it then misses prefixes it does know of. On a sequentially consistent memory (C49) this needs an insert under way. Proved: what is given is right, the scan ends, it is complete if not cut short, and it is not cut short if its thread knows of all inserts."},
{"property": "C99", "status": "proved", "theorems": ["C99_longest", "C99_less_sound", "C99_less_complete", "C99_ends"], "note": "Proved for every execution of the weak memory model. They walk through one path of nodes per length, so a missing node costs one length only, unlike in C98."},
{"property": "C100", "status": "proved", "theorems": ["C100_contains", "C100_existed", "C100_read", "C100_inserted", "C100_marked", "C100_past", "C100_past_kept", "C100_no_error", "C100_parts"], "note": "Proved for every execution of the weak memory model, the tree and the table together (MemoryOnly, no path selections). Happened before: by the program order of a thread, by threads that synchronise outside the store, and by the lock of the records of a prefix."},
{"property": "C101", "status": "proved", "theorems": ["C101_message", "C101_then_contains"], "note": "Proved for every execution of the weak memory model. The lock of the record map is what passes knowledge on."},
{"property": "C102", "status": "partial", "theorems": ["C102_passes_refuted", "C102_records_refuted"], "note": "REFUTED twice: after contains has said true of a prefix, contains may say false of a prefix that the same thread had inserted before, and get_records_for_prefix may give nothing. The first also holds of the code's orderings (compare_exchange with Acquire and Relaxed, loads Relaxed). C101 is what holds instead."},
{"property": "C103", "status": "proved", "theorems": ["C103_ends", "C103_bounded", "C103_main", "C103_less", "C103_more", "C103_less_complete", "C103_longest"], "note": "Proved for every execution of the weak memory model. C103_longest says of which prefix the records are looked up; that it may have none to show, and the match then be empty, is C104."},
{"property": "C104", "status": "partial", "theorems": ["C104_more_partial", "C104_more_refuted", "C104_longest_refuted"], "note": "REFUTED twice, with nothing under way: the more specifics can miss a prefix that the thread knows (the scan is cut short at a pointer bit without its node, as in C98), and the longest match can be empty though a covering prefix is known (the bit of a longer one is seen, its records are not). Proved: the more specifics are complete for a thread that knows of all inserts that were called."},
{"property": "C105", "status": "partial", "theorems": ["C105_ends", "C105_bounded", "C105_sound", "C105_complete_partial", "C105_complete_refuted"], "note": "REFUTED for the iterator over all prefixes, with nothing under way, as in C98. Proved: no panic or error, soundness, the less specifics are complete, and the others for a thread that knows of all inserts that were called."},
{"property": "C106", "status": "proved", "theorems": ["C106_call", "C106_match", "C106_each"], "note": "Proved for every state of the weak memory model. A critical section is one step of it, so a thread stopped while it holds the lock of some records, which would keep the others waiting for these records, is not among the states; C90 is about such locks. That the others, going on, cannot keep a query from its end for ever is C103_bounded and C105_bounded; calls: C95 and C96."},
{"property": "C107", "status": "partial", "theorems": ["C107_match_partial", "C107_each_partial", "C107_named_refuted", "C107_less_named_refuted"], "note": "Proved for match_prefix and the iterators, with the marks that a load gives a thread taken from the states of the memory model of C91 and C92 (load_after: any orderings). Missing, and refuted by C107_named_refuted and C107_less_named_refuted: asking for the mui by name without withdrawn records (the same defect as C20_named_refuted)."},
{"property": "C108", "status": "partial", "theorems": ["C108_low", "C108_high", "C108_counted", "C108_exact_partial", "C108_grow", "C108_own_refuted"], "note": "Proved: the bounds, exactness for a thread that knows of all first inserts, and that no thread's loads go back. Refuted by C108_own_refuted: a thread's own insert need not be among what it is given. The counter total of routes_count is another one, which also counts replaced routes (C29)."},
{"property": "C109", "status": "proved", "theorems": ["C109_in", "C109_out", "C109_shown", "C109_unwrap", "C109_other", "C109_match_beside", "C109_each_beside", "C109_match_weak", "C109_each_weak"], "note": "inetnum's Prefix::new is a stand-in: it accepts a length up to that of the family with no bit set beyond it. C109_shown is about every query and iterator of the sequential store. C109_match_beside and C109_each_beside are about those that C83 models beside other calls, in sequentially consistent interleavings; C109_match_weak and C109_each_weak about those of C103 and C105 on a weak memory. C109_unwrap says exactly which ids would panic."},
{"property": "C110", "status": "partial", "theorems": ["C110_bytes_refuted", "C110_length_partial", "C110_bytes_partial"], "note": "The comment in the code is wrong; the exact condition is proved. The conversion is not used by the store itself."}
]}
