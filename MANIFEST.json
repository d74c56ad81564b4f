{
 "claims": [
  {
   "property": "C01",
   "status": "proved",
   "theorems": [
    "C01_single_thread_is_a_map",
    "C01_no_other_outcome"
   ],
   "note": "For every configuration satisfying cfg_ok (page arithmetic conditions, Valid.v; the default builds satisfy them). Total correctness: for all sufficiently large fuels the run ends with the results of the map. With any smaller fuel the run either stops for lack of fuel or ends in the same way (C01_no_other_outcome), so undefined behaviour is excluded for every fuel."
  },
  {
   "property": "C02",
   "status": "proved",
   "theorems": [
    "C02_failed_calls_change_nothing"
   ],
   "note": "After any call sequence. Only the address counter of the allocator changes (the unused delta record is kept by the thread)."
  },
  {
   "property": "C03",
   "status": "proved",
   "theorems": [
    "C03_leaf_consolidation_keeps_records",
    "C03_inner_consolidation_keeps_routing"
   ],
   "note": "for every well-formed chain; well-formedness of the chains of a running tree is part of the tree invariant"
  },
  {
   "property": "C04",
   "status": "proved",
   "theorems": [
    "C04_chain_lookup_is_page_lookup",
    "C03_inner_consolidation_keeps_routing"
   ],
   "note": ""
  },
  {
   "property": "C05",
   "status": "proved",
   "theorems": [
    "C05_record_search",
    "C05_child_search"
   ],
   "note": ""
  },
  {
   "property": "C06",
   "status": "proved",
   "theorems": [
    "C06_leaf_split_partitions",
    "C06_inner_split_partitions"
   ],
   "note": "for every configuration with cfg_ok"
  },
  {
   "property": "C07",
   "status": "partial",
   "theorems": [
    "C07_concurrent_pages_fit_partial",
    "C07_single_thread_pages_fit_partial",
    "C07_published_pages_fit_partial",
    "C07_static_assert_refuted",
    "C15_bulkload_varlen_refuted",
    "C10_no_undefined_behaviour_partial",
    "C07_loaded_pages_fit_partial",
    "C07_loaded_then_published_partial"
   ],
   "note": "Every page in the mapping table fits and no page write overflows: in single-threaded use with merging, and in all concurrent executions with merging disabled. With concurrent merging, published pages fit, and no page write overflows while the root stays in place (C10_no_undefined_behaviour_partial). The same of published pages after any sequence of programs and Bulkloads in the fixed-length layout. False after a bulk load in the variable-length layout, and for key sizes that the static assertion accepts. Missing: overflow of a private page during concurrent merges that involve the root."
  },
  {
   "property": "C08",
   "status": "proved",
   "theorems": [
    "C08_chains_bounded"
   ],
   "note": "All configurations with a capacity of at least one record, merging included: no chain in the mapping table is longer than the sorting array and no consolidation overruns it."
  },
  {
   "property": "C09",
   "status": "proved",
   "theorems": [
    "C09_linearizable"
   ],
   "note": "All settings with cfg_ok (page large enough for two records per half plus headers) and hdr_ok (true of both header layouts)."
  },
  {
   "property": "C10",
   "status": "partial",
   "theorems": [
    "C10_no_undefined_behaviour_refuted",
    "C10_linearizable_refuted",
    "C10_linearizable_partial",
    "C10_no_undefined_behaviour_partial"
   ],
   "note": "Refuted: in the default build a Read racing with the consolidation of the root leaf takes back() of an empty stack; with kPageSize = 256 a Read of a key that is present throughout returns nothing. Proved: executions with node merging, from any state a sequence of calls leads to, in whose states the root word is unchanged and the root node is neither split nor marked as removed (root_stays, MrgSpec.v), are linearizable and free of undefined behaviour. Missing: executions in which the root changes, where the statement is false."
  },
  {
   "property": "C11",
   "status": "proved",
   "theorems": [
    "C11_smo_invisible"
   ],
   "note": "In every state of every execution Reads report a map, and this map changes only by a pending call taking effect once, as specified."
  },
  {
   "property": "C12",
   "status": "proved",
   "theorems": [
    "C12_scan_exact",
    "C12_no_other_outcome"
   ],
   "note": "For every list of calls on a new tree and every end bound, with no begin key or an included one: the collected iteration is sorted and contains exactly the records of the map in the interval; the state is unchanged. Also for every fuel with which calls and scan get to their end."
  },
  {
   "property": "C13",
   "status": "partial",
   "theorems": [
    "C13_exclusive_begin_refuted",
    "C13_exclusive_begin_partial"
   ],
   "note": "The property is false of the code: the refutation shows a scan that returns its excluded begin key. The partial theorem shows that this is the only possible wrong record."
  },
  {
   "property": "C14",
   "status": "partial",
   "theorems": [
    "C14_iterators_interfere_refuted",
    "C36_scans_explained",
    "C46_scans_with_merging_partial"
   ],
   "note": "Refuted: the scan page is thread-local and shared by all iterators of a thread. What holds: with one iterator at a time per thread (a new Scan ends the previous iteration; point calls in between are allowed), iterations of any number of threads are as specified, merging disabled (C36_scans_explained) or the root in place (C46_scans_with_merging_partial)."
  },
  {
   "property": "C15",
   "status": "partial",
   "theorems": [
    "C15_bulkload_fixlen_partial",
    "C15_bulkload_varlen_refuted",
    "C15_no_other_outcome_partial",
    "C15_workers_end_partial",
    "C15_any_interleaving_partial"
   ],
   "note": "Proved for the fixed-length layout: any sorted vector, any thread count, any interleaving of the worker threads, any tree built by calls before, later calls and scans. False in the variable-length layout: the size of bulk-loaded leaves omits the low key, and a later consolidation overflows its page."
  },
  {
   "property": "C16",
   "status": "proved",
   "theorems": [
    "C16_partition_covers"
   ],
   "note": "For every entry vector and every thread count from 1 to its length."
  },
  {
   "property": "C17",
   "status": "partial",
   "theorems": [
    "C17_bulkload_terminates_refuted",
    "C17_bulkload_terminates_partial"
   ],
   "note": "Refuted for 240-byte fixed-length keys in the default build. Proved for the fixed-length layout when two index entries fit into the bulk-loading capacity."
  },
  {
   "property": "C18",
   "status": "proved",
   "theorems": [
    "C18_page_ids_unique"
   ],
   "note": "All interleavings of any number of threads calling GetNewPageID, incl. spurious CAS failures; as long as tables_ is not left (see C20)."
  },
  {
   "property": "C19",
   "status": "proved",
   "theorems": [
    "C19_slots_distinct_and_stable"
   ],
   "note": "Any interleaving and any continuation within the capacity of tables_."
  },
  {
   "property": "C20",
   "status": "partial",
   "theorems": [
    "C20_capacity_assertion_refuted",
    "C20_allocation_in_bounds_partial"
   ],
   "note": "The full claim is false: the assertion compares with 512 but tables_ has 504 elements. Proved: a reachable execution leaves the array with the assertion holding; below 504*512*512 IDs (counting those in flight) no thread fails."
  },
  {
   "property": "C21",
   "status": "partial",
   "theorems": [
    "C21_destructor_leaks_refuted",
    "C21_no_double_release_partial"
   ],
   "note": "The full claim is false in every reachable state: the newest table and row are never released (nothing at all while the first table is in use). Proved: nothing is released twice and no null pointer is followed."
  },
  {
   "property": "C22",
   "status": "partial",
   "theorems": [
    "C22_fixlen_deltas_fit",
    "C22_varlen_deltas_fit_partial",
    "C22_index_delete_overflow_refuted"
   ],
   "note": "Fixed-length layout proved for all sizes. The full claim is false for the variable-length layout: index-entry deletes for 12-byte keys end 4 bytes behind the allocation. Proved for maximum key lengths divisible by 8 and for all other delta kinds."
  },
  {
   "property": "C23",
   "status": "partial",
   "theorems": [
    "C23_metadata_roundtrip_partial",
    "C23_metadata_truncates_refuted"
   ],
   "note": "Round trip proved for values below 2^16 (pages up to 32 KiB incl. scan pages); false for 64 KiB pages because the constructor truncates the offset to 16 bits."
  },
  {
   "property": "C24",
   "status": "proved",
   "theorems": [
    "C24_fixlen_page_roundtrip",
    "C24_fixlen_scan_page_roundtrip",
    "C24_fixlen_root_roundtrip"
   ],
   "note": "Byte-level, any key/payload size, any number of records that fits, pages, scan pages and new roots; nothing outside the record area is written. Page size a power of two."
  },
  {
   "property": "C25",
   "status": "proved",
   "theorems": [
    "C25_varlen_leaf_roundtrip",
    "C25_varlen_inner_roundtrip",
    "C25_varlen_bulk_roundtrip",
    "C25_varlen_leftmost_roundtrip",
    "C25_varlen_root_roundtrip"
   ],
   "note": "Byte-level incl. the metadata bytes, low/high keys, bulkloaded pages and new roots; page size below 64 KiB."
  },
  {
   "property": "C26",
   "status": "proved",
   "theorems": [
    "C26_cstring_order_is_strict_total"
   ],
   "note": "Also equals the lexicographic order on unsigned bytes."
  },
  {
   "property": "C27",
   "status": "proved",
   "theorems": [
    "C27_no_undefined_behaviour"
   ],
   "note": "No thread of any execution with merging disabled reaches an undefined-behaviour outcome of the model (null or unallocated page, empty stack, record out of range, page or array overflow)."
  },
  {
   "property": "C28",
   "status": "partial",
   "theorems": [
    "C28_leftmost_scan_refuted",
    "C28_inner_page_refuted",
    "C28_scans_safe_partial",
    "C36_scans_safe"
   ],
   "note": "Refuted twice (kPageSize = 256, other settings as in the default build): by a root marked as removed, and, while the root stays in place, by the leftmost inner page marked as removed although it has no left sibling to be merged into. Holds with merging disabled (C36_scans_safe) and, with merging, while the root stays in place, for scans with a begin key or in trees of at most two levels (C28_scans_safe_partial)."
  },
  {
   "property": "C29",
   "status": "partial",
   "theorems": [
    "C29_redescent_level_refuted",
    "C10_linearizable_partial",
    "C10_no_undefined_behaviour_partial"
   ],
   "note": "Refuted (kPageSize = 256, other settings as in the default build). What holds: while the root node stays in place, every call works on the right leaf, so that calls stay linearizable although nodes are removed during descents."
  },
  {
   "property": "C30",
   "status": "partial",
   "theorems": [
    "C30_iterator_unprotected_refuted",
    "C30_iterator_reclaimed_refuted",
    "C30_scan_protected_partial",
    "C30_scan_protected_life_partial"
   ],
   "note": "Refuted: the pages loaded by an iterator after Scan has returned can be retired, and reclaimed, while it reads them. Proved: what Scan itself and the point calls load is not reclaimed before they return, whatever iterators and collections of statistics run next to them; all configurations. Also from any tree that programs and Bulkloads lead to in the fixed-length layout."
  },
  {
   "property": "C31",
   "status": "proved",
   "theorems": [
    "C31_retired_once_unlinked",
    "C31_retired_once_with_scans",
    "C31_retired_once_life"
   ],
   "note": "All concurrent executions of point operations, scans, iterations and collections of statistics, every configuration, merging included, by an ownership invariant on addresses. The last theorem starts at any time of a life of programs and Bulkloads in the fixed-length layout, Bulkload's own release of the old root included; variable-length Bulkload is outside (C15)."
  },
  {
   "property": "C32",
   "status": "proved",
   "theorems": [
    "C32_level_statistics",
    "C32_table_usage_partial",
    "C32_table_usage_refuted",
    "C32_no_other_outcome",
    "C32_level_statistics_loaded"
   ],
   "note": "Per-level statistics of every tree reached by single-threaded calls: node counts are exact, used bytes within reserved bytes; the same after any sequence of programs and Bulkloads in the fixed-length layout. The two further theorems concern the statistics of the mapping table, which is not part of the statement: correct below the capacity, off by one at the very last ID."
  },
  {
   "property": "C33",
   "status": "proved",
   "theorems": [
    "C33_insert_atomic"
   ],
   "note": "Any window of the history of an execution with merging disabled."
  },
  {
   "property": "C34",
   "status": "proved",
   "theorems": [
    "C34_log2_is_floor_log"
   ],
   "note": "All 64-bit values."
  },
  {
   "property": "C35",
   "status": "proved",
   "theorems": [
    "C35_no_use_after_reclamation",
    "C35_no_use_after_reclamation_life"
   ],
   "note": "All configurations, merging included. Point calls only: iterators are unprotected (C30). The collector is an external library; its guarantee is the definition may_free. Also from any tree that programs and Bulkloads lead to in the fixed-length layout."
  },
  {
   "property": "C36",
   "status": "proved",
   "theorems": [
    "C36_scans_explained",
    "C36_scans_safe"
   ],
   "note": "Any number of threads, each mixing point calls with one iterator at a time. An excluded begin key may be returned (C13)."
  },
  {
   "property": "C37",
   "status": "partial",
   "theorems": [
    "C37_calls_return_refuted",
    "C37_calls_return_partial"
   ],
   "note": "False of the code with two threads, merging disabled: TryRootSplit checks the root and stores a new one in two steps, so two root splits can overlap; the second thread then finds a foreign root and adds the entry of an upper inner page to a page below it. All insertions succeed and afterwards no call on some stored key ever returns. Proved: calls issued one after the other all return, merging included."
  },
  {
   "property": "C38",
   "status": "partial",
   "theorems": [
    "C38_memory_orders_suffice_refuted",
    "C38_memory_orders_suffice_partial",
    "C38_interleavings_included"
   ],
   "note": "False of the code, merging disabled: root_ is stored and loaded with memory_order_relaxed, so a reader may see the ID of a new root and still read null from its slot. Proved, merging included, if root_ and the payload cells are accessed with release and acquire: the load of a slot never reads the null from before its page (for IDs other than 0 and IDs that equal a payload some call wrote). Also proved: the weak executions include every interleaving of the sequentially consistent model."
  },
  {
   "property": "C39",
   "status": "proved",
   "theorems": [
    "C39_published_pages_not_lost",
    "C39_pages_not_lost_with_scans",
    "C39_pages_not_lost_life"
   ],
   "note": "All configurations. Speaks about pages that were published in the mapping table; pages a thread has allocated and not published are kept in its thread-local cache in the code, which the model leaves out (an allocation always gives a new address). Also for threads on any tree that programs and Bulkloads lead to in the fixed-length layout; what a Bulkload itself loses is C48."
  },
  {
   "property": "C40",
   "status": "partial",
   "theorems": [
    "C40_iterator_key_partial",
    "C40_copied_key_partial",
    "C40_iterator_key_refuted",
    "C40_scan_bounds_partial",
    "C40_scan_copied_partial",
    "C40_scan_begin_refuted",
    "C40_scan_end_refuted"
   ],
   "note": "Proved for value keys, and for char* keys that the caller copied. False for char* keys: GetKey returns the thread-local buffer that the searches overwrite, so Delete(it.GetKey()) deletes another record; witness with the default settings and 48 keys. The same for scan bounds: with char* keys of an iterator a scan can start too late and end too late."
  },
  {
   "property": "C41",
   "status": "partial",
   "theorems": [
    "C41_fixlen_bytes_search",
    "C41_varlen_bytes_search_partial",
    "C41_keys_without_nul_refuted"
   ],
   "note": "Proved for unsigned integer keys in the fixed-length layout and for char* keys stored with their NUL in the variable-length layout. False for char* keys stored without the NUL: GetKey copies key_len bytes without a terminator over older bytes of the buffer; witness with keys a, ab, abc."
  },
  {
   "property": "C42",
   "status": "partial",
   "theorems": [
    "C42_header_fields_fit_partial",
    "C42_sizes_exact_partial",
    "C42_leaf_sizes_exact_partial",
    "C42_sizes_exact_merging_partial"
   ],
   "note": "Upper bounds for every execution including merging; exactness and lower bound for every execution without merging, for single-threaded calls with merging, and for several threads that merge pages while the root stays in place (every page reachable from the root). Missing: exactness when several threads merge pages and the root moves."
  },
  {
   "property": "C43",
   "status": "partial",
   "theorems": [
    "C43_values_from_calls_refuted",
    "C43_values_from_calls_partial",
    "C43_values_with_merging_partial"
   ],
   "note": "False of the code with merging: a Write that re-descends after a root removal takes an inner page for a leaf and adds its record there; a later Read takes an entry of that page for a record and returns a page ID as value (kPageSize = 256, 8-byte keys and payloads). Proved for every execution with merging disabled; for single-threaded calls see C01. Also proved with merging while the root stays in place (see C45)."
  },
  {
   "property": "C44",
   "status": "partial",
   "theorems": [
    "C44_stored_stays_refuted",
    "C44_stored_stays_partial",
    "C44_stays_with_merging_partial"
   ],
   "note": "False of the code with merging: a Write that re-descends after a root removal adds its record to an inner page, which is then taken for a leaf; all keys below it are lost for good although every call returned kSuccess. Proved for every execution with merging disabled; for single-threaded calls see C01. Also proved with merging while the root stays in place (see C45)."
  },
  {
   "property": "C45",
   "status": "proved",
   "theorems": [
    "C45_merges_invisible",
    "C45_insert_atomic"
   ],
   "note": "From every state that single-threaded calls lead to (cfg_ok settings), for every number of threads, calls and schedule in whose states the root stays in place: Reads report a map in every state, only calls change it, once and as specified between invocation and response; and between two Deletes at most one Insert of a key wins."
  },
  {
   "property": "C46",
   "status": "partial",
   "theorems": [
    "C46_scans_with_merging_partial",
    "C28_scans_safe_partial",
    "C28_inner_page_refuted"
   ],
   "note": "Proved for executions in which the root word is unchanged and the root node is neither marked as removed nor split, if every scan has a begin key or the starting tree has at most two levels. False without the condition on the root (C10, C28) and, for scans without begin key, without the condition on the levels (C28_inner_page_refuted)."
  },
  {
   "property": "C47",
   "status": "partial",
   "theorems": [
    "C47_calls_after_bulkload_partial",
    "C47_scans_after_bulkload_partial",
    "C47_merging_after_bulkload_partial"
   ],
   "note": "Fixed-length layout. Merging disabled and Bulkload into a new tree: the whole statement. Merging enabled and Bulkload into any tree that calls have built: calls and scans as long as the new root stays in place. Missing: executions with merging in which the root moves (false, see C10) and the variable-length layout (false, see C15)."
  },
  {
   "property": "C48",
   "status": "partial",
   "theorems": [
    "C48_bulkload_memory_refuted",
    "C48_root_page_partial",
    "C48_other_operations_partial",
    "C48_later_calls_partial",
    "C48_bulkload_life_partial"
   ],
   "note": "False of the code: after one Write, Bulkload registers the delta record on the root as a NodePage (bw_tree.hpp:544) and loses the page below it. Proved: right if the root has no delta records (new trees); AddToGC, used everywhere else, registers each piece as what it is; and after any Bulkload (fixed-length layout, merging and root changes included) later executions retire once, only unlinked pages, lose nothing and reclaim nothing in use. A Bulkload at any time of a life of programs and Bulkloads retires the head of the old root's chain once and loses nothing but the rest of that chain."
  },
  {
   "property": "C49",
   "status": "partial",
   "theorems": [
    "C49_statistics_partial",
    "C49_statistics_merging_partial",
    "C49_levels_partial",
    "C49_collection_returns_refuted",
    "C49_unprotected_refuted",
    "C49_statistics_reclaimed_refuted"
   ],
   "note": "False as stated: a collection that has copied the parent of a leaf before the leaf is merged away waits for good on the remove delta, even when all other threads have returned and the root has stayed; and the pages it reads are not protected by an epoch guard. Proved: number of pages per level, no undefined behaviour and undisturbed calls and iterations with merging disabled, and with merging while the root stays in place; pages assumed not to be reclaimed."
  },
  {
   "property": "C50",
   "status": "partial",
   "theorems": [
    "C50_balanced_partial",
    "C50_single_thread_partial",
    "C50_balanced_refuted"
   ],
   "note": "False as stated: two overlapping root splits put an inner page among the leaves (the state of C37_calls_return_refuted). Proved for single-threaded use with merging, root splits and root removals, and for any number of threads with merging while the root stays in place."
  },
  {
   "property": "C51",
   "status": "proved",
   "theorems": [
    "C51_varlen_leaf_deltas",
    "C51_varlen_index_deltas",
    "C51_fixlen_leaf_deltas",
    "C51_fixlen_index_deltas"
   ],
   "note": "Constructors and accessors on bytes (DeltaBytes.v). Whether a record stays inside its allocation is C22."
  },
  {
   "property": "C52",
   "status": "proved",
   "theorems": [
    "C52_varlen_consolidation",
    "C52_varlen_split",
    "C52_fixlen_consolidation",
    "C52_fixlen_split",
    "C52_varlen_deltas_stand",
    "C52_fixlen_deltas_stand"
   ],
   "note": "TryConsolidate, Sort and Consolidate on bytes (ByteCons.v) against the chains of ChainSpec.v. Offsets of 64 KiB and more are truncated (C23_metadata_truncates_refuted)."
  },
  {
   "property": "C53",
   "status": "proved",
   "theorems": [
    "C53_read_leaf",
    "C53_choose_child",
    "C53_searches_agree",
    "C53_varlen_stands",
    "C53_fixlen_stands"
   ],
   "note": "Keys are passed as values; for char* keys whose comparison reads the thread-local buffer see C41. With C51 and C52 this connects the record lists of Page.v with bytes: constructors, consolidation and searches."
  },
  {
   "property": "C54",
   "status": "proved",
   "theorems": [
    "C54_varlen_follows",
    "C54_varlen_linearizable",
    "C54_fixlen_follows",
    "C54_fixlen_linearizable"
   ],
   "note": "The follows-theorems hold with merging as well, for executions of Tree.v that are steady: no undefined behaviour there, chains of one level whose inner consolidations keep a record, page IDs below 2^64. Executions without merging are proved steady as long as page IDs fit into eight bytes. Keys are passed as values (char* keys compared through the thread-local buffer: C41). Header fields stay plain fields."
  },
  {
   "property": "C55",
   "status": "proved",
   "theorems": [
    "C55_varlen_follows",
    "C55_varlen_explained",
    "C55_fixlen_follows",
    "C55_fixlen_explained"
   ],
   "note": "As for C54: the follows-theorems hold with merging as well, for executions of Client.v that are steady; without merging all are, as long as page IDs fit into eight bytes. One iterator per thread at a time (C14). The high key an iterator goes on from is a copy (char* keys: its own thread-local buffer). The explained-theorems include the exception of C13 (the key of an excluded begin bound may be returned)."
  },
  {
   "property": "C56",
   "status": "proved",
   "theorems": [
    "C56_fixlen_workers",
    "C56_fixlen_loads",
    "C56_fixlen_follows",
    "C56_fixlen_explained"
   ],
   "note": "C56_fixlen_follows holds with merging too, under the side conditions of ksteady for the execution on records; C56_fixlen_explained discharges them without merging. Variable-length pages: Bulkload is already wrong on records (C07, C15)."
  },
  {
   "property": "C57",
   "status": "proved",
   "theorems": [
    "C57_same_execution",
    "C57_places_identify",
    "C57_linearizable",
    "C57_waiting_needed",
    "C57_same_execution_life",
    "C57_places_identify_life"
   ],
   "note": "The law of reclamation (placed, ReuseSpec.v) is that of the external collector; contents of reused memory are not part of this model (C35 covers them). The last two theorems: threads on a tree that programs and Bulkloads lead to (fixed-length layout) may be given the places of what was retired before, a root replaced by Bulkload included; during that life itself no place is used twice."
  },
  {
   "property": "C58",
   "status": "partial",
   "theorems": [
    "C58_fixlen_merging_partial",
    "C58_fixlen_after_partial",
    "C58_varlen_after_partial",
    "C58_fixlen_life_partial"
   ],
   "note": "Proved while the root word is unchanged and the root node is neither removed nor split (xroot_stays, read off the bytes), if every scan has a begin key or leaves lie right below the root. Without these conditions the statement is false already on records (C10, C28, C46). Starts from a bulkloaded tree (fixed-length) or from the tree left by a single-threaded program (both layouts)."
  },
  {
   "property": "C59",
   "status": "proved",
   "theorems": [
    "C59_fixlen_single_thread",
    "C59_varlen_single_thread",
    "C59_fixlen_answers",
    "C59_varlen_answers"
   ],
   "note": "Programs of point calls and complete scans whose begin key is not exclusive (C13). Clean-up of nodes is not part of the program: memory is never reused during the run (C57 covers reuse)."
  },
  {
   "property": "C60",
   "status": "proved",
   "theorems": [
    "C60_fixlen_answers",
    "C60_fixlen_runs",
    "C60_fixlen_workers",
    "C60_fixlen_loads"
   ],
   "note": "Begin keys of scans are not exclusive (C13); the entries of a Bulkload are non-empty, sorted and without duplicates (C15). Bulkload and programs do not overlap in time, as the interface requires. Clean-up of nodes is not part of the model here (C57 covers reuse of memory)."
  },
  {
   "property": "C61",
   "status": "proved",
   "theorems": [
    "C61_open_iterator",
    "C61_open_iterator_loaded",
    "C61_late_changes",
    "C61_ascending",
    "C61_own_delete_refuted"
   ],
   "note": "The last theorem refutes a stronger claim that is not part of the statement: an iterator may return a key its own thread has just deleted, since it works on a copy of the page. Variable-length Bulkload is not covered (C15). One iterator per thread is open at a time, as the page buffer is thread-local (bw_tree.hpp:213)."
  },
  {
   "property": "C62",
   "status": "proved",
   "theorems": [
    "C62_fixlen_runs",
    "C62_varlen_runs",
    "C62_fixlen_iterator",
    "C62_varlen_iterator",
    "C62_fixlen_life",
    "C62_fixlen_life_answers"
   ],
   "note": "An excluded begin key itself may be returned as well (C13). Variable-length Bulkload is not covered (C15). Clean-up of nodes is not part of the model here (C57)."
  },
  {
   "property": "C63",
   "status": "proved",
   "theorems": [
    "C63_end_variable",
    "C63_end_variable_loaded",
    "C63_kept_variable",
    "C63_end_missed_refuted",
    "C63_end_passed_refuted"
   ],
   "note": "The stronger claim that the interval is fixed when Scan is called is refuted both ways: records of the interval can be missing, and records beyond its end can be returned. An excluded begin key itself may be returned as well (C13). The variable has to stay alive; reading a dangling reference is undefined behaviour in C++ and is not modelled."
  },
  {
   "property": "C64",
   "status": "partial",
   "theorems": [
    "C64_reassigned_partial",
    "C64_reassigned_loaded_partial",
    "C64_same_end_partial",
    "C64_reassigned_refuted",
    "C64_reassigned_passed_refuted",
    "C64_other_index_refuted"
   ],
   "note": "The move assignment keeps the old end key and the old index. Proved if both scans have the same end bound; in general the result lies between the two bounds. False otherwise: records of the new interval can be missing, records beyond it can be returned, and with a scan of another index the iteration runs into undefined behaviour."
  }
 ]
}