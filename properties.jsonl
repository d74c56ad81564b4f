{"id": "C01", "title": "Single-threaded tree behaves as a map", "statement": "Starting from an empty tree, for every sequence of Read, Write, Insert, Update and Delete calls issued by one thread, every call returns, and it returns exactly what a finite map would return (Read: the last value stored under the key, or nothing; Write: kSuccess; Insert: kKeyExist iff present; Update/Delete: kKeyNotExist iff absent), whatever splits, merges, root splits and root removals happen on the way.", "quantifier": "all finite sequences of point operations, all keys and payloads, all admissible page-size/threshold settings", "why_tests_cant": "Tests run a few thousand chosen operations; the number of orders in which consolidations, splits and merges nest is unbounded.", "anchors": ["include/bw_tree/bw_tree.hpp:Read", "include/bw_tree/bw_tree.hpp:Write", "include/bw_tree/bw_tree.hpp:Insert", "include/bw_tree/bw_tree.hpp:Update", "include/bw_tree/bw_tree.hpp:Delete", "include/bw_tree/bw_tree.hpp:TrySMOs"]}
{"id": "C02", "title": "Failed Insert/Update/Delete change nothing", "statement": "An Insert that returns kKeyExist, an Update or Delete that returns kKeyNotExist, and every Read leave the set of stored records and the shared pages exactly as they were.", "quantifier": "all reachable single-threaded states, all keys and payloads", "why_tests_cant": "A test can compare a few reads after a failed call, not every key of every reachable tree.", "anchors": ["include/bw_tree/bw_tree.hpp:Insert", "include/bw_tree/bw_tree.hpp:Update", "include/bw_tree/bw_tree.hpp:Delete", "include/bw_tree/bw_tree.hpp:Read"]}
{"id": "C03", "title": "Consolidation preserves the records of a node", "statement": "Replacing a delta chain by its consolidated page keeps exactly the records visible through the chain: the newest delta per key wins, deleted keys vanish, records of merged siblings are included, and the result is strictly sorted.", "quantifier": "all well-formed delta chains of any length, any number of merged siblings", "why_tests_cant": "Chains of all shapes and lengths cannot be enumerated.", "anchors": ["include/bw_tree/bw_tree.hpp:Consolidate", "include/bw_tree/bw_tree.hpp:TryConsolidate", "include/bw_tree/component/delta_chain.hpp:Sort", "include/bw_tree/component/fixlen/delta_record.hpp:AddByInsertionSortTo", "include/bw_tree/component/varlen/delta_record.hpp:AddByInsertionSortTo"]}
{"id": "C04", "title": "Lookup through a chain equals lookup in the consolidated page", "statement": "For any key covered by a node, searching the delta chain newest-to-oldest and then the base page gives the same answer as searching the consolidated page.", "quantifier": "all well-formed chains, all keys in the node's range", "why_tests_cant": "Same: unbounded chain shapes and keys.", "anchors": ["include/bw_tree/component/delta_chain.hpp:SearchRecord", "include/bw_tree/component/fixlen/node.hpp:SearchRecord", "include/bw_tree/bw_tree.hpp:Read"]}
{"id": "C05", "title": "Node search finds a key iff it is there", "statement": "The binary search over a sorted page returns the position of the key when present and the insertion position otherwise; the child search returns the child whose separator is the greatest one not exceeding (closed) or strictly below (open) the key.", "quantifier": "all sorted pages of any record count, all keys, inner/leaf, leftmost or not, closed/open", "why_tests_cant": "Tests check chosen pages; off-by-one errors show only for particular sizes and positions.", "anchors": ["include/bw_tree/component/fixlen/node.hpp:SearchRecord", "include/bw_tree/component/fixlen/node.hpp:SearchChild", "include/bw_tree/component/varlen/node.hpp:SearchRecord", "include/bw_tree/component/varlen/node.hpp:SearchChild"]}
{"id": "C06", "title": "A split partitions the records", "statement": "When a node is split, both halves are non-empty, every record goes to exactly one half, left keys are below the separator and right keys at or above it, the separator equals the first right key, and the sibling link and key bounds of the halves tile the old range.", "quantifier": "all oversized chains, all record sizes admitted by the configuration", "why_tests_cant": "Depends on record sizes, fill state and deltas together.", "anchors": ["include/bw_tree/bw_tree.hpp:Consolidate", "include/bw_tree/bw_tree.hpp:Split", "include/bw_tree/component/fixlen/node.hpp:CopyRecordFrom", "include/bw_tree/component/varlen/node.hpp:CopyRecordFrom", "include/bw_tree/component/fixlen/node.hpp:CopyLowKeyFrom", "include/bw_tree/component/fixlen/node.hpp:CopyHighKeyFrom"]}
{"id": "C07", "title": "No page overflow", "statement": "No consolidation, split, root split or bulkload writes more bytes into a node page than the page has, in any reachable state.", "quantifier": "all reachable states, all admissible key/payload sizes, fixed- and variable-length layouts, with and without bulkloading", "why_tests_cant": "An overflow of a few bytes into the metadata or a neighbouring allocation is often silent in tests.", "anchors": ["include/bw_tree/bw_tree.hpp:TryConsolidate", "include/bw_tree/component/fixlen/node.hpp:Node", "include/bw_tree/component/varlen/node.hpp:CopyHighKeyFrom", "include/bw_tree/component/varlen/node.hpp:Bulkload", "include/bw_tree/bw_tree.hpp:static_assert"]}
{"id": "C08", "title": "Delta chains stay within the sorting array", "statement": "The number of delta records chained on a node never exceeds the capacity of the temporary array used for sorting them, for any number of threads.", "quantifier": "all numbers of threads, all schedules", "why_tests_cant": "The bound only matters under extreme contention that a test cannot force.", "anchors": ["include/bw_tree/bw_tree.hpp:CreateTempRecords", "include/bw_tree/component/delta_chain.hpp:Sort", "include/bw_tree/component/fixlen/delta_record.hpp:NeedWaitSMOs", "include/bw_tree/bw_tree.hpp:LoadValidHead"]}
{"id": "C09", "title": "Point operations are linearizable when merging is disabled", "statement": "With a minimum node size below the page header (merging off), every concurrent execution of Read, Write, Insert, Update and Delete is linearizable with respect to a map.", "quantifier": "all numbers of threads, all programs of point operations, all interleavings of the atomic steps, spurious CAS failures included", "why_tests_cant": "Schedules are unbounded; stress tests sample a vanishing fraction.", "anchors": ["include/bw_tree/bw_tree.hpp:Read", "include/bw_tree/bw_tree.hpp:Write", "include/bw_tree/bw_tree.hpp:Insert", "include/bw_tree/bw_tree.hpp:Update", "include/bw_tree/bw_tree.hpp:Delete", "include/bw_tree/bw_tree.hpp:Split", "include/bw_tree/bw_tree.hpp:TryRootSplit", "include/bw_tree/component/logical_ptr.hpp:CASWeak"]}
{"id": "C10", "title": "Point operations are linearizable with the default configuration", "statement": "With merging enabled, every concurrent execution of Read, Write, Insert, Update and Delete is free of undefined behaviour and linearizable with respect to a map.", "quantifier": "all numbers of threads, all interleavings", "why_tests_cant": "The failing windows are a few instructions wide.", "anchors": ["include/bw_tree/bw_tree.hpp:Read", "include/bw_tree/bw_tree.hpp:TryMerge", "include/bw_tree/bw_tree.hpp:SearchChildNode", "include/bw_tree/bw_tree.hpp:GetHeadWithKeyCheck"]}
{"id": "C11", "title": "Structure modifications are invisible to concurrent clients", "statement": "Consolidation, split, index-entry insertion and root split performed by any thread never change the value any key maps to.", "quantifier": "all threads and schedules (merging disabled), all keys", "why_tests_cant": "Needs every intermediate state of every modification.", "anchors": ["include/bw_tree/bw_tree.hpp:TrySMOs", "include/bw_tree/bw_tree.hpp:Split", "include/bw_tree/bw_tree.hpp:TryRootSplit"]}
{"id": "C12", "title": "Range scan returns exactly the requested records in order", "statement": "A single-threaded full iteration of Scan(begin,end) yields exactly the stored records inside the interval, each once, in ascending key order, for no begin key or an inclusive begin key, and for any end key.", "quantifier": "all reachable trees, all intervals with inclusive or no lower bound", "why_tests_cant": "Leaf boundaries relative to the interval ends are unbounded.", "anchors": ["include/bw_tree/bw_tree.hpp:Scan", "include/bw_tree/bw_tree.hpp:ConsolidateForScan", "include/bw_tree/bw_tree.hpp:SiblingScan", "include/bw_tree/component/record_iterator.hpp:HasRecord", "include/bw_tree/component/fixlen/node.hpp:SearchEndPositionFor"]}
{"id": "C13", "title": "Exclusive lower bound of a scan is respected", "statement": "A Scan whose begin key is exclusive never returns the begin key.", "quantifier": "all reachable trees, all begin keys", "why_tests_cant": "Only fails when the begin key is a leaf separator.", "anchors": ["include/bw_tree/bw_tree.hpp:Scan", "include/bw_tree/bw_tree.hpp:SearchLeafNode", "include/bw_tree/bw_tree.hpp:ConsolidateForScan", "include/bw_tree/component/record_iterator.hpp:HasRecord"]}
{"id": "C14", "title": "Iterators do not disturb each other", "statement": "Records returned by an iterator do not depend on other scans opened in the meantime by the same thread.", "quantifier": "all pairs of scans and interleavings of their use on one thread", "why_tests_cant": "Tests use one iterator at a time.", "anchors": ["include/bw_tree/bw_tree.hpp:Scan", "include/bw_tree/component/record_iterator.hpp:RecordIterator"]}
{"id": "C15", "title": "Bulkload stores exactly the given entries", "statement": "After Bulkload of a sorted duplicate-free vector with any number of worker threads, the tree contains exactly these entries and later operations behave as on a map with this content.", "quantifier": "all sorted entry vectors, all thread counts", "why_tests_cant": "Boundary cases depend on entry count, capacity and thread count together.", "anchors": ["include/bw_tree/bw_tree.hpp:Bulkload", "include/bw_tree/bw_tree.hpp:BulkloadWithSingleThread", "include/bw_tree/bw_tree.hpp:ConstructSingleLayer", "include/bw_tree/component/fixlen/node.hpp:Bulkload", "include/bw_tree/component/fixlen/node.hpp:LinkVerticalBorderNodes", "include/bw_tree/component/fixlen/node.hpp:RemoveLeftmostKeys"]}
{"id": "C16", "title": "Bulkload work partition covers each entry once", "statement": "The per-thread slices of a multi-threaded Bulkload are consecutive, non-empty, differ in size by at most one and together cover the entry vector exactly.", "quantifier": "all entry counts and thread counts with at least one entry per thread", "why_tests_cant": "Arithmetic identity over all pairs of numbers.", "anchors": ["include/bw_tree/bw_tree.hpp:Bulkload"]}
{"id": "C17", "title": "Bulkload terminates", "statement": "Bulkload returns for every entry vector and every key/payload size accepted by the compile-time checks.", "quantifier": "all entry vectors, all sizes satisfying the static assertion", "why_tests_cant": "Non-termination needs unusual key sizes.", "anchors": ["include/bw_tree/bw_tree.hpp:Bulkload", "include/bw_tree/bw_tree.hpp:ConstructSingleLayer", "include/bw_tree/component/fixlen/node.hpp:Bulkload"]}
{"id": "C18", "title": "Page IDs are unique and non-null under concurrency", "statement": "No two calls of GetNewPageID ever return the same ID, no ID is zero, and the slot of every returned ID lies in an allocated row, for any number of threads.", "quantifier": "all numbers of threads and interleavings, all numbers of allocations within capacity", "why_tests_cant": "Row and table switches happen every 512 and 262144 allocations and race with other threads.", "anchors": ["include/bw_tree/component/mapping_table.hpp:GetNewPageID", "include/bw_tree/component/mapping_table.hpp:GetLogicalPtr"]}
{"id": "C19", "title": "Distinct page IDs address distinct slots", "statement": "GetLogicalPtr maps different issued IDs to different slots and the slot of an ID never changes.", "quantifier": "all issued IDs", "why_tests_cant": "Arithmetic over the packed 64-bit ID.", "anchors": ["include/bw_tree/component/mapping_table.hpp:GetLogicalPtr"]}
{"id": "C20", "title": "Mapping table capacity check is sufficient", "statement": "Whenever the assertion in GetNewPageID holds, the allocation stays inside the table array.", "quantifier": "all counter values", "why_tests_cant": "Needs 132 million pages.", "anchors": ["include/bw_tree/component/mapping_table.hpp:GetNewPageID", "include/bw_tree/component/mapping_table.hpp:kTableCapacity"]}
{"id": "C21", "title": "Destroying a tree releases every page", "statement": "The mapping-table destructor releases every delta record and node page still reachable from the table and every row and table page.", "quantifier": "all final states", "why_tests_cant": "Leaks are not observable through the API.", "anchors": ["include/bw_tree/component/mapping_table.hpp:~MappingTable", "include/bw_tree/component/mapping_table.hpp:ReleaseLogicalPtr"]}
{"id": "C22", "title": "Delta records fit their allocation", "statement": "Every delta record written by the tree fits into the number of bytes allocated for delta records.", "quantifier": "all key lengths up to the maximum, all payload sizes, both layouts", "why_tests_cant": "Overruns of a few bytes are masked by allocator rounding.", "anchors": ["include/bw_tree/component/fixlen/delta_record.hpp:GetMaxDeltaSize", "include/bw_tree/component/varlen/delta_record.hpp:GetMaxDeltaSize", "include/bw_tree/component/varlen/delta_record.hpp:DeltaRecord"]}
{"id": "C23", "title": "Record metadata round-trips", "statement": "Storing an offset/key length/record length in the 8-byte metadata and reading it back gives the stored values for every offset that occurs.", "quantifier": "all page sizes and offsets", "why_tests_cant": "Only large page sizes are affected.", "anchors": ["include/bw_tree/component/varlen/metadata.hpp:Metadata"]}
{"id": "C24", "title": "Fixed-length page round-trips records", "statement": "Reading the i-th key and payload of a fixed-length page returns what was written as i-th record, for any record count that fits; later writes do not disturb earlier records.", "quantifier": "all record counts, key/payload sizes and byte contents", "why_tests_cant": "All byte-level contents and sizes.", "anchors": ["include/bw_tree/component/fixlen/node.hpp:CopyRecordFrom", "include/bw_tree/component/fixlen/node.hpp:GetPayloadAddr", "include/bw_tree/component/fixlen/node.hpp:SetPayload"]}
{"id": "C25", "title": "Variable-length page round-trips records", "statement": "Reading the i-th key and payload of a variable-length page returns what was written as i-th record, for any sequence of records that fits.", "quantifier": "all sequences of records of any lengths", "why_tests_cant": "All byte-level contents and sizes.", "anchors": ["include/bw_tree/component/varlen/node.hpp:CopyRecordFrom", "include/bw_tree/component/varlen/node.hpp:GetKeyAddr", "include/bw_tree/component/varlen/node.hpp:GetPayloadAddr", "include/bw_tree/component/varlen/metadata.hpp:Metadata"]}
{"id": "C26", "title": "CompareAsCString is a strict total order", "statement": "The comparator supplied for variable-length keys is irreflexive, transitive and total on NUL-terminated strings, with the null pointer as greatest element.", "quantifier": "all strings", "why_tests_cant": "Infinite domain.", "anchors": ["include/bw_tree/utility.hpp:CompareAsCString"]}
{"id": "C27", "title": "Readers never see a half-built page", "statement": "Every page reachable from the mapping table by a Read is complete: no Read in a concurrent execution without merging dereferences a null or unallocated page, an empty traversal stack, or a record out of range.", "quantifier": "all threads, programs and schedules with merging disabled", "why_tests_cant": "Crash windows are narrow.", "anchors": ["include/bw_tree/bw_tree.hpp:Read", "include/bw_tree/bw_tree.hpp:SearchChildNode", "include/bw_tree/bw_tree.hpp:SearchLeafNode"]}
{"id": "C28", "title": "Unbounded scan is safe next to root consolidation", "statement": "A concurrent Scan without begin key never dereferences a null pointer.", "quantifier": "all schedules", "why_tests_cant": "The window is between two CAS operations.", "anchors": ["include/bw_tree/bw_tree.hpp:SearchLeftmostLeaf", "include/bw_tree/component/fixlen/node.hpp:GetLeftmostChild", "include/bw_tree/bw_tree.hpp:TryMerge"]}
{"id": "C29", "title": "Re-descending after a root removal reaches a leaf", "statement": "A traversal that meets removed nodes re-descends to a node of the level the caller expects.", "quantifier": "all schedules", "why_tests_cant": "Requires a root removal during a descent.", "anchors": ["include/bw_tree/bw_tree.hpp:SearchChildNode", "include/bw_tree/bw_tree.hpp:TryRemoveRoot"]}
{"id": "C30", "title": "Iterators only touch pages while protected", "statement": "Every access of an iterator to shared pages happens while its thread holds an epoch guard.", "quantifier": "all iterations", "why_tests_cant": "Use-after-free depends on the collector's timing.", "anchors": ["include/bw_tree/component/record_iterator.hpp:HasRecord", "include/bw_tree/bw_tree.hpp:SiblingScan", "include/bw_tree/bw_tree.hpp:Scan"]}
{"id": "C31", "title": "Pages are retired once and only after being unlinked", "statement": "A page is handed to the garbage collector at most once and only when it can no longer be reached from the mapping table.", "quantifier": "all settings, merging included; all executions of point calls, scans, iterations and statistics by any number of threads from a new tree, and in the fixed-length layout (settings meeting the size conditions) from any tree that programs and Bulkloads lead to", "why_tests_cant": "Double frees depend on rare SMO combinations.", "anchors": ["include/bw_tree/bw_tree.hpp:AddToGC", "include/bw_tree/bw_tree.hpp:TrySMOs", "include/bw_tree/bw_tree.hpp:TryMerge", "include/bw_tree/bw_tree.hpp:TryRemoveRoot"]}
{"id": "C32", "title": "Memory statistics are consistent", "statement": "For every level the reported used bytes do not exceed the reported reserved bytes, and the number of nodes reported equals the number of nodes of that level.", "quantifier": "all reachable single-threaded trees", "why_tests_cant": "Every tree shape.", "anchors": ["include/bw_tree/bw_tree.hpp:CollectStatisticalData", "include/bw_tree/component/mapping_table.hpp:CollectStatisticalData"]}
{"id": "C33", "title": "Insert is atomic against racing Inserts", "statement": "Of several concurrent Inserts of the same absent key at most one returns kSuccess as long as no Delete of the key intervenes.", "quantifier": "all numbers of threads, all schedules with merging disabled", "why_tests_cant": "Races over one CAS.", "anchors": ["include/bw_tree/bw_tree.hpp:Insert", "include/bw_tree/component/logical_ptr.hpp:CASWeak"]}
{"id": "C34", "title": "Consolidation thresholds", "statement": "Log2 computes the floor of the binary logarithm for every value, so the delta-record threshold derived from the page size is well defined.", "quantifier": "all size_t values", "why_tests_cant": "Whole domain.", "anchors": ["include/bw_tree/utility.hpp:Log2"]}
{"id": "C35", "title": "No call uses a reclaimed page", "statement": "Provided the epoch-based collector reclaims a retired page only after every call in progress at its retirement has returned, no page or delta record that a call has loaded or allocated is reclaimed before that call returns.", "quantifier": "all configurations, all numbers of threads, all interleavings", "why_tests_cant": "A use after free needs a retirement in the few instructions between loading a chain and reading it, and often stays silent.", "anchors": ["include/bw_tree/bw_tree.hpp:AddToGC", "include/bw_tree/bw_tree.hpp:TrySMOs", "include/bw_tree/bw_tree.hpp:Read", "include/bw_tree/bw_tree.hpp:Write"]}
{"id": "C36", "title": "Scans next to other calls are consistent when merging is disabled", "statement": "While other threads (and the scanning thread itself, between two steps of its iterator) read and write, an iteration over Scan(b, e) returns ascending keys of the interval, looks each key of the interval up at one instant between the call of Scan and now, smaller keys no later than larger ones, and returns exactly what was stored at those instants: records present throughout are returned, keys absent throughout are not. Point calls stay linearizable and nothing hits undefined behaviour. Pages are assumed not to be reclaimed under the iterator (C30).", "quantifier": "all settings with merging disabled, all numbers of threads, all lists of calls and iterations, all interleavings and spurious CAS failures", "why_tests_cant": "Splits and consolidations have to hit between two leaves of an iteration; a skipped or repeated record shows up only under particular interleavings.", "anchors": ["include/bw_tree/bw_tree.hpp:Scan", "include/bw_tree/bw_tree.hpp:SiblingScan", "include/bw_tree/bw_tree.hpp:ConsolidateForScan", "include/bw_tree/component/record_iterator.hpp:HasRecord"]}
{"id": "C37", "title": "A call that runs alone returns", "statement": "Whatever calls ran before and however they interleaved, once they have returned, a call of Read, Write, Insert, Update or Delete that runs alone returns after finitely many steps.", "quantifier": "all settings, all lists of calls per thread, all interleavings, all further calls", "why_tests_cant": "A call that never returns needs a cycle among inner pages, which arises only if a root split is delayed for the exact window in which another thread splits the next root.", "anchors": ["include/bw_tree/bw_tree.hpp:TryRootSplit", "include/bw_tree/bw_tree.hpp:Split", "include/bw_tree/bw_tree.hpp:SearchTargetNode", "include/bw_tree/bw_tree.hpp:SearchLeafNode"]}
{"id": "C38", "title": "The memory orders of the code suffice", "statement": "Under the C++ memory model, with the memory orders the code uses, no call reads a page pointer that is still null: a thread that obtains the ID of a page, from the root or from another page, also sees the page stored under that ID.", "quantifier": "all settings, all lists of calls per thread, all executions of the release/acquire/relaxed memory model", "why_tests_cant": "The wrong outcome needs a processor that delays one store behind a later one; x86 never does, and on other processors the window is a few instructions wide.", "anchors": ["include/bw_tree/bw_tree.hpp:root_", "include/bw_tree/bw_tree.hpp:TryRootSplit", "include/bw_tree/bw_tree.hpp:SearchLeafNode", "include/bw_tree/component/logical_ptr.hpp:Load", "include/bw_tree/component/logical_ptr.hpp:Store"]}
{"id": "C39", "title": "No page is lost", "statement": "Every page or delta record that was ever reachable through the mapping table is, once no call is running, still reachable through the mapping table or has been handed to the garbage collector (exactly once, C31): structure modifications do not leak memory.", "quantifier": "all settings (merging included), all numbers of threads, all lists of calls per thread, all interleavings and spurious CAS failures", "why_tests_cant": "A leak is silent: results stay right. It needs a failed or overtaken structure modification, and leak checkers see only the interleavings that happened.", "anchors": ["include/bw_tree/bw_tree.hpp:AddToGC", "include/bw_tree/bw_tree.hpp:TrySMOs", "include/bw_tree/bw_tree.hpp:TryConsolidate", "include/bw_tree/bw_tree.hpp:Split", "include/bw_tree/bw_tree.hpp:TryMerge", "include/bw_tree/bw_tree.hpp:TryRemoveRoot"]}
{"id": "C40", "title": "A key obtained from an iterator can be passed to a call", "statement": "Read, Write, Insert, Update and Delete called with the key returned by RecordIterator::GetKey or operator*, and Scan with such keys as bounds, behave as if they were given the values of these keys.", "quantifier": "for all key types and settings, all trees, all iterators positioned on a record, all point calls and all scans", "why_tests_cant": "the tests compare scanned keys and never feed them back; whether the call goes wrong depends on the shape of the tree", "anchors": ["include/bw_tree/component/varlen/node.hpp:757-774", "include/bw_tree/component/record_iterator.hpp:138-190", "include/bw_tree/component/varlen/node.hpp:358-415", "include/bw_tree/bw_tree.hpp:417-452"]}
{"id": "C41", "title": "Searching the bytes of a page finds exactly the stored keys", "statement": "SearchRecord on the bytes of a filled leaf returns the position of the key argument if the key was stored, with its payload at this position, and otherwise the position where the key belongs.", "quantifier": "for all page sizes, all numbers and lengths of records, all key arguments, all memory contents before the page was filled and all contents of the key buffer", "why_tests_cant": "tests use keys of one fixed length that include their terminator, on zero-initialised buffers", "anchors": ["include/bw_tree/component/fixlen/node.hpp:330-350", "include/bw_tree/component/varlen/node.hpp:358-380", "include/bw_tree/component/varlen/node.hpp:757-774", "include/bw_tree/utility.hpp:66-78"]}
{"id": "C42", "title": "Header counters never wrap and sizes are exact", "statement": "In every state reached by calls, the 16-bit record count and the 32-bit node size stored in the header of every published page and delta record do not overflow or underflow, and the node size in front of a delta chain is exactly the number of bytes the logical records of the page need.", "quantifier": "all configurations, all threads, calls and interleavings, all reachable pages", "why_tests_cant": "A wrapped size only shows as a wrong split or merge decision much later; tests see neither the header fields nor all histories of deltas.", "anchors": ["include/bw_tree/component/fixlen/delta_record.hpp:537", "include/bw_tree/component/varlen/delta_record.hpp:635", "include/bw_tree/component/fixlen/node.hpp:765", "include/bw_tree/component/varlen/node.hpp:889"]}
{"id": "C43", "title": "Reads report only stored values", "statement": "A value returned by Read(k) was passed to a Write, Insert or Update of the same key k that was invoked before the Read returned.", "quantifier": "all threads, calls and interleavings, all settings", "why_tests_cant": "Needs a traversal that is overtaken by a merge, a root removal and a root split; a test that checks presence only would not even notice a wrong value.", "anchors": ["include/bw_tree/bw_tree.hpp:145-197", "include/bw_tree/bw_tree.hpp:770-816", "include/bw_tree/bw_tree.hpp:1560-1579"]}
{"id": "C44", "title": "Stored records stay until deleted", "statement": "If a Write, Insert or Update of a key succeeds while no Delete of the key is in progress, and no Delete of the key is invoked afterwards, then every later Read of the key finds a value.", "quantifier": "all threads, calls and interleavings, all settings", "why_tests_cant": "The loss needs a Write that is overtaken by a merge, a root removal and a root split, and shows only in keys that the racing calls do not touch.", "anchors": ["include/bw_tree/bw_tree.hpp:260-297", "include/bw_tree/bw_tree.hpp:977-1017", "include/bw_tree/bw_tree.hpp:1560-1579"]}
{"id": "C45", "title": "Node merging below a standing root is invisible", "statement": "With merging enabled, from any state reached by earlier calls: as long as no thread splits, replaces or removes the root node, concurrent splits, consolidations and merges of all other nodes are invisible: at every instant Reads of all keys would report one map, and only a successful Write, Insert, Update or Delete changes it, exactly once, as specified, between its invocation and its response.", "quantifier": "all settings with sensible sizes, all earlier calls, all numbers of threads, all calls, all interleavings and spurious CAS failures in which the root stays", "why_tests_cant": "Needs all interleavings of half-done merges (removal mark, merge delta, index-entry deletion) with all other operations on the two nodes and their parents.", "anchors": ["include/bw_tree/bw_tree.hpp:TryMerge", "include/bw_tree/bw_tree.hpp:GetHeadForMerge", "include/bw_tree/bw_tree.hpp:TrySMOs", "include/bw_tree/component/fixlen/delta_record.hpp"]}
{"id": "C46", "title": "Scans next to node merging are consistent", "statement": "While other threads read, write and thereby split and merge nodes, an iteration over Scan(b, e) returns ascending keys of the interval, looks each key of the interval up at one instant between the call of Scan and now, smaller keys no later than larger ones, and returns exactly what was stored at those instants. Point calls stay linearizable and nothing hits undefined behaviour. Pages are assumed not to be reclaimed under the iterator (C30).", "quantifier": "all settings, all reachable trees to start from, all numbers of threads, all lists of calls and iterations, all interleavings and spurious CAS failures", "why_tests_cant": "The leaf an iterator is about to read has to be removed and merged between two of its steps; records lost or repeated there show up only under particular interleavings.", "anchors": ["include/bw_tree/bw_tree.hpp:Scan", "include/bw_tree/bw_tree.hpp:SiblingScan", "include/bw_tree/bw_tree.hpp:ConsolidateForScan", "include/bw_tree/bw_tree.hpp:TryMerge", "include/bw_tree/component/record_iterator.hpp:HasRecord"]}
{"id": "C47", "title": "Concurrent use after bulk loading", "statement": "After Bulkload of a sorted duplicate-free vector, whatever the order in which its worker threads took their steps, any number of threads may use the tree: their calls are linearizable from the map of exactly the loaded entries, iterations return what was stored at instants of the scan, nothing hits undefined behaviour, pages stay within their size and retired pages are retired once and unreachable.", "quantifier": "all sorted entry vectors, all thread counts, all interleavings of the workers, all numbers of client threads, all lists of calls and iterations, all interleavings and spurious CAS failures", "why_tests_cant": "The shape of the loaded tree depends on entry count, capacity, thread count and the order of the workers; each shape is the start of unboundedly many concurrent executions.", "anchors": ["include/bw_tree/bw_tree.hpp:Bulkload", "include/bw_tree/bw_tree.hpp:BulkloadWithSingleThread", "include/bw_tree/bw_tree.hpp:Scan", "include/bw_tree/bw_tree.hpp:Write"]}
{"id": "C48", "title": "Bulkload and memory", "statement": "Bulkload hands what it replaces to the garbage collector: every page and delta record that was reachable through the mapping table before is afterwards still reachable through it or registered with the collector, as the kind (page or delta record) it was allocated as, since the collector hands memory out again by kind. In every later execution pages are retired once, only when unlinked, not reclaimed while a call uses them, and not lost.", "quantifier": "all sorted entry vectors, thread counts and interleavings of the workers, all trees that calls have built before, all numbers of threads, all lists of calls and all interleavings afterwards", "why_tests_cant": "A delta record registered as a page is recycled as a page only after the collector's epochs have advanced; the overflow then damages unrelated heap memory, and the lost page below it changes no result.", "anchors": ["include/bw_tree/bw_tree.hpp:Bulkload", "include/bw_tree/bw_tree.hpp:AddToGC", "include/bw_tree/bw_tree.hpp:GetNodePage", "include/bw_tree/component/common.hpp:NodePage", "include/bw_tree/component/common.hpp:DeltaPage"]}
{"id": "C49", "title": "Statistics may be collected while other threads work", "statement": "CollectStatisticalData may be called while other threads read, write and iterate: it returns, it touches pages only while they are protected from reclamation, it reports one page (the root) on the first level and at least one page on every further level, it does not disturb the calls and iterations of the other threads, and nothing hits undefined behaviour.", "quantifier": "all settings, all numbers of threads, all lists of calls, iterations and collections, all interleavings and spurious CAS failures", "why_tests_cant": "The tests collect statistics of a tree at rest; a page has to be merged or replaced between two steps of the collecting thread.", "anchors": ["include/bw_tree/bw_tree.hpp:561-571", "include/bw_tree/bw_tree.hpp:718-758"]}
{"id": "C50", "title": "The tree stays balanced", "statement": "In every state, all leaves that can be reached from the root by index entries and links to right siblings have the same number of index entries between them and the root, no inner page is reachable at that depth, and every reachable page ID has a page: the number of levels a search descends is the same for all keys.", "quantifier": "all settings, all numbers of threads, all calls, all interleavings and spurious CAS failures", "why_tests_cant": "A page linked at a wrong level still answers most calls; the pages involved come about only under particular interleavings of splits and merges.", "anchors": ["include/bw_tree/bw_tree.hpp:TryRootSplit", "include/bw_tree/bw_tree.hpp:TrySplit", "include/bw_tree/bw_tree.hpp:TryMerge", "include/bw_tree/bw_tree.hpp:TryRemoveRoot"]}
{"id": "C51", "title": "Delta records keep what they are given", "statement": "A delta record built for an insert, update or delete returns exactly the bytes of the key and the payload it was built from, has the right kind and no high key; a delta record built for an index entry returns the low key of the right page as separator, its high key (none if the page has none) and the page ID. Filling in the left sibling of an index-entry delete afterwards changes neither key nor high key and writes one aligned word. No byte outside the record is written, whatever the recycled memory contained.", "quantifier": "both layouts, all key and payload bytes and lengths below 64 KiB in total, all old contents of the memory, all right pages", "why_tests_cant": "The tests use 8-byte keys and payloads on fresh memory; offsets only go wrong for other lengths and alignments or when old bytes shine through.", "anchors": ["include/bw_tree/component/fixlen/delta_record.hpp:72-136", "include/bw_tree/component/varlen/delta_record.hpp:78-165", "include/bw_tree/component/varlen/delta_record.hpp:SetSiblingPID"]}
{"id": "C52", "title": "Consolidation copies the right bytes", "statement": "Consolidating a delta chain yields a page whose bytes hold exactly what the chain stands for: in a leaf the visible records in ascending key order, in an inner node the separators and children, with the fence keys and the size of the chain. If the chain is too large it yields two pages that fit, hold the records together, and have the first key of the right page as fence key between them. Only bytes of the new pages' data blocks are written, whatever they contained before.", "quantifier": "both layouts, leaves and inner nodes, consolidation for a scan or not, all key and payload encodings whose byte comparison follows the key order, all well-formed delta chains and all bytes that stand for them, page sizes whose offsets fit into 16 bits", "why_tests_cant": "The copy loop moves records between pages by offsets and lengths taken from the bytes; an offset that is wrong for one combination of lengths, fence keys and deltas silently corrupts a neighbouring record.", "anchors": ["include/bw_tree/bw_tree.hpp:1227-1337", "include/bw_tree/component/delta_chain.hpp:346-375", "include/bw_tree/component/fixlen/node.hpp:422-541", "include/bw_tree/component/varlen/node.hpp:450-580"]}
{"id": "C53", "title": "Searching chains of bytes", "statement": "Looking a key up in the bytes of a leaf (a page with delta records and merged pages on top) returns the bytes of the payload of the visible record, nothing if there is none, and the right sibling if the key does not belong to the node; looking a key up in the bytes of an inner node returns the page ID at the greatest separator not above the key. The searches used for merging and validation agree with the chain in the same way.", "quantifier": "both layouts, all key and payload encodings whose byte comparison follows the key order, all well-formed delta chains and all bytes that stand for them, all keys, open and closed searches", "why_tests_cant": "Keys are compared, and payloads fetched, through offsets and lengths stored in the bytes of several records; tests use a few lengths and short chains.", "anchors": ["include/bw_tree/component/delta_chain.hpp:65-336", "include/bw_tree/component/fixlen/node.hpp:SearchRecord", "include/bw_tree/component/varlen/node.hpp:SearchRecord", "include/bw_tree/component/fixlen/node.hpp:SearchChild", "include/bw_tree/component/varlen/node.hpp:SearchChild", "include/bw_tree/bw_tree.hpp:Read"]}
{"id": "C54", "title": "Calls carried out on bytes", "statement": "Reads, writes, inserts, updates and deletes of any number of threads, carried out on the bytes of pages and delta records, return the encoded results of an execution on records; without merging these are linearizable, and no thread runs into undefined behaviour. The former contents of the memory handed out for pages and records make no difference.", "quantifier": "both layouts, all settings meeting the size conditions, all key and payload encodings whose byte comparison follows the key order, all numbers of threads, call lists and schedules, all former contents of memory", "why_tests_cant": "Offsets, lengths and fence keys are written by one thread and read by others, through consolidations and splits of every shape; stale bytes in recycled memory show only in some of them.", "anchors": ["include/bw_tree/bw_tree.hpp", "include/bw_tree/component/delta_chain.hpp", "include/bw_tree/component/fixlen/node.hpp", "include/bw_tree/component/varlen/node.hpp", "include/bw_tree/component/fixlen/delta_record.hpp", "include/bw_tree/component/varlen/delta_record.hpp"]}
{"id": "C55", "title": "Iterations and statistics carried out on bytes", "statement": "Threads that mix point calls, iterations (Scan, the iterator) and CollectStatisticalData, all carried out on the bytes of pages and delta records, get the encoded answers of an execution on records; without merging the records an iteration returns are those found in the tree while it moves along, every point call takes effect once, and no thread runs into undefined behaviour. What a thread's scan page held before makes no difference.", "quantifier": "both layouts, all settings meeting the size conditions, all key and payload encodings whose byte comparison follows the key order, all numbers of threads, request lists, bounds and schedules, all former contents of memory and of the scan pages", "why_tests_cant": "Each node is rebuilt in a page that still holds the previous node, while other threads split it; whether a stale offset or fence key shows up depends on the shapes of both nodes.", "anchors": ["include/bw_tree/bw_tree.hpp", "include/bw_tree/record_iterator.hpp", "include/bw_tree/component/delta_chain.hpp", "include/bw_tree/component/fixlen/node.hpp", "include/bw_tree/component/varlen/node.hpp"]}
{"id": "C56", "title": "Bulkload carried out on bytes", "statement": "Bulkload with fixed-length keys, carried out on the bytes of the pages it fills, links and cuts off, with any number of worker threads in any interleaving, meets no undefined behaviour, ends whenever Bulkload on records does, and leaves a tree in which later point calls and iterations of any threads, carried out on bytes as well, answer as on a map that holds exactly the loaded entries. What memory held before makes no difference.", "quantifier": "fixed-length layout, all settings meeting the size conditions, all key and payload encodings whose byte comparison follows the key order, all ascending non-empty entry lists, numbers of workers and interleavings, then (merging disabled) all threads, request lists and schedules; fewer than 2^64 page IDs", "why_tests_cant": "A page is filled from its end with a size that is only estimated beforehand, fence keys are copied between pages of different workers afterwards; which bytes are written twice or never depends on the number of entries, workers and levels.", "anchors": ["include/bw_tree/bw_tree.hpp", "include/bw_tree/component/fixlen/node.hpp"]}
{"id": "C57", "title": "Reused memory causes no ABA", "statement": "Point calls behave the same whether or not the memory of reclaimed pages and records is given out again: when the collector reclaims an object only after all calls in progress at its retirement have returned, a compare-and-swap that finds the expected pointer in a slot has found the very page the call saw, never a new one at the same place. So states and answers are those of a memory in which no place is ever used twice, and (merging disabled) linearizable. Waiting for calls in progress is needed: if places were reused at retirement, two inserts of one key could both succeed.", "quantifier": "all configurations, merging included, all numbers of threads, call lists, schedules, spurious failures and all assignments of places to objects that respect reclamation", "why_tests_cant": "An ABA failure needs a thread to stall between its load and its compare-and-swap while others retire the page, wait out the collector, allocate at the same place and link the result into the same slot; allocators and schedules decide whether that ever happens in a test.", "anchors": ["include/bw_tree/component/logical_ptr.hpp", "include/bw_tree/bw_tree.hpp"]}
{"id": "C58", "title": "Node merging carried out on bytes", "statement": "With node merging enabled, threads that mix point calls, iterations and statistics on a bulkloaded tree or on one that a single thread has built, all carried out on the bytes of pages and delta records (merge records, removed nodes and pages consolidated out of two nodes included), meet no undefined behaviour; every point call takes effect once on a map that holds exactly the entries of that tree at first, and the records an iteration returns are those found in the tree while it moves along. What memory held before makes no difference.", "quantifier": "fixed-length layout after Bulkload with any number of workers and interleaving; both layouts after any single-threaded program of calls and scans; fixed-length layout after any sequence of such programs and Bulkloads; all settings meeting the size conditions, all key and payload encodings whose byte comparison follows the key order, all threads, request lists and schedules; fewer than 2^64 page IDs", "why_tests_cant": "A page consolidated out of two nodes is copied from three places while other threads still read the old ones; which offsets and fence keys it takes over depends on the split, delete and merge records in both chains and on who is between them.", "anchors": ["include/bw_tree/bw_tree.hpp", "include/bw_tree/component/delta_chain.hpp", "include/bw_tree/component/fixlen/node.hpp", "include/bw_tree/component/fixlen/delta_record.hpp"]}
{"id": "C59", "title": "One thread on bytes", "statement": "A single thread that carries out reads, writes, inserts, updates, deletes and complete scans one after the other, on the bytes of pages and delta records, gets exactly the answers of a map, byte for byte, and meets no undefined behaviour, while nodes are split and merged and the root is split and removed. What memory held before makes no difference.", "quantifier": "both layouts, all settings meeting the size conditions, all key and payload encodings whose byte comparison follows the key order, all programs, all old contents of allocated memory; fewer than 2^64 page IDs", "why_tests_cant": "Which offsets, fence keys and page IDs a page ends up with depends on the whole history of splits, merges and root changes and on stale bytes in reused memory; a test sees a few histories on one allocator.", "anchors": ["include/bw_tree/bw_tree.hpp", "include/bw_tree/component/delta_chain.hpp", "include/bw_tree/component/fixlen/node.hpp", "include/bw_tree/component/varlen/node.hpp", "include/bw_tree/component/fixlen/delta_record.hpp", "include/bw_tree/component/varlen/delta_record.hpp"]}
{"id": "C60", "title": "The life of a tree on bytes", "statement": "A tree is filled by calls, bulkloaded while it already holds records, used by calls and scans, bulkloaded again, and so on. At every point of such a life a single-threaded program of calls and scans gets exactly the answers of the map the tree stands for, byte for byte: Bulkload replaces the contents by the given entries, calls change them one by one. Neither the programs nor the workers of a Bulkload, in any interleaving, meet undefined behaviour. What memory held before makes no difference.", "quantifier": "fixed-length layout, all settings meeting the size conditions, all key and payload encodings whose byte comparison follows the key order, all sequences of programs and Bulkloads, all numbers of workers and interleavings, all old contents of allocated memory; fewer than 2^64 page IDs", "why_tests_cant": "Pages made by Bulkload and pages made by consolidation mix in one tree, with sizes and offsets that depend on the whole history; a test sees a few histories on one allocator and one interleaving of the workers.", "anchors": ["include/bw_tree/bw_tree.hpp", "include/bw_tree/component/fixlen/node.hpp", "include/bw_tree/component/fixlen/delta_record.hpp"]}
{"id": "C61", "title": "An iterator kept open between calls of its own thread", "statement": "A thread alone on the tree opens an iterator and calls Read, Write, Insert, Update and Delete between the steps of the iteration. Leaves may split and merge and the root may change under the open iterator. The calls answer like the map. The iterator returns keys in ascending order, each at most once. A key that no call changes before it is returned is returned exactly if the tree held it when the iterator was opened, with its value of that time. Nothing runs into undefined behaviour, and every request ends.", "quantifier": "both layouts, all settings meeting the size conditions, all sequences of calls, openings, steps and statistics from a new tree; fixed-length layout after any sequence of programs and Bulkloads; an excluded begin key itself may also be returned (C13)", "why_tests_cant": "Whether a split, a merge or a root change falls between two given steps of the iterator depends on the whole history of the tree; a test tries a few positions.", "anchors": ["include/bw_tree/bw_tree.hpp", "include/bw_tree/component/record_iterator.hpp"]}
{"id": "C62", "title": "An open iterator on bytes", "statement": "The thread of C61 works on trees laid out in bytes, in either layout. It calls, opens iterators, moves them and collects statistics in any order, while nodes split and merge and the root changes. Every answer is, byte for byte, one that C61 allows: calls answer like the map, the keys of an iterator ascend, and a key that no call changes before it is returned is returned exactly if it was there when the iterator was opened. No request runs into undefined behaviour, and what memory held before makes no difference.", "quantifier": "both layouts from a new tree; fixed-length layout at any time of a life of programs and Bulkloads; all settings meeting the size conditions, all key and payload encodings whose byte comparison follows the key order, all sequences of requests, all old contents of memory and of the iterator's page buffer; fewer than 2^64 page IDs", "why_tests_cant": "The iterator's page is a private copy whose offsets depend on the leaf at one moment, read on while the tree changes; a test tries a few moments and one allocator.", "anchors": ["include/bw_tree/bw_tree.hpp", "include/bw_tree/component/record_iterator.hpp", "include/bw_tree/component/fixlen/node.hpp", "include/bw_tree/component/varlen/node.hpp"]}
{"id": "C63", "title": "The end of a scan and the variable that holds it", "statement": "Scan takes the end key of the interval by reference and the iterator keeps the reference. A scan that is iterated to its end returns exactly the records of the interval if the variable keeps its value until then. If the caller assigns to the variable, which must stay alive, there is still no undefined behaviour, the tree stays as it is, keys ascend, every record returned is in the tree and not beyond the largest value of the variable, and a scan iterated to its end has returned every record up to its smallest value.", "quantifier": "all settings meeting the size conditions, both layouts; all sequences of calls before the scan, and for fixed-length nodes all lives of programs and Bulkloads; all intervals; all values of the variable at every call of HasRecord; any number of rounds; no other thread at work; the variable does not change during a call of HasRecord; an excluded begin key itself may also be returned (C13)", "why_tests_cant": "Tests pass end keys that stay alive and unchanged, and whether a change shows depends on where page borders lie at the moment of the assignment.", "anchors": ["include/bw_tree/bw_tree.hpp", "include/bw_tree/component/record_iterator.hpp", "include/bw_tree/component/varlen/node.hpp", "include/bw_tree/component/fixlen/node.hpp"]}
{"id": "C64", "title": "Assigning a new scan to an iterator variable", "statement": "After it = index.Scan(b, e) the iterator returns exactly the records of the new interval of index, in ascending order, whatever it was used for before.", "quantifier": "all settings meeting the size conditions, both layouts; all sequences of calls before, and for fixed-length nodes all lives of programs and Bulkloads; all old and new intervals, the old iterator at any point; no other thread at work", "why_tests_cant": "The tests make a new iterator for every scan. An assignment goes wrong only if the new interval spans several pages and the end keys (or the indexes) differ.", "anchors": ["include/bw_tree/component/record_iterator.hpp:99-109", "include/bw_tree/component/record_iterator.hpp:167-180", "include/bw_tree/bw_tree.hpp:206-242", "include/bw_tree/bw_tree.hpp:1124-1141"]}
