# Formal model of dbgroup-nagoya-u/bw-tree in Rocq (Coq 8.16.1)

Source: /repo (header-only C++).  Model and proofs: `rocq/theories`.  Library: the
Coq standard library only (`lia`, `List`, `ZArith`, `NArith`).

## 1. What is modelled and how

| File | Models |
|---|---|
| `Config.v` | compile-time constants; one record `cfg` covers both layouts, all sizes are parameters |
| `Api.v` | the point operations and their results |
| `Page.v` | base nodes, delta records, delta chains; `DeltaChain::*`, node binary searches, `Consolidate`, `CopyRecordFrom`, `CopyLowKeyFrom`/`CopyHighKeyFrom`, node sizes |
| `Machine.v` | shared memory (mapping-table slots, root word, payload cells of index-delete deltas), programs with one constructor per atomic access, sequential runner, undefined behaviour as an outcome |
| `Tree.v` | every function of `bw_tree.hpp` used by Read/Write/Insert/Update/Delete, incl. consolidation, split, root split, merge, root removal |
| `Scan.v` | `Scan`, `SiblingScan`, `ConsolidateForScan`, `RecordIterator`, statistics walk (the row of the mapping table appended at bw_tree.hpp:568 is in `MapTable.v`) |
| `Bulk.v` | `Bulkload` and helpers, both layouts; its worker threads in a fixed order and in any interleaving |
| `Conc.v` | any number of client threads, arbitrary interleaving of atomic accesses, spurious failure of weak CAS |
| `Spec.v` | the specification: map semantics of the calls, linearizability |
| `MapTable.v` | `MappingTable`: ID counter, rows, tables, destructor, with its own thread interleaving |
| `FixLayout.v`, `VarLayout.v` | byte layout of pages and delta records, metadata |
| `Misc.v` | `CompareAsCString`, `Log2` |
| `Client.v` | threads that mix point calls, an iteration over a scan and collections of statistics, arbitrary interleaving |
| `Weak.v` | the programs of `Tree.v` over a memory with release, acquire and relaxed accesses (time-stamped messages and views, as in promising semantics without promises) |
| `Reassign.v` | assigning a new scan to an iterator variable, of the same or of another index |
| `EndVar.v` | scans whose end key is read from a variable of the caller at each call of HasRecord |
| `KeyBuf.v`, `KeyBufScan.v` | point calls and scans whose key arguments are the buffer of `Node::GetKey` |
| `ByteSearch.v` | `SearchRecord` on the bytes of a page, both layouts |
| `DeltaBytes.v` | constructors and accessors of delta records on bytes, both layouts |
| `ByteCons.v` | `Sort`, `TryConsolidate` and `Consolidate` on bytes, both layouts |
| `ByteFind.v` | searches in delta chains of bytes (`SearchRecord`, `SearchChildNode`, `SearchForMerge`, `Validate`, `SearchChild`), both layouts |
| `ByteTree.v` | the whole of Tree.v (point operations, consolidation, splits, merges) and the threads of Conc.v over pages and records of bytes, both layouts; the header fields `is_inner_`, `next_`, `rec_count_`, `node_size_` stay plain fields, and the child of an index-entry delete stays a separate word |
| `ByteScan.v` | the whole of Scan.v (scans, iterator, statistics) and the threads of Client.v over pages and records of bytes, both layouts; a scan rebuilds nodes on top of what the thread's page held before |
| `ByteBulk.v` | the whole of Bulk.v (filling pages, linking neighbours, the descent between partial trees, cutting the leftmost low keys, the workers and the calling thread) over pages of bytes, fixed-length layout |
| `ByteSeq.v` | a single thread that carries out a list of calls and complete scans over ByteTree.v and ByteScan.v, both layouts |
| `Reuse.v` | the threads of Conc.v with compare-and-swap on places in memory that objects use one after the other |
| `Race.v` | threads that run scans or parts of calls next to point calls (refutations only) |

Specifications (no model helpers beyond the data types): `Spec.v`, `ChainSpec.v`,
`SeqSpec.v`, `ScanSpec.v`, `Serve.v`, `ByteServe.v` (one thread with an open iterator), `EndVarSpec.v`, `ReassignSpec.v`, `LayoutSpec.v`, `ConcSpec.v`, `StatSpec.v`, `EpochSpec.v`, `KEpochSpec.v`,
`ClientSpec.v`, `HistSpec.v`, `MrgSpec.v`, `BulkSpec.v`, `ShapeSpec.v`,
`ByteConsSpec.v`, `ByteFindSpec.v`, `ByteTreeSpec.v`, `ByteScanSpec.v`, `ByteMrgSpec.v`, `ByteSeqSpec.v`, `ByteLifeSpec.v` (when bytes stand for a page, record or chain),
`ReuseSpec.v` (when a place may be used again).  Property theorems with their
concrete cases: `PropChain.v`, `PropSeq.v`, `PropScan.v`, `PropMap.v`, `PropLayout.v`,
`PropTree.v`, `PropBulk.v`, `PropStat.v`, `PropConc.v`,
`PropEpoch.v`, `PropClient.v`, `PropLive.v`, `PropWeak.v`,
`PropKeys.v`, `PropWidth.v`, `PropHist.v`, `PropMerge.v`, `PropFuel.v`, `PropLoad.v`,
`PropStatConc.v`, `PropShape.v`, `PropBytes.v`, `PropFind.v`, `PropKEpoch.v`,
`PropByteTree.v`, `PropByteScan.v`, `PropByteBulk.v`, `PropByteMrg.v`,
`PropByteSeq.v`, `PropByteLife.v`, `PropReuse.v`, `PropServe.v`, `PropByteServe.v`, `PropBulkFit.v`, `PropEndVar.v`, `PropKeyScan.v`, `PropReassign.v`, `PropLifeGc.v`.  All other files contain proofs.

Concurrent proofs: `ConcInv.v` defines ghost state, the global invariant, what a thread
may rely on, and weakest preconditions of programs under interference; `ConcSteps.v`
has one lemma per kind of shared-memory step; `ConcSearch.v`, `ConcSmo.v`, `ConcOps.v`
verify the functions of `Tree.v`; `ConcMain.v` lifts this to executions.
`CountFacts.v` (chain lengths) needs no invariant and covers merging.  `MrgInv.v`,
`MrgSteps.v`, `MrgSearch.v`, `MrgSmo.v`, `MrgOps.v`, `MrgStart.v`, `MrgMain.v`, `MrgClient.v` (iterators) have the
same structure for executions with merging in which the root stays in place: a node has
a level, a key interval and a state (live, removal announced, removed, merged).
`FuelFacts.v`: more fuel never changes an outcome.  `BulkPar.v`: interleaved workers of
Bulkload; `ConcStart.v`: the invariant of `ConcInv.v` in a tree of base pages;
`BulkConc.v`: both concurrent proofs started from a bulk-loaded tree; `BulkGc.v`: memory;
`LifeGc.v`: the ownership invariant of `GcFacts.v` after any sequence of programs and Bulkloads.

Modelling decisions

* Keys are integers.  The code only compares keys with `Comp`; every execution uses
  finitely many keys and any strict total order on finitely many keys embeds in Z.
  In the variable-length layout the byte length of a key is an arbitrary function.
* Published records are never written again, except the payload word of an
  index-delete delta, which is a separate memory cell.  Hence a chain is a value and
  a CAS compares the address of its head.  Addresses are fresh at every allocation.
  C57 justifies this for point calls: with places that are used again as the collector
  allows (`placed`, ReuseSpec.v) every execution is the same.  The epoch-based collector
  itself (an external library absent from /repo) is *trusted* to reclaim a retired object
  only when all guards that existed at its retirement are gone.  The contents of reused
  memory are not modelled in C57 (a chain stays a value, a payload cell belongs to its
  record): that nobody reads an object after its reclamation is C35.
* Memory is sequentially consistent in all theorems except those of C38.  `Weak.v`
  models the memory orders of the code for mapping-table slots, `root_` and payload
  cells; it has no load buffering (a load never reads from a later store) and leaves
  out the words of the mapping table itself.  C38 shows that these orders do not
  suffice, so the other theorems hold of executions that look sequentially consistent,
  for example on hardware with total store order.
* Loops and recursion take a fuel argument; running out is the explicit outcome
  `Fuel`/`NoFuel`, distinct from any result.  Safety theorems hold for every fuel;
  sequential theorems say that enough fuel exists (termination), and that less fuel
  leads to no other outcome (`PropFuel.v`).
* Undefined behaviour (`UB`): null or unallocated page, `back()` on an empty stack,
  position outside a page, page or array overflow, empty right half of a split,
  delta taken for a page of another kind, payload of a leaf page taken for a page ID and
  page ID of an inner page taken for a payload (the sizes of the two may differ).
* Header fields are unbounded integers in the model; C42 proves the bounds under which this
  is the same as the 16-bit `rec_count_` and the 32-bit `node_size_` (without concurrent
  merging also that sizes do not go below zero).  The widths of the metadata words are
  modelled in `VarLayout.v`.
* `tls_node` and `tls_delta_page_` (reuse of never-published pages) are modelled as
  fresh allocations; C57 allows them to share places.
* For `char*` keys each accessor function copies into its own thread-local buffer.  Inside
  the library one key is used after its buffer was overwritten: `sib_key` of
  TryDeleteIndexEntry, modelled by `sib_after` (field `c_ptr`); every other internal use
  was read and ends before the next copy, so there keys are values.  Key arguments that
  are the buffer of `Node::GetKey` (as returned by iterators) are modelled in `KeyBuf.v`
  for the point calls and in `KeyBufScan.v` for scan bounds (there the content of the
  buffer after a page was rebuilt is left open: a parameter).  Missing terminators: `ByteSearch.v`.
* `ScanKey` holds its key by reference.  `Scan.v` (and C12, C36, C46, C55, C61, C62) keep the
  end key of the call, which is right if the caller leaves the variable alone; `EndVar.v`
  models assignments to it, for a thread that is alone on the tree.
* `CopyLowKeyFrom` of an empty variable-length page reads `meta_array_[-1]`, which is
  `high_meta_` with its initial value; modelled as reading the page end.

Not modelled: epoch GC and memory allocator internals, `std::thread` start-up,
sleeping, alignment/cache effects, CMake options other than the constants.

## 2. Trusted base

Coq's kernel; the C++-to-model reading documented by the comments citing /repo lines;
`Print Assumptions` of every property theorem (printed during the build) lists
"Closed under the global context" unless stated in section 4.

## 3. Plan per property

| Id | Model | Proof |
|---|---|---|
| C01 | `run_calls` from `init` | tree invariant (level structure, chains, sizes) preserved by each call, incl. recursive SMOs; refinement to `spec_run`; termination by measure |
| C02 | one call on a reachable state | by the program text: failing calls perform no Store/CAS |
| C03, C04 | `dc_sort`, `consolidate`, `dc_search_record` | induction on chains; abstract content of a chain |
| C05 | `bsearch`, `node_search`, `node_search_child` | loop invariant |
| C06 | `consolidate … split` | induction over the merge, size bounds |
| C07 | `fits` checks are UB outcomes | part of the invariant of C01/C09; published pages fit in all executions (PageFacts.v), after Bulkloads as well in the fixed-length layout (BulkFit.v); refuted instances for extreme key sizes and varlen bulkload |
| C08 | `c_maxd` check is UB | invariant on `d_cnt` under all schedules |
| C09, C11, C27, C33 | `exec` with `c_min < c_hdr` | rely/guarantee over programs: global invariant kept by every atomic step, ghost map, linearization points |
| C10, C28, C29 | `exec` with the default configuration | refuted by concrete schedules; positive parts where possible |
| C12 | `scan_all` | induction along leaves, from the invariant of C01 |
| C13, C14 | `scan_all`, two iterators on one page | refuted by concrete runs; positive parts |
| C15, C16, C17 | `op_bulkload`, `partition` | `BulkFacts.v`: layer by layer, alignment of the parts, result is a tree as in C01; C17 refuted for large keys, C15 refuted in the variable-length layout |
| C18–C21 | `MapTable.v` | invariant over interleavings; C20, C21 refuted |
| C22–C25 | `FixLayout.v`, `VarLayout.v` | arithmetic and read-over-write lemmas; C22 varlen refuted for some sizes |
| C26, C34 | `Misc.v` | induction on strings / well-founded recursion |
| C30 | `kexec`, `kmay_free` (KEpochSpec.v) | refuted: `HasRecord` reloads pages without a guard; the invariant of C31 for clients that scan and collect statistics (KGcFacts.v) |
| C31 | `s_gc` and the addresses in mapping-table slots | ownership invariant on addresses (GcFacts.v), all configurations, merging included |
| C35 | `exec`, `may_free` | from C31 over all prefixes of the schedule (EpochFacts.v) |
| C36 | `kexec` with `c_min < c_hdr` | the invariant of C09; iterators read leaves at instants of a log of maps (ClientFacts.v) |
| C37 | `exec` then one call alone | refuted by a schedule of two root splits: a set of inner pages that a search never leaves (LiveFacts.v); sequential calls return |
| C38 | `wexec` | refuted by a reader that sees the new `root_` and an old slot; with release/acquire accesses a thread's view covers every ID it has read (WeakInit.v); simulation of `exec` (WeakFacts.v) |
| C39 | `s_gc` and mapping-table slots at two points of an execution | the invariant of C31 read backwards: every unlinked page is in the hands of a running call (GcFacts.v) |
| C40 | `call_r` (KeyBuf.v), `scan_all_r` (KeyBufScan.v) | with own memory equal to the ordinary calls by simulation; refuted for the iterator's buffer |
| C41 | `fix_search`, `var_search` on bytes (ByteSearch.v) | C24, C25 and a generic binary search; refuted for keys without NUL |
| C42 | `h_cnt`, `h_size`, `n_size`, `n_recs` of published chains | counting argument over all programs (WidthFacts.v); exactness from the invariants of C09 and C01 |
| C43, C44 | histories of `exec`, final state | refuted by schedules built on C29; with merging disabled from C11, with merging below a standing root from C45, by induction on histories (HistFacts.v) |
| C45, C10 positive | `exec` with merging, `root_stays` (MrgSpec.v) | second rely/guarantee proof with removed and merging nodes in the ghost state (Mrg*.v), started from the tree of C01 (MrgStart.v) |
| C46, C28 positive | `kexec` with merging, `kroot_stays` | the invariant of C45; iterators as in C36 (MrgClient.v); needs a begin key or two levels, refuted otherwise |
| C47 | `work`, `bulk_join`, then `exec` or `kexec` | every worker's new pages are private to it (BulkPar.v); the result meets the starting conditions of C09, C36, C45 and C46 (BulkConc.v) |
| C48 | `bulk_adds`, `gc_adds`, then `exec` | refuted: the head of the old root's chain is registered as a page; the ownership invariant of C31 started from a bulk-loaded tree (BulkGc.v) |
| C49 | `kexec` with `QStat` | refuted: a program that only loads and has a removed page among its children never returns (StatRace.v); the invariants of C36 and C46 extended to collections |
| C50, C42 with merging | `linked` pages of a state (ShapeSpec.v) | refuted with the state of C37; levels and sizes from the invariant of C45 (MrgShape.v) |
| C51 | `vard_*`, `fixd_*` (DeltaBytes.v) | read-over-write lemmas |
| C52 | `var_try`, `fix_try` (ByteCons.v) | simulation of `consolidate` of Page.v by the byte loop (ByteConsFacts.v), C24/C25 for the copied records, C03/C04/C06 for the contents |
| C53 | `b_read`, `b_descend` (ByteFind.v) | simulation of the searches of Page.v (ByteFindFacts.v), then C03-C05; the bytes of C51/C52 qualify (ByteFindRep.v) |
| C54 | `bexec` (ByteTree.v) | step-by-step simulation of Tree.v by ByteTree.v (`prel`, ByteTreeSim.v, ByteTreeMain.v) on top of C51-C53; executions without merging meet its side conditions (ByteTreeConc.v), then C09 |
| C55 | `bkexec` (ByteScan.v) | the simulation of C54 extended to Scan.v and Client.v (ByteScanSim.v); executions without merging meet its side conditions (ByteScanConc.v), then C36 |
| C56 | `xbulkloaded`, `xwork` (ByteBulk.v) | a simulation of Bulk.v page by page (ByteBulkSim.v) carried through any interleaving of the workers (ByteBulkMain.v); then the client simulation of C55 from the loaded state and C47 |
| C57 | `exec_at` (Reuse.v), `placed` (ReuseSpec.v) | what a call compares it has loaded or published during the call (ghost state of C31, `grows`), so it is not reclaimed (C35) and what is linked is not retired (C31); hence places identify objects (ReuseFacts.v) |
| C58 | `bkexec` from `xbulkloaded` | the record and byte executions run side by side (ByteMrgMain.v): the byte memory follows each step, so the root stays in place on records too, so the invariant of C46 holds (MrgClient.v) and what the thread meets is sane (ByteMrg.v), so the simulation of C55 goes on |
| C59 | `xrun_items` (ByteSeq.v) | every step of a single thread on records is sane for the simulation of C54 and C55 (`calm`, `evs` in RunFacts.v, carried through SeqSearch.v to SeqScan.v), so the byte run follows the record run (ByteSeqMain.v), then C01 and C06; the tree left behind is where the C58 theorems `…_after_partial` start |
| C60 | `xlived` (ByteLifeSpec.v): any sequence of `xrun_items` and `xbulkloaded` from `xinit` | the proofs of C59 and C56 start from any tree (`from_bytes` in ByteSeqMain.v, `load_bytes` in ByteBulkMain.v); the pages of consolidation obey the size invariant of Bulkload's pages (ByteRoom.v); every address in the table was handed out before (AddrFacts.v); so the life on bytes follows the life on records (ByteLifeMain.v); clients on such a tree: `C58_fixlen_life_partial` |
| C61 | `serve` (Serve.v): the requests of one client (Client.v) one after the other, from the new tree or from a `lived` one | a call in a quiescent tree leaves a quiescent tree whose leaves cover the old ones (`moves`, `call_moves` in SeqOps.v); so the link the iterator holds still leads to the leaf of its fence, or the iterator finds the page removed and searches again (SeqCursor.v); each request keeps `at_rest` (ServeMain.v); `scan_ok` explains the records by the maps since the opening (ServeFacts.v) |
| C62 | `xserve` (ByteServe.v): the requests of ByteScan.v one after the other, from `xinit` or from an `xlived` state | every step of `serve` is sane (`calm_serve` in ServeMain.v), so the requests on bytes follow those on records (`req_sim` of C55, ByteServeMain.v), then C61 |
| C63 | `scan_var` (EndVar.v): Scan, then HasRecord with the end key replaced by the value of the variable | the pages read so far are cut at an earlier value and the next ones at the present one (`has_var`, EndVarFacts.v), from the single steps of C61; refuted: the interval is fixed by the call |
| C64 | `scan_again`, `scan_other` (Reassign.v) | the first page is cut at the new end bound and the others at the old one (`has_going`, ReassignFacts.v); refuted for different bounds and for two indexes |
| C32 | `op_stats`, mapping-table statistics | from the invariant of C01, walking the levels (StatFacts.v), after Bulkloads as well (BulkFit.v); arithmetic |

A property whose full statement is false of the code gets a theorem `…_refuted` with a
witness, and a `_partial` theorem for what does hold.

## 4. Assumptions reported by `Print Assumptions`

Every theorem of the `Prop*.v` files: "Closed under the global context" (no axioms,
standard library axioms included).
`coqchk`'s summary of the whole context also names the seven `Coq.ssr.ssrunder` constants
of a library module that Stdlib loads; no theorem here depends on them.

## 5. Hypotheses on settings

* `cfg_ok` (`Valid.v`): positive key lengths up to the maximum, threshold between 1 and
  the maximum number of deltas, and a page that holds, in each half, the largest record,
  a header and two key overheads.  True of the default settings; the static assertion of
  bw_tree.hpp:1683 alone is weaker (see C17).
* `hdr_ok` (`ConcChain.v`): one index record is no larger than two headers plus the key
  overhead.  True of both header layouts for every key size.
* `no_merge` (`Valid.v`): kMinNodeSize below the header size, so that no node is merged.
* `bulk_ok` (`Valid.v`): one leaf record and two index entries fit into the bulk-loading
  capacity.  Used for Bulkload in the fixed-length layout.
* Layout theorems: page size below 64 KiB; mapping-table theorems: page size a power of
  two.

## 6. Wrong programs

`seeded/LOG.jsonl` has one line per edit of the model that was tried in a scratch copy.
A theorem listed as failed is one whose proof no longer goes through after the edit (its
file, or a file it needs, does not compile).  That alone is not a refutation of the
theorem; the entry's claim says in words what the edit breaks.  Edits that let every
theorem pass led to a tightened theorem or to a new property, named in the entry.
