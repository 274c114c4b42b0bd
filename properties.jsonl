{"id": "C01", "title": "Single-layer trees with the fixed-length layout behave as an ordered map", "statement": "For BTreePSL/BTreeOSL with the fixed-length node layout: starting from an empty tree, every finite sequence of Read, Write, Insert, Update and Delete calls made by one thread terminates and every call returns exactly what the same sequence of calls on a plain key->payload map returns.", "quantifier": "all call sequences, all keys and payloads, all strict total orders used as comparator, all page/key/payload sizes that satisfy the stated size condition", "why_tests_cant": "tests run a few fixed sequences; splits, merges and root changes at all levels interact in unboundedly many ways", "anchors": ["include/b_tree/component/psl/b_tree.hpp: Read, Write, Insert, Update, Delete, CompleteSplit, Merge, TryShrinkTree", "include/b_tree/component/osl/b_tree.hpp", "include/b_tree/component/psl/node_fixlen.hpp", "include/b_tree/component/osl/node_fixlen.hpp"]}
{"id": "C02", "title": "Multi-layer trees with the fixed-length layout behave as an ordered map", "statement": "For BTreePML/BTreeOML with the fixed-length node layout: starting from an empty tree, every finite sequence of Read, Write, Insert, Update and Delete calls made by one thread terminates and every call returns exactly what the same calls on a plain key->payload map return.", "quantifier": "all call sequences, keys, payloads, strict total orders, admissible sizes", "why_tests_cant": "eager top-down splits and merges happen on every write path; no finite suite covers all node shapes at all levels", "anchors": ["include/b_tree/component/pml/b_tree.hpp: SearchLeafNodeForWrite, Split, Merge, RootSplit, ShrinkTreeIfNeeded", "include/b_tree/component/oml/b_tree.hpp", "include/b_tree/component/pml/node_fixlen.hpp", "include/b_tree/component/oml/node_fixlen.hpp"]}
{"id": "C03", "title": "Single-layer trees with the variable-length layout behave as an ordered map", "statement": "As C01, for BTreePSL/BTreeOSL with the variable-length node layout (records with metadata, tombstones and clean-up).", "quantifier": "all call sequences, all keys of any length up to the configured maximum, payloads, orders, admissible sizes", "why_tests_cant": "record sizes differ, so page occupancy after tombstones, reuse, clean-up, split and merge cannot be enumerated", "anchors": ["include/b_tree/component/psl/node_varlen.hpp", "include/b_tree/component/osl/node_varlen.hpp", "include/b_tree/component/psl/b_tree.hpp", "include/b_tree/component/osl/b_tree.hpp"]}
{"id": "C04", "title": "Multi-layer trees with the variable-length layout behave as an ordered map", "statement": "As C02, for BTreePML/BTreeOML with the variable-length node layout.", "quantifier": "all call sequences, keys of any admissible length, payloads, orders, admissible sizes", "why_tests_cant": "same as C03 with eager top-down structure modifications", "anchors": ["include/b_tree/component/pml/node_varlen.hpp", "include/b_tree/component/oml/node_varlen.hpp", "include/b_tree/component/pml/b_tree.hpp", "include/b_tree/component/oml/b_tree.hpp"]}
{"id": "C05", "title": "Scan returns exactly the records in range, in ascending key order", "statement": "A Scan made by one thread after any sequence of calls, run to its end, yields exactly the key/payload pairs of the abstract map whose keys lie in the requested range, each once, in strictly ascending key order.", "quantifier": "all reachable trees, all begin/end bounds (absent, open or closed, below, above or between stored keys, empty or inverted ranges)", "why_tests_cant": "the iterator crosses leaf boundaries, skips tombstones and empty leaves; the number of boundary positions is unbounded", "anchors": ["include/b_tree/component/record_iterator.hpp: HasRecord", "include/b_tree/component/optimistic_record_iterator.hpp: HasRecord, ResetIterator", "include/b_tree/component/psl/b_tree.hpp: Scan", "include/b_tree/component/pml/b_tree.hpp: Scan", "include/b_tree/component/psl/node_fixlen.hpp: SearchEndPositionFor, IsRightmostOf"]}
{"id": "C06", "title": "Scan bounds are honoured: open excludes, closed includes", "statement": "A begin (end) key given as closed is returned by the scan iff it is stored and lies within the other bound; given as open it is never returned; no key below begin or above end is ever returned.", "quantifier": "all reachable trees, all pairs of bounds", "why_tests_cant": "bound keys may fall on any record, leaf boundary, tombstone or gap", "anchors": ["include/b_tree/component/psl/b_tree.hpp: Scan", "include/b_tree/component/psl/node_fixlen.hpp: SearchEndPositionFor", "include/b_tree/component/optimistic_record_iterator.hpp: ResetIterator"]}
{"id": "C07", "title": "Return codes tell the truth and failed calls change nothing", "statement": "Insert returns kKeyExist iff the key is present and then leaves the map unchanged; Update and Delete return kKeyNotExist iff the key is absent and then leave the map unchanged; Write always returns kSuccess; a successful call changes only its own key.", "quantifier": "all reachable trees, all keys and payloads", "why_tests_cant": "an SMO performed on the way to a failing call could disturb other keys; only a proof over all reachable shapes excludes it", "anchors": ["include/b_tree/component/psl/b_tree.hpp: Insert, Update, Delete", "include/b_tree/component/pml/b_tree.hpp: Insert, Update, Delete", "include/b_tree/b_tree.hpp"]}
{"id": "C08", "title": "No page ever overflows and no call reads outside valid records", "statement": "In every reachable tree each page's key/metadata area, record area and header fit in the page without overlapping, and no call ever reads a byte range that does not hold a key, payload, metadata entry or child pointer written there before, and never dereferences a null or dangling node pointer.", "quantifier": "all call sequences, sizes satisfying the stated condition", "why_tests_cant": "overflow needs a specific combination of record sizes, dead space, merge and insert; sanitizers only see the executions run", "anchors": ["include/b_tree/component/psl/node_fixlen.hpp: InsertRecord, Split, Merge", "include/b_tree/component/psl/node_varlen.hpp: NeedSplit, CleanUpIfNeeded, Split, Merge", "include/b_tree/component/pml/node_varlen.hpp: NeedSplit", "include/b_tree/component/pml/b_tree.hpp: SearchLeafNodeForWrite"]}
{"id": "C09", "title": "The compile-time size check suffices for safety", "statement": "Every configuration accepted by the static_assert (room for two maximal records) is safe: no sequence of calls loses a record or overflows a page, with the default tuning parameters and keys of any length up to the declared maximum.", "quantifier": "all configurations accepted at compile time, all call sequences", "why_tests_cant": "tests use two or three key/payload types", "anchors": ["include/b_tree/component/psl/b_tree.hpp: static_assert(2 * kMaxRecLen <= kMinBlockSize)", "include/b_tree/component/pml/b_tree.hpp: static_assert", "include/b_tree/utility.hpp: kMinFreeSpaceSize, kMaxVarLenDataSize"]}
{"id": "C10", "title": "Bulkload with one thread stores exactly the given entries", "statement": "After Bulkload(entries, 1) of a strictly sorted non-empty sequence whose leaves do not fit in one page, the tree contains exactly the entries; Read, Scan and all later calls behave as on the map built from the entries.", "quantifier": "all strictly sorted entry sequences of any length, all admissible sizes", "why_tests_cant": "layer construction depends on entry count relative to node capacities at every level", "anchors": ["include/b_tree/component/psl/b_tree.hpp: Bulkload, BulkloadWithSingleThread, ConstructSingleLayer", "include/b_tree/component/psl/node_fixlen.hpp: Bulkload, LinkNext, RemoveLeftmostKeys"]}
{"id": "C11", "title": "Bulkload gives the same contents for every thread count", "statement": "For every thread_num, Bulkload(entries, thread_num) gives a tree with the same contents as with one thread; the per-thread slices are disjoint, in order and cover all entries.", "quantifier": "all strictly sorted entry sequences too large for one leaf, all thread counts (including 0 and more threads than entries); smaller sequences: all thread counts from 2 to the number of entries (the rest is C12)", "why_tests_cant": "slice sizes, partial-tree heights and border links depend on n, t and capacities", "anchors": ["include/b_tree/component/psl/b_tree.hpp: Bulkload", "include/b_tree/component/psl/node_fixlen.hpp: LinkVerticalBorderNodes", "include/b_tree/component/pml/b_tree.hpp: Bulkload"]}
{"id": "C12", "title": "Bulkload works for any number of entries, including few", "statement": "Bulkload of any non-empty sorted sequence, however short, completes without undefined behaviour and stores exactly the entries.", "quantifier": "all entry counts >= 1", "why_tests_cant": "the unit tests only bulkload large inputs; the single-leaf case takes a different path", "anchors": ["include/b_tree/component/psl/node_fixlen.hpp: RemoveLeftmostKeys", "include/b_tree/component/pml/node_fixlen.hpp: RemoveLeftmostKeys", "include/b_tree/component/pml/node_varlen.hpp: RemoveLeftmostKeys", "include/b_tree/component/psl/node_varlen.hpp: RemoveLeftmostKeys"]}
{"id": "C13", "title": "Destroying a tree releases every node exactly once", "statement": "The destructor releases every node reachable in the tree exactly once and no node twice.", "quantifier": "all reachable trees", "why_tests_cant": "a leak or double free depends on the history of splits and merges", "anchors": ["include/b_tree/component/psl/b_tree.hpp: DeleteChildren, ~BTree", "include/b_tree/component/pml/b_tree.hpp: DeleteChildren, ~BTree"]}
{"id": "C14", "title": "Statistics count every node once per level", "statement": "CollectStatisticalData returns one entry per level, whose node count is the number of nodes of the tree on that level, whose virtual usage is that count times the page size, and whose actual usage never exceeds the virtual usage.", "quantifier": "all reachable trees", "why_tests_cant": "needs every tree shape", "anchors": ["include/b_tree/component/psl/b_tree.hpp: CollectStatisticalData", "include/b_tree/component/psl/node_fixlen.hpp: GetNodeUsage"]}
{"id": "C15", "title": "All leaves are at the same depth and every node is reachable from the root", "statement": "In every reachable tree all leaves are at the same distance from the root and the leaf chain visits every leaf exactly once from left to right.", "quantifier": "all reachable trees", "why_tests_cant": "balance after arbitrary mixes of splits, merges and root shrinking", "anchors": ["include/b_tree/component/psl/b_tree.hpp: CompleteSplit, TryRootSplit, TryShrinkTree", "include/b_tree/component/pml/b_tree.hpp: RootSplit, ShrinkTreeIfNeeded"]}
{"id": "C16", "title": "Concurrent operations on single-layer trees are linearizable", "statement": "For BTreePSL/BTreeOSL and any number of threads: every history of completed Read/Write/Insert/Update/Delete calls is linearizable, i.e. there is a total order of the calls, consistent with real time, in which every call returns what the sequential map returns.", "quantifier": "all schedules of all numbers of threads, all programs of calls", "why_tests_cant": "interleavings are unbounded; stress tests sample a vanishing fraction", "anchors": ["include/b_tree/component/psl/b_tree.hpp", "include/b_tree/component/osl/b_tree.hpp", "include/b_tree/component/psl/node_fixlen.hpp: CheckKeyRangeAndLockForRead, CheckKeyRangeAndLockForWrite, Split, Merge"]}
{"id": "C17", "title": "A separator is installed for the node it was made for", "statement": "In single-layer trees, after a split completes in the parent, the separator the parent stores for the new right node is the smallest key that node is responsible for, so no later lookup is routed to a node that is not responsible for its key.", "quantifier": "all schedules", "why_tests_cant": "requires a second thread to touch the split node in a window of a few instructions", "anchors": ["include/b_tree/component/psl/b_tree.hpp: Write, Insert, CompleteSplit (GetSeparatorKey after the latch was released)", "include/b_tree/component/osl/b_tree.hpp"]}
{"id": "C18", "title": "Concurrent operations on multi-layer trees are linearizable", "statement": "For BTreePML and any number of threads: every history of completed Read/Write/Insert/Update/Delete calls is linearizable.", "quantifier": "all schedules of all numbers of threads", "why_tests_cant": "as C16", "anchors": ["include/b_tree/component/pml/b_tree.hpp: GetRootForRead, GetRootForWrite, SearchLeafNodeForRead, SearchLeafNodeForWrite", "include/b_tree/component/pml/node_fixlen.hpp: GetChildForRead, Split, Merge"]}
{"id": "C19", "title": "Pessimistic multi-layer trees never deadlock", "statement": "With BTreePML no reachable state has a set of threads that wait for each other's latches: whenever some call is in progress and not yet returned, some thread can take a step.", "quantifier": "all schedules of all numbers of threads running point operations", "why_tests_cant": "deadlocks depend on rare interleavings", "anchors": ["include/b_tree/component/pml/b_tree.hpp", "include/b_tree/component/pml/node_fixlen.hpp"]}
{"id": "C20", "title": "Pages are never released while another thread may still read them", "statement": "In BTreePML no page is released while a thread holds a latch on it or will dereference it.", "quantifier": "all schedules", "why_tests_cant": "use-after-free window is a few instructions wide", "anchors": ["include/b_tree/component/pml/b_tree.hpp: ShrinkTreeIfNeeded, Merge"]}
{"id": "C21", "title": "Single-layer trees never deadlock", "statement": "With BTreePSL no reachable state has threads waiting for each other's latches for ever, and no thread ever waits for a latch it already holds.", "quantifier": "all schedules", "why_tests_cant": "depends on rare interleavings of merge, root shrink and split completion", "anchors": ["include/b_tree/component/psl/b_tree.hpp: Merge, TryShrinkTree, SearchParentNode", "include/b_tree/component/psl/node_fixlen.hpp: RemoveRoot, GetMergeableSiblingNode"]}
{"id": "C22", "title": "Version-validated reads are consistent", "statement": "An optimistic read that passes its version check returns field values that all belong to one state the node had, with no exclusive section in progress, between the version load and the check.", "quantifier": "all interleavings of one reader with any number of writers", "why_tests_cant": "tearing windows are a few instructions", "anchors": ["include/b_tree/component/osl/node_fixlen.hpp: Read, SearchChild, CheckKeyRange", "include/b_tree/component/oml/node_fixlen.hpp: SearchChild, CheckKeyRange"]}
{"id": "C23", "title": "Scans concurrent with updates return every record that stays", "statement": "A scan of BTreePSL that runs concurrently with other calls returns every in-range record present during the whole scan, never returns a record absent during the whole scan, and yields keys in strictly ascending order.", "quantifier": "all schedules", "why_tests_cant": "the iterator moves over a chain that splits and merges under it", "anchors": ["include/b_tree/component/record_iterator.hpp: HasRecord", "include/b_tree/component/psl/node_fixlen.hpp: GetNextNodeForRead"]}
{"id": "C24", "title": "Optimistic scans concurrent with updates return every record that stays", "statement": "As C23 for BTreeOSL/BTreeOML.", "quantifier": "all schedules", "why_tests_cant": "end-of-range detection is not version validated; hitting it needs a write between two loads", "anchors": ["include/b_tree/component/optimistic_record_iterator.hpp: HasRecord, ResetIterator", "include/b_tree/component/osl/node_fixlen.hpp: SearchEndPositionFor"]}
{"id": "C25", "title": "Iterators are independent of each other", "statement": "Two iterators open at the same time in one thread do not influence each other: each returns what it would return alone.", "quantifier": "all trees, all ranges, all ways of interleaving the two iterators in one thread", "why_tests_cant": "tests open one iterator at a time", "anchors": ["include/b_tree/component/optimistic_record_iterator.hpp: key_ (static thread_local)", "include/b_tree/component/record_iterator.hpp"]}
{"id": "C26", "title": "A key obtained from a scan can be passed back to the tree", "statement": "Reading the key just returned by a scan returns the payload the scan returned for it.", "quantifier": "all trees, all keys", "why_tests_cant": "aliasing of the returned key with an internal per-thread buffer is invisible to tests that copy or compare at once", "anchors": ["include/b_tree/component/psl/node_varlen.hpp: GetKey(Metadata) (thread_local tls_key)", "include/b_tree/component/pml/node_varlen.hpp: GetKey(Metadata)", "include/b_tree/component/record_iterator.hpp: GetKey, operator*"]}
{"id": "C27", "title": "Binary search in a node finds the right position for every key", "statement": "Within any node with sorted keys, the in-node search terminates, reports a stored key as present at its position, and otherwise returns the insertion position (leaf) or the child responsible for the key (inner node), never looking outside the stored records.", "quantifier": "all node contents, all keys, leaf and inner nodes", "why_tests_cant": "off-by-one errors depend on count, position and leaf/inner flag", "anchors": ["include/b_tree/component/psl/node_fixlen.hpp: SearchRecord", "include/b_tree/component/psl/node_varlen.hpp: SearchRecord", "include/b_tree/component/pml/node_fixlen.hpp: SearchRecord"]}
{"id": "C28", "title": "Split keeps every record on exactly one side", "statement": "Splitting a full node leaves both halves non-empty, the concatenation of the halves is the old contents, all left keys are below and all right keys at or above the separator, and both halves have room for one more maximal record.", "quantifier": "all full nodes, both layouts", "why_tests_cant": "depends on record sizes and positions", "anchors": ["include/b_tree/component/psl/node_fixlen.hpp: Split", "include/b_tree/component/psl/node_varlen.hpp: Split", "include/b_tree/component/pml/node_varlen.hpp: Split"]}
{"id": "C29", "title": "Merge concatenates and removes the right node", "statement": "Merging two siblings gives one node with exactly both contents in order and the right node's upper bound and successor; the right node is marked so that concurrent readers find the survivor.", "quantifier": "all mergeable siblings, both layouts", "why_tests_cant": "depends on sizes and boundary keys", "anchors": ["include/b_tree/component/psl/node_fixlen.hpp: Merge", "include/b_tree/component/psl/node_varlen.hpp: Merge", "include/b_tree/component/pml/node_varlen.hpp: Merge"]}
{"id": "C30", "title": "Dead space is accounted for exactly and clean-up loses nothing", "statement": "In variable-length nodes the recorded dead-space size always equals the bytes held by tombstones (and removed separators), reusing a tombstone revives exactly that key, and clean-up keeps all live records, bounds and order while reclaiming all dead space.", "quantifier": "all sequences of node operations", "why_tests_cant": "sizes vary per record", "anchors": ["include/b_tree/component/psl/node_varlen.hpp: Delete, ReuseRecord, CleanUp, DeleteChild", "include/b_tree/component/pml/node_varlen.hpp: CleanUp"]}
{"id": "C31", "title": "All variants return the same results", "statement": "For every sequence of calls all eight combinations of locking variant and node layout return identical results.", "quantifier": "all call sequences, admissible sizes", "why_tests_cant": "pairwise testing is finite", "anchors": ["include/b_tree/b_tree.hpp: BTreePML, BTreePSL, BTreeOML, BTreeOSL and FixLen/VarLen aliases"]}
{"id": "C32", "title": "Record metadata round-trips", "statement": "A metadata entry built from offset, key length and record length returns exactly those values and is not deleted, whenever they fit the declared field widths; deleting changes only the deleted flag; equality ignores the flag.", "quantifier": "all offsets < 2^31 and lengths < 2^16", "why_tests_cant": "domain has 2^63 values", "anchors": ["include/b_tree/component/metadata.hpp: Metadata"]}
{"id": "C33", "title": "Every call returns without holding a latch", "statement": "When a point operation on a PSL/PML tree returns, every latch it took has been released, it never releases a latch it does not hold, and it never waits for a latch it already holds.", "quantifier": "all reachable trees, all calls made by one thread", "why_tests_cant": "each path through splits and merges has its own release sequence", "anchors": ["include/b_tree/component/psl/b_tree.hpp", "include/b_tree/component/psl/node_fixlen.hpp", "include/b_tree/component/pml/b_tree.hpp", "include/b_tree/component/pml/node_fixlen.hpp"]}
{"id": "C34", "title": "Bulkload preserves or rejects existing contents", "statement": "Bulkload into a tree that already holds records either keeps them or fails; it does not silently drop them, and releases the pages it replaces.", "quantifier": "all prior contents", "why_tests_cant": "tests bulkload only into empty trees", "anchors": ["include/b_tree/component/psl/b_tree.hpp: Bulkload (root_ overwritten)", "include/b_tree/component/pml/b_tree.hpp: Bulkload"]}
{"id": "C35", "title": "Node headers seen by optimistic readers change only under the exclusive latch", "statement": "In the optimistic variants every field an unlatched reader consults changes only inside an exclusive section, so that the version check covers it.", "quantifier": "all structure modifications", "why_tests_cant": "tearing windows are a few instructions", "anchors": ["include/b_tree/component/oml/node_varlen.hpp: Merge (h_key_offset_/h_key_len_ written before UpgradeToX)", "include/b_tree/component/osl/node_varlen.hpp: Merge"]}
{"id": "C36", "title": "Point reads never lose a key to a concurrent structure modification", "statement": "If a key is present during the whole of a concurrent Read on a single-layer tree, the Read returns a payload the key had during the call, whatever splits and merges run meanwhile.", "quantifier": "all schedules", "why_tests_cant": "see C16", "anchors": ["include/b_tree/component/psl/b_tree.hpp: SearchLeafNodeForRead", "include/b_tree/component/osl/b_tree.hpp: SearchLeafNode"]}
{"id": "C37", "title": "Stored numbers fit their bit fields", "statement": "On pages below 64 KiB, no number kept in a node header or in a metadata entry (record count, block size, deleted size, border-key offsets and lengths, record offsets and lengths) ever exceeds the width of the field it is stored in, so no update is silently truncated.", "quantifier": "all sessions, all admissible configurations with page size below 2^16, all nodes of the resulting tree", "why_tests_cant": "truncation depends on extreme sizes and on accumulated counters such as deleted_size_", "anchors": ["include/b_tree/component/psl/node_varlen.hpp:1574-1604", "include/b_tree/component/pml/node_varlen.hpp:1372-1399", "include/b_tree/component/psl/node_fixlen.hpp:1224-1248", "include/b_tree/component/metadata.hpp"]}
{"id": "C38", "title": "The range of a scan is fixed when Scan is called", "statement": "What an iterator returns depends on the values the begin and end keys had when Scan was called; changing the caller's key variables afterwards does not change the range.", "quantifier": "all trees, all ranges, all later changes of the caller's variables", "why_tests_cant": "tests keep the bound variables alive and unchanged for the whole scan", "anchors": ["include/b_tree/component/record_iterator.hpp: ScanKey (tuple of const Key &), end_key_", "include/b_tree/component/optimistic_record_iterator.hpp: end_key_, ResetIterator"]}
{"id": "C39", "title": "Concurrent operations on the optimistic multi-layer tree are linearizable", "statement": "For BTreeOML and any number of threads: every history of completed Read/Write/Insert/Update/Delete calls is linearizable; in particular a key whose Insert has returned is found by every Read that starts later, unless it is deleted.", "quantifier": "all programs and all schedules of all numbers of threads", "why_tests_cant": "a violation needs a writer that is suspended across a split and a merge of its leaf, and a reader inside the two-instruction window of Merge", "anchors": ["include/b_tree/component/oml/b_tree.hpp: SearchLeafNodeForRead, SearchLeafNodeForWrite, TrySplit, TryMerge, TryRootSplit, TryShrinkTree", "include/b_tree/component/oml/node_fixlen.hpp: Merge, Split, CheckKeyRange, SearchChild"]}
{"id": "C40", "title": "The optimistic multi-layer tree never uses a page that may have been released", "statement": "In BTreeOML a call only ever dereferences pages that are in the tree or were handed to the garbage collector after the call began, so that the call's epoch guard protects them.", "quantifier": "all programs and all schedules of all numbers of threads", "why_tests_cant": "the page must be released and reused in a window of a few instructions; even then the stale read usually goes unnoticed", "anchors": ["include/b_tree/component/oml/b_tree.hpp: TryShrinkTree, TryMerge", "include/b_tree/component/oml/node_fixlen.hpp: RemoveRoot, Merge"]}
{"id": "C41", "title": "The optimistic multi-layer tree never deadlocks", "statement": "With BTreeOML, whenever some call is in progress and not yet returned, some thread that is in a call can take a step; a thread that is not in a call holds no latch.", "quantifier": "all programs and all schedules of all numbers of threads running point operations", "why_tests_cant": "deadlocks depend on rare interleavings of splits and merges on neighbouring nodes", "anchors": ["include/b_tree/component/oml/b_tree.hpp: TrySplit, TryMerge, TryRootSplit, TryShrinkTree", "include/b_tree/component/oml/node_fixlen.hpp: GetMergeableRightChild, GetValidSplitNode"]}
{"id": "C42", "title": "The single-layer trees release every page once, and only when nobody uses it", "statement": "In BTreePSL and BTreeOSL no call and no scan reads, writes or latches a page after it has been released; no page is handed to the garbage collector twice; and when no call and no scan is in progress, the pages that have not been released are exactly those that can be reached from the root.", "quantifier": "all programs of point operations and scans, all schedules, all numbers of threads", "why_tests_cant": "the released page must be used in a window of a few instructions, the collector must run in it, and a stale read of freed memory usually goes unnoticed; a leak shows only in the long run", "anchors": ["include/b_tree/component/psl/b_tree.hpp: TryMerge, TryShrinkTree, Scan", "include/b_tree/component/osl/b_tree.hpp: TryMerge, TryShrinkTree, Scan", "include/b_tree/component/psl/node_fixlen.hpp: RemoveRoot, Merge", "include/b_tree/component/record_iterator.hpp: RecordIterator::HasRecord", "include/b_tree/component/optimistic_record_iterator.hpp: OptimisticRecordIterator::HasRecord"]}
{"id": "C43", "title": "Scans of the pessimistic multi-layer tree concurrent with updates return every record that stays", "statement": "With BTreePML, a scan that runs while other threads insert, update and delete records terminates each leaf step without undefined behaviour, returns keys in strictly ascending order inside its range, returns every record that is present with the same value during the whole scan, and returns only records that were present at some moment of the scan; the calls around it stay linearizable and no call or scan blocks for ever.", "quantifier": "all programs of point operations and scans, all schedules, all numbers of threads, clients that abandon their scans included", "why_tests_cant": "the outcome depends on interleavings of the scan's latch coupling along the leaf list with merges, splits and root changes of other threads", "anchors": ["include/b_tree/component/pml/b_tree.hpp: Scan, SearchLeafNodeForRead, SearchLeftmostLeaf, GetRootForRead, ShrinkTreeIfNeeded, Merge", "include/b_tree/component/record_iterator.hpp: RecordIterator::HasRecord, ~RecordIterator", "include/b_tree/component/pml/node_fixlen.hpp: GetNextNodeForRead, SearchEndPositionFor"]}
{"id": "C44", "title": "A thread that has an iterator open may use the tree", "statement": "With BTreePML, a thread that has an iterator open, for example on a record it wants to change, can call Read, Write, Insert, Update or Delete, and the call returns.", "quantifier": "all reachable states of all programs, all positions of the iterator, all keys of the leaf the iterator stands on, all schedules of the other threads", "why_tests_cant": "single calls and single scans are tested apart from each other; that no schedule lets the call return is a statement about all continuations", "anchors": ["include/b_tree/component/record_iterator.hpp: RecordIterator, ~RecordIterator", "include/b_tree/component/pml/b_tree.hpp: Scan, Write, Insert, Update, Delete", "include/b_tree/component/pml/node_fixlen.hpp: GetNextNodeForRead, LockX"]}
{"id": "C45", "title": "The multi-layer trees lose no page and give every page back once", "statement": "In BTreePML the pages that have been allocated and not released are, at every moment, exactly those the child pointers lead to from the root; in BTreeOML the same holds whenever no call is running, and a page that is handed to the garbage collector was not handed to it before.", "quantifier": "all programs and all schedules of all numbers of threads", "why_tests_cant": "a lost page shows up as slow growth of memory only, and a page given back twice corrupts some later allocation; both depend on the interleaving of splits, merges and root changes", "anchors": ["include/b_tree/component/pml/b_tree.hpp: Merge, ShrinkTreeIfNeeded, Split, DeleteChildren", "include/b_tree/component/oml/b_tree.hpp: TryMerge, TryShrinkTree, Split, RootSplit, DeleteChildren"]}
{"id": "C46", "title": "Scans of BTreeOML do no harm to calls", "statement": "Iterators of BTreeOML may be open while other threads write: no scan and no call uses a page that may have been released, the calls stay linearizable, an iterator never waits for a call and no call waits for an iterator, and when all calls have returned and all iterators are destroyed the allocated pages are exactly those of the tree.", "quantifier": "all programs of calls and scans of all numbers of threads, all ranges, all schedules, iterators destroyed at any time", "why_tests_cant": "a page released too early or a latch held by an iterator shows only when a split, a merge or a change of the root falls between two particular steps of a scan", "anchors": ["include/b_tree/component/oml/b_tree.hpp: Scan, SearchLeafNodeForRead, SearchLeftmostLeaf, TryMerge, TryShrinkTree", "include/b_tree/component/optimistic_record_iterator.hpp: HasRecord, ResetIterator"]}
{"id": "C47", "title": "Every call and every scan of BTreePML returns", "statement": "In BTreePML a call that retries latches, goes back to the root or splits and merges on its way down does so only finitely often: as long as no thread is left out of the schedule for ever, every call of every thread is answered and every scan whose client goes on with it reaches its end.", "quantifier": "all finite programs of calls and scans of all numbers of threads, all infinite schedules that never leave a thread out for good, iterators destroyed at any time", "why_tests_cant": "a livelock needs threads that undo each other's work again and again under a particular schedule; a test that ends says nothing about the schedules it did not take", "anchors": ["include/b_tree/component/pml/b_tree.hpp: SearchLeafNodeForRead, SearchLeafNodeForWrite, GetRootForWrite, GetRootForRead, Split, Merge, ShrinkTreeIfNeeded, Scan", "include/b_tree/component/record_iterator.hpp: HasRecord"]}
{"id": "C48", "title": "Asking an iterator again changes nothing", "statement": "HasRecord, or the conversion of an iterator to bool, only asks: called several times before the iterator is moved on, it gives the same answer and leaves the iterator on the same record, so a scan returns the same records however often its client asks.", "quantifier": "all trees and layouts, all ranges, all numbers of extra questions at every record; for the optimistic iterator also all states of concurrent writers", "why_tests_cant": "tests ask once per record; the difference shows only when another thread writes to the leaf between two questions", "anchors": ["include/b_tree/component/record_iterator.hpp: HasRecord, operator bool, operator++", "include/b_tree/component/optimistic_record_iterator.hpp: HasRecord, operator bool, operator++, ResetIterator"]}
{"id": "C49", "title": "A tree may be changed while it is scanned by the same thread", "statement": "A client of the optimistic multi-layer tree that calls Write, Insert, Update and Delete while it holds iterators, with no two calls overlapping (one thread, or threads under one lock), gets correct scans: each delivers keys in strictly ascending order, every key in range that stays, and only records that were in the tree at some moment of the scan, although its leaf may have been split, merged or removed between two records. The calls return what the map returns, no released page is used, and no page is left over at the end.", "quantifier": "all programs of calls and scans, all interleavings of whole calls, Scan, HasRecord/operator++ and destruction of iterators, any number of open iterators, all answers of spurious version checks, both layouts", "why_tests_cant": "the tests never change a tree while an iterator is open; which leaf is merged under which iterator position depends on the whole history", "anchors": ["include/b_tree/component/optimistic_record_iterator.hpp: HasRecord, operator++, ResetIterator", "include/b_tree/component/oml/b_tree.hpp: Scan, Write, Delete"]}
{"id": "C50", "title": "An iterator reports the tree as it is when it is asked", "statement": "A client of the optimistic multi-layer tree that uses the tree and its iterators with no two calls overlapping may change the tree between two records of a scan. Whenever HasRecord then reports a record, that record is the first one in the map at that moment above the last record delivered (or above the left end of the scan), with its current payload, and it is in range: nothing deleted or overwritten in the meantime is reported, and nothing inserted ahead of the iterator is passed over.", "quantifier": "all programs of calls and scans, all interleavings of whole calls, Scan, HasRecord/operator++ and destruction of iterators, any number of open iterators, all answers of spurious version checks, both layouts", "why_tests_cant": "the tests never change a tree while an iterator is open, and whether the position in the leaf is still right depends on which pages were split or merged since it was computed", "anchors": ["include/b_tree/component/optimistic_record_iterator.hpp: HasRecord, operator++, ResetIterator", "include/b_tree/component/oml/b_tree.hpp: Scan"]}
{"id": "C51", "title": "When an iterator reports the end, the tree has no further record", "statement": "When HasRecord of an iterator of the optimistic multi-layer tree, used without overlapping calls, says that there are no more records, the map at that moment has no record in range above the last one delivered.", "quantifier": "all programs of calls and scans, all interleavings of whole calls, Scan, HasRecord/operator++ and destruction of iterators, both layouts", "why_tests_cant": "the tests never change a tree while an iterator is open; the answer is wrong only if the change comes after the last record of the last leaf was delivered", "anchors": ["include/b_tree/component/optimistic_record_iterator.hpp: HasRecord"]}
{"id": "C52", "title": "HasRecord returns", "statement": "HasRecord of an open iterator of the optimistic multi-layer tree, called while no other call is in progress, comes to an answer in finitely many steps, whatever calls the client has made since the iterator was opened: either one more record or the end of the scan.", "quantifier": "all programs of calls and scans, all earlier interleavings of whole calls, Scan, HasRecord/operator++ and destruction of iterators, all open iterators, both layouts", "why_tests_cant": "the tests never change a tree while an iterator is open, and a loop that does not end for one arrangement of leaves is found only by building that arrangement", "anchors": ["include/b_tree/component/optimistic_record_iterator.hpp: HasRecord", "include/b_tree/component/optimistic_record_iterator.hpp: ResetIterator"]}
{"id": "C53", "title": "Scan returns, and the loop over its iterator ends", "statement": "Scan of the optimistic multi-layer tree, called while no other call is in progress, returns an open iterator for the range asked for in finitely many steps; and if the client then only asks HasRecord and advances the iterator, HasRecord says after finitely many steps that there are no more records.", "quantifier": "all programs of calls and scans, all earlier interleavings of whole calls, Scan, HasRecord/operator++ and destruction of iterators, all ranges, both layouts", "why_tests_cant": "a descent that goes back to the root, or a loop over the leaves, that does not end for one shape of tree is found only by building that shape", "anchors": ["include/b_tree/component/oml/b_tree.hpp: Scan", "include/b_tree/component/optimistic_record_iterator.hpp: HasRecord"]}
