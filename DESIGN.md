# Formal model of dbgroup-nagoya-u/b-tree in Rocq

## 1. What is modelled and how

The code is a header-only C++ library with four locking variants (PML, PSL, OML, OSL) and two node
layouts (fixed length, variable length).  All files are in `rocq/theories`; each definition of a
model file cites the C++ lines it stands for.

| layer | files | what they are |
|---|---|---|
| parameters | `Params.v`, `Inst.v` | key and payload types, comparator, size constants; concrete instances for examples |
| specification | `Spec.v`, `ConcSpec.v`, `ScanSpec.v` | ordered map, calls and results, scan ranges; histories, linearizability, and what scans may deliver in a history.  No model definition is used here |
| page memory | `Mem.v`, `Common.v` | a page is a map from byte offsets to cells, a cell is one byte of a key, payload, pointer or metadata entry; reading an object succeeds only where all its bytes are |
| node models | `FixModel.v`, `VarModel.v` | `psl,osl,pml,oml/node_fixlen.hpp` and `node_varlen.hpp`, function by function, on page memory |
| node proofs | `NodeAbs.v`, `FixProofs.v`, `VarProofs.v`, `VarSmo.v` | each node function refines an operation on an abstract list of slots |
| node interfaces | `SLIface.v`, `MLIface.v`, `BaseIface.v`, `FixSL.v`, `VarSL.v`, `FixML.v`, `VarML.v` | the node functions the tree code calls, the laws it needs, and proofs that both layouts satisfy them |
| sequential state | `TreeState.v`, `TreeHeap.v` | heap of pages, root pointer, latches held, garbage list; outcomes |
| tree invariant | `Levels.v`, `LevelOps.v` | levels of nodes from left to right (proof side only) |
| single-layer trees | `SLModel.v`, `SLSearch.v`, `SLSplit.v`, `SLMerge.v`, `SLProofs.v`, `SLScanModel.v`, `SLScan.v`, `SLApi.v` | `psl/b_tree.hpp`, `osl/b_tree.hpp` run by one thread |
| multi-layer trees | `MLModel.v`, `MLSearch.v`, `MLSteps.v`, `MLPess.v`, `MLOpt.v`, `MLProofs.v`, `MLScanModel.v`, `MLApi.v` | `pml/b_tree.hpp`, `oml/b_tree.hpp` run by one thread |
| walks | `WalkModel.v`, `WalkProofs.v` | destructor and statistics |
| iterators | `IterModel.v`, `IterProofs.v`, `ShareModel.v`, `ShareProofs.v`, `ShareApi.v` | `record_iterator.hpp`, `optimistic_record_iterator.hpp`; several iterators in one thread |
| concurrency, single layer | `ConcModel.v`; `ConcLin.v`, `ConcInv.v`, `ConcHeap.v`, `ConcSmo.v`, `ConcThreads.v`, `ConcSteps.v`, `ConcMain.v`, `ConcHist.v`, `ConcWait.v`, `ConcSeps.v` | interleaving semantics of `psl/osl b_tree.hpp` on the same node functions; the rest is proof |
| concurrency, PML | `MConcModel.v`; `MConcInv.v`, `MConcSteps.v`, `MConcMain.v` | interleaving semantics of `pml/b_tree.hpp` (every lock, upgrade and downgrade, page release) on the same node functions; the rest is proof |
| concurrency, OML | `OConcModel.v`; `OLaws.v`, `OConcInv.v`, `OConcSteps.v`, `OConcMain.v`, `OConcCalm.v` | interleaving semantics of `oml/b_tree.hpp`: validated reads, version checks, SIX latches, retired pages and epochs, on the same node functions; `OConcCalm.v` also defines calm executions; the rest is proof |
| concurrent scans | `CScanModel.v`; `CScanLin.v`, `CScanProofs.v`, `CScanMain.v`, `CScanPlain.v`, `ScanHist.v`, `CScanRun.v` | scanners added to the single-layer machine: the latched iterator of PSL and the optimistic iterator of OSL; the rest is proof |
| concurrent scans, OML | `OScanModel.v`; `OScanProofs.v`, `OScanMain.v` | scanners with the optimistic iterator added to the OML machine; each holds an epoch guard and no latch; the rest is proof |
| concurrent scans, PML | `MScanModel.v`; `MScanProofs.v`, `MScanMain.v`, `MScanHold.v` | scanners with the latched iterator added to the PML machine; the rest is proof |
| termination, PML | `MTermProofs.v`, `MTermMain.v` | no new definitions of the machine: pages keep their height above the leaves, every step of a call or scan makes a measure smaller (calls to start, distance to the root or to the leaf, pages to the right) |
| repeated HasRecord | `AskModel.v` | client loops that ask more than once per record, and a move that asks again added to the machine of the OML scans |
| calls and iterators of one thread | `AloneModel.v` | which executions of the machine of the OML scans have no overlapping functions; `SeqHist.v`: the map after the calls of such a history |
| page release, single layer | `ReclModel.v`; `ReclProofs.v`, `ReclMain.v`, `ReclFrame.v`, `ReclLeak.v`, `ReclRun.v` | the callers and scanners of the two machines above together with epoch guards and the garbage collector: which pages each step uses, hands over, protects; the rest is proof |
| optimistic reads | `SeqModel.v`; `SeqProofs.v` | pages as header fields and bytes, the optimistic latch, the latch and write actions of every function of `osl,oml/node_{fixlen,varlen}.hpp`, and unlatched readers that read one field at a time |
| bulkload | `BulkModel.v`; `BulkProofs.v`, `BulkFix.v`, `BulkVar.v`, `BulkApi.v`, `BulkFit.v` | `Bulkload` of all four trees and both layouts; the rest is proof |
| properties | `Prop*.v` | the theorems, `Print Assumptions`, and examples that meet their hypotheses |

Undefined behaviour (reading bytes that are not the requested object, null or dangling node
pointers, payload bytes used as a pointer, writing outside a page) is the explicit outcome `Undef`
(`None` at node level, `SUndef`, `KUndef` and `XUndef` in the concurrent machines).  Running out of the loop bound is the
outcome `NoFuel`; waiting for a latch the only thread holds itself is `Blocked`.  The sequential
theorems exclude all of them: they say that some fuel is enough and that the outcome is a result.

### Simplifications

* Sizes, offsets and counters are natural numbers, not 16/32-bit fields.  C37 proves that no value
  exceeds its field on pages below 64 KiB.
* A key, payload or pointer is an abstract object that occupies its size in bytes; its bytes are not
  interpreted.  Alignment padding is part of the size parameters.
* Pages come from an allocator that returns fresh addresses.  Garbage collection (the external epoch
  manager) may happen between calls at any point; a page handed to it is then gone.
* In sequential models a version check of an optimistic latch always succeeds.
* In the concurrent single-layer machine one step is one latched section, or one optimistic read of a
  node with its version check.  This relies on C22 for the optimistic tree, and on the latch library
  for the others.  Pages are never freed in it; `ReclModel.v` adds the collector, and C42 says when
  that makes no difference.
* In the concurrent PML machine one step runs from one latch acquisition or upgrade to the next.  A
  released page's address is not used again, so each later use of it is detected; a waiting upgrade
  does not keep new readers out.
* In the concurrent OML machine one step is one validated read of a node or one section under X.  A
  retired page counts as released as soon as all the calls in progress at its retirement have
  returned.  `OScanModel.v` adds iterators, whose guards count as well.
* In `ReclModel.v` a page is released as soon as the guards that existed when it was handed over are
  gone, which is the earliest moment the epoch manager allows; its address is not used again, so each
  later use is detected.
* The scans of PML (`MScanModel.v`) are clients of their own, too; the records of a leaf are taken in the
  step that latches it.  A client may destroy its iterator at any time.
* Scanners are clients of their own; a step of a scan is one latched section (PSL) or one read of a page
  with its version check (OSL).  The records of a leaf that a PSL scan has latched are taken at once,
  which the latch justifies.  The answer of a version check is part of the schedule; it is `true` only
  if the page has not changed.  For OML (`OScanModel.v`) ResetIterator is three steps.
* `SeqModel.v` lists, for each optimistic node function, its latch operations and between them writes
  of arbitrary values to arbitrary fields of the page; versions do not wrap around, and a page is
  constructed once (the epoch manager does not reuse it under a reader).
* Spurious failure of optimistic checks (retry) leaves the state unchanged, so it is not a step.
* The worker threads of a parallel Bulkload share nothing but the allocator until they are joined, so
  they run one after the other in the model.
* Not modelled: `Upsert`-like wrappers that only forward, `operator new`/alignment of pages, NUMA or
  thread-id management of the external libraries, memory orders weaker than sequential consistency.

## 2. Result per property

"refuted" means that the statement is false of the code; a theorem `..._refuted` gives a witness that
Rocq executes, and the restricted statement that does hold is proved beside it.

| property | where | result |
|---|---|---|
| C01-C04 map behaviour | PropSLFix, PropSLVar, PropMLFix, PropMLVar | proved by refinement for admissible sizes (`FixGood`, `FixMLGood`, `VarGood`, `VarMLGood`) |
| C05, C06 scans | same files | proved |
| C07 return codes | same files | proved |
| C08 no overflow, no UB | same files | proved |
| C09 static_assert suffices | PropLimits | refuted, with sufficient conditions proved |
| C10, C11 bulkload | PropBulk | proved for entries too large for one leaf (any thread count), and for small ones with 2 <= threads <= entries |
| C12 short bulkloads | PropBulk | refuted: every load that fits in one leaf is undefined behaviour unless worker threads are used |
| C13, C14, C15 destructor, statistics, balance | same files as C01, PropStats | proved |
| C16, C36 linearizability, reads | PropConc, PropConcBad | refuted; proved for calm executions and for a repaired machine |
| C17 separators | PropConc, PropConcBad | refuted; proved for calm and repaired executions |
| C18 linearizability of PML | PropMConc | every execution up to the first use of a released page; refuted beyond that (use after free); proved without exception for calm executions and for a repaired machine |
| C19 no deadlock in PML | PropMConc | proved for the code as it is, by a rank on waiting threads |
| C20 page release in PML | PropMConc | refuted for the root in `ShrinkTreeIfNeeded`; proved for every other release and for the repaired machine |
| C21 deadlock | PropConc, PropConcBad | refuted (two different ways); proved without Delete |
| C22 validated reads | PropSeq | proved for OSL and for OML with fixed-length nodes; refuted for OML with variable-length nodes, proved there without Merge |
| C23 concurrent scans of PSL | PropCScan | refuted (a scan goes backwards); proved for all programs without Delete, and with Delete when the scan is not led to a removed page |
| C24 concurrent scans of OSL and OML | PropCScan | refuted (a scan ends too early); proved for OSL without Delete, and with Delete when the scan is not at a removed page and does not end on a stale position; the same for OML (PropOScan), where a half-finished Merge is a second reason for a missing record |
| C25 independence of iterators | PropIter | proved for PSL/PML, refuted for OSL/OML, with the restricted positive statement |
| C26 key of a scan passed back | PropIter | proved by value and for the optimistic iterators, refuted for pointer keys of PSL/PML |
| C27-C30 node level | PropNode, NodeView | proved |
| C31 variants agree | PropAll | proved |
| C32, C37 bit fields | PropMeta | proved |
| C33 latches released | same files as C01, PropConc, PropMConc | proved |
| C34 bulkload into a filled tree | PropBulk | refuted: old records vanish, and exactly the old tree's pages stay allocated for ever |
| C35 fields change under X | PropSeq | as C22 |
| C38 scan range fixed | PropIter | refuted |
| C39 linearizability of OML | PropOConc, PropOConcBad | refuted (a committed key is not found); proved for calm executions and for a repaired machine |
| C40 page release in OML | PropOConc, PropOConcBad | refuted (released root, released leaf); proved for calm executions and for a repaired machine |
| C41 no deadlock in OML | PropOConc | proved for calm executions and for the repaired machine |
| C42 page release in PSL and OSL | PropRecl | refuted (released root; released leaf under a PSL iterator); no use after release, no double release and no leak proved for calm executions and for a repaired machine |
| C43 concurrent scans of PML | PropMScan | every execution up to the first use of a released page; refuted beyond that; proved without exception for calm executions and for the repaired machine |
| C44 calls under an open iterator (PML) | PropMScan | refuted for every write to a record of the iterator's leaf; reads proved not to wait |
| C45 no lost page, no page given back twice (PML, OML) | MLeak, PropMLeak | PML proved for the code as it is at every moment; OML proved at rest for calm executions and for the repaired tree |
| C46 scans of OML do no harm | OScanMain, PropOScan | refuted (a scan uses a released root); scans never wait, proved; the rest proved for executions without half-finished changes and for the repaired machine |
| C47 every call and scan of PML returns | MTermProofs, MTermMain, PropMTerm | finite programs under every schedule that leaves nobody out for good: proved up to the use of a released root; without exception for calm executions and for the repaired machine |
| C48 asking an iterator again | PropAsk | proved for one thread, all iterators and trees; with concurrent writers proved while the leaf under the iterator does not change, refuted otherwise |
| C49 changing a tree while scanning it, without overlap | PropAlone | proved for OML, both layouts, as the code is |
| C50 an iterator reports the tree as it is when asked | PropExact | proved for OML, both layouts, as the code is |
| C51 the end of a scan is the end of the tree | PropExact | proved of some moment since the last record was delivered, and of now when HasRecord looks at the leaf before it answers; false otherwise: a record written after the last one was delivered is not seen |
| C52 HasRecord returns | AloneEnds, PropEnds | proved for OML, both layouts, as the code is, when nobody else is inside |
| C53 Scan returns and the loop over it ends | AloneOpens, PropEnds | proved for OML, both layouts, as the code is, when nobody else is inside |

### Findings in the code

1. The separator of a single-layer split is read after the latch of the split node was released
   (`GetSeparatorKey`, psl/b_tree.hpp).  A second split of the node in that window makes the first
   one install too small a separator: committed keys become unreachable (C16, C17, C36), and
   continuing leads to undefined behaviour.  Shown on 1 KiB pages with 8-byte keys.
2. `TryRootSplit` loads and stores the root pointer without a compare-and-swap, and `TryShrinkTree`
   may remove a root that has a right sibling.  The calm condition excludes both.
3. `Merge` of the single-layer trees restarts its loop while it still holds the right sibling and
   locks it again: self-deadlock (C21).  `TryShrinkTree` locks parent before child, `Merge` child
   before parent: deadlock of two threads (C21).
4. The `static_assert` on record sizes is too weak (C09): a variable-length split may leave a half
   without room, so PSL loses a record and OSL overruns the page; a PML merge leaves too little room.
5. Optimistic iterators keep their key in a `static thread_local` variable shared by all iterators of
   the thread (C25); variable-length pessimistic scans return a pointer into a buffer that the next
   search overwrites (C26); the iterators keep a reference to the caller's end key (C38).
6. `RemoveLeftmostKeys` loops while the node is a leaf instead of while it is an inner node.  When
   Bulkload builds a single leaf it takes the first payload for a child pointer (C12).
7. `Bulkload` overwrites the root pointer: records stored before are lost without an error, and their
   pages (even the empty root of a fresh tree) are never released (C34).
8. PML's `ShrinkTreeIfNeeded` releases the old root page while it holds the page's latch in SIX mode
   only.  A reader that has the root latched in shared mode goes on to use the released page (C20).
   Shown on 1 KiB pages with 8-byte keys.
9. `Merge` of oml/node_varlen.hpp assigns `h_key_offset_` and `h_key_len_` before it upgrades its latch
   from SIX to X (C35).  A reader in that window takes record bytes for the highest key and passes its
   version check, or combines the old offset with the new length (C22).
10. A PSL scan that holds the shared latch of a leaf follows the leaf's link.  A thread that merges the
   leaf into its left sibling has already moved the records and waits for the latch; when the next
   leaf is merged too, the link leads to a removed page and from there back to the records: the scan
   delivers keys twice and not in order (C23).
11. The optimistic iterator takes its begin and end positions without a version check between them and
   ends without one: when the leaf shrinks in between, it ends although records follow (C24).  Two
   records and one Delete are enough.
12. `Merge` of the OML nodes unlocks the left node before it marks the right one as removed, while the
   parent still leads to the right one.  A writer that has been suspended on the left node since before
   the nodes were split apart stores its record there and returns; a Read that starts later goes to
   the right node and misses it (C39).  If the nodes are inner nodes, a new call can be led to a leaf
   that was retired before the call began (C40).
13. `TryShrinkTree` of OML (and of PSL and OSL) calls `AddGarbage` before it changes `root_`: a call that
   starts in between loads a root its epoch guard does not protect (C40, C42).
14. `Scan` of PSL drops its epoch guard when it returns the iterator.  In the situation of finding 10 the
   iterator comes to a leaf that was handed to the collector before, and nothing keeps the collector
   from releasing it while the iterator holds its latch and reads it (C42).
15. The iterator of PML keeps the shared latch of its leaf.  A thread that writes to a record of that leaf
   while it has the iterator open waits for itself: the call never returns (C44).  Nothing in the
   interface says so.
16. HasRecord of the optimistic iterator marks the record it stands on as read (`is_closed_ = false`) before
   the client has moved on.  Asked again after another thread has written to the leaf, it goes to the
   next record, and a client such as `while (it.HasRecord()) { if (it) use(*it); ++it; }` misses one that
   was there all the time (C48).
17. At the end of the last leaf in range, HasRecord of the optimistic iterator says that there are no more
   records without looking at the version of the leaf.  A client that writes a larger key after it was
   given the last record is told that there is none (C51); one that writes it earlier gets it (C50).

## 3. Trusted base

* Coq 8.16.1's kernel, including `vm_compute` for the witnesses and examples.
* The reading of the C++ text recorded in the comments of the model files, and the simplifications
  above.
* The behaviour of the external latch, epoch-GC and allocator libraries as stated in the model files.

`Print Assumptions` is run beside the theorems in the `Prop*.v` files and prints "Closed under the
global context" for every one of them: no axiom is used.  The standard library's
`Coq.ssr.ssrunder.Under_rel.*` declarations appear in a list of library axioms because
modules of the standard library load `Coq.ssr`; no theorem depends on them.

Only the standard library is used.
