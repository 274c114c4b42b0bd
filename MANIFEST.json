{
 "claims": [
  {
   "property": "C01",
   "status": "proved",
   "theorems": [
    "C01_single_layer_fixlen_is_a_map"
   ],
   "note": "PSL and OSL, fixed-length nodes, any session of calls and collector runs by one thread, for parameters satisfying FixGood."
  },
  {
   "property": "C02",
   "status": "proved",
   "theorems": [
    "C02_multi_layer_fixlen_is_a_map"
   ],
   "note": "PML and OML, fixed-length nodes, any session by one thread, for parameters satisfying FixMLGood."
  },
  {
   "property": "C03",
   "status": "proved",
   "theorems": [
    "C03_single_layer_varlen_is_a_map"
   ],
   "note": "PSL and OSL, variable-length nodes modelled at byte level, for parameters satisfying VarGood; the default 1 KiB / 128-byte-key configuration is outside VarGood (see C09)."
  },
  {
   "property": "C04",
   "status": "proved",
   "theorems": [
    "C04_multi_layer_varlen_is_a_map"
   ],
   "note": "PML and OML, variable-length nodes at byte level, for parameters satisfying VarGood and VarMLGood; the default 1 KiB / 128-byte-key configuration is outside (see C09)."
  },
  {
   "property": "C05",
   "status": "proved",
   "theorems": [
    "C05_scan_exact_single_layer_fixlen",
    "C05_scan_exact_single_layer_varlen",
    "C05_scan_exact_multi_layer_fixlen",
    "C05_scan_exact_multi_layer_varlen"
   ],
   "note": "All four trees, both node layouts, for admissible size parameters."
  },
  {
   "property": "C06",
   "status": "proved",
   "theorems": [
    "C06_scan_bounds_single_layer_fixlen",
    "C06_scan_bounds_single_layer_varlen",
    "C06_scan_bounds_multi_layer_fixlen",
    "C06_scan_bounds_multi_layer_varlen"
   ],
   "note": "All four trees, both node layouts, for admissible size parameters."
  },
  {
   "property": "C07",
   "status": "proved",
   "theorems": [
    "C07_return_codes_single_layer_fixlen",
    "C07_return_codes_single_layer_varlen",
    "C07_return_codes_multi_layer_fixlen",
    "C07_return_codes_multi_layer_varlen"
   ],
   "note": "All four trees, both node layouts, for admissible size parameters."
  },
  {
   "property": "C08",
   "status": "proved",
   "theorems": [
    "C08_pages_fit_single_layer_fixlen",
    "C08_pages_fit_single_layer_varlen",
    "C08_pages_fit_multi_layer_fixlen",
    "C08_pages_fit_multi_layer_varlen",
    "C01_single_layer_fixlen_is_a_map",
    "C02_multi_layer_fixlen_is_a_map",
    "C03_single_layer_varlen_is_a_map",
    "C04_multi_layer_varlen_is_a_map"
   ],
   "note": "All four trees, both node layouts, for admissible size parameters. The pages_fit theorems give the layout; the is_a_map theorems exclude the Undef outcome, which stands for any read of bytes not written and any null or dangling pointer."
  },
  {
   "property": "C09",
   "status": "partial",
   "theorems": [
    "C09_fixlen_single_layer_refuted",
    "C09_fixlen_multi_layer_refuted",
    "C09_varlen_single_layer_refuted",
    "C09_varlen_multi_layer_refuted",
    "C09_varlen_psl_loses_a_record_refuted",
    "C09_varlen_osl_overruns_the_page_refuted",
    "C09_varlen_pml_merge_overflow_refuted",
    "C09_fixlen_single_layer_sufficient",
    "C09_fixlen_multi_layer_sufficient",
    "C09_varlen_single_layer_sufficient",
    "C09_varlen_multi_layer_sufficient",
    "C09_default_page_fixlen",
    "C09_default_page_varlen"
   ],
   "note": "The property is false of the code: the refuted theorems give sessions that overrun a page or lose a record in configurations the static_assert accepts, including the default one (1 KiB pages, 128-byte variable-length keys). The sufficient theorems state arithmetic conditions under which every session is safe."
  },
  {
   "property": "C10",
   "status": "proved",
   "theorems": [
    "C10_bulkload_single_layer_fixlen",
    "C10_bulkload_single_layer_varlen",
    "C10_bulkload_multi_layer_fixlen",
    "C10_bulkload_multi_layer_varlen",
    "C15_balanced_after_bulkload_single_layer_fixlen",
    "C15_balanced_after_bulkload_single_layer_varlen",
    "C15_balanced_after_bulkload_multi_layer_fixlen",
    "C15_balanced_after_bulkload_multi_layer_varlen"
   ],
   "note": "For configurations in which a page filled to nine tenths holds two records and its fence keys."
  },
  {
   "property": "C11",
   "status": "proved",
   "theorems": [
    "C11_slices_cover",
    "C11_bulkload_sessions_single_layer_fixlen",
    "C11_bulkload_sessions_single_layer_varlen",
    "C11_bulkload_sessions_multi_layer_fixlen",
    "C11_bulkload_sessions_multi_layer_varlen",
    "C11_thread_count_irrelevant_single_layer_fixlen",
    "C11_thread_count_irrelevant_single_layer_varlen",
    "C11_thread_count_irrelevant_multi_layer_fixlen",
    "C11_thread_count_irrelevant_multi_layer_varlen"
   ],
   "note": "Sessions that mix calls and bulkloads with arbitrary thread counts; the specification does not know the thread count. Worker threads are run one after the other: they share nothing but the allocator."
  },
  {
   "property": "C12",
   "status": "partial",
   "theorems": [
    "C12_refuted_single_layer_fixlen",
    "C12_refuted_single_layer_varlen",
    "C12_refuted_multi_layer_fixlen",
    "C12_refuted_multi_layer_varlen",
    "C12_small_bulkload_undefined_single_layer_fixlen",
    "C12_small_bulkload_undefined_single_layer_varlen",
    "C12_small_bulkload_undefined_multi_layer_fixlen",
    "C12_small_bulkload_undefined_multi_layer_varlen",
    "C11_bulkload_sessions_single_layer_fixlen",
    "C11_bulkload_sessions_single_layer_varlen",
    "C11_bulkload_sessions_multi_layer_fixlen",
    "C11_bulkload_sessions_multi_layer_varlen"
   ],
   "note": "False of the code: a load that fits in one leaf is undefined behaviour for every tree, unless 2 <= threads <= entries, where it is proved correct."
  },
  {
   "property": "C13",
   "status": "proved",
   "theorems": [
    "C13_destructor_single_layer_fixlen",
    "C13_destructor_single_layer_varlen",
    "C13_destructor_multi_layer_fixlen",
    "C13_destructor_multi_layer_varlen"
   ],
   "note": "All four trees, both node layouts, for admissible size parameters."
  },
  {
   "property": "C14",
   "status": "proved",
   "theorems": [
    "C14_statistics_single_layer_fixlen",
    "C14_statistics_single_layer_varlen",
    "C14_statistics_multi_layer_fixlen",
    "C14_statistics_multi_layer_varlen",
    "C14_usage_single_layer_fixlen",
    "C14_usage_single_layer_varlen",
    "C14_usage_multi_layer_fixlen",
    "C14_usage_multi_layer_varlen"
   ],
   "note": "All four trees, both node layouts, for admissible size parameters. The usage theorems say what the usage figure of a node means in bytes."
  },
  {
   "property": "C15",
   "status": "proved",
   "theorems": [
    "C15_balanced_single_layer_fixlen",
    "C15_balanced_single_layer_varlen",
    "C15_balanced_multi_layer_fixlen",
    "C15_balanced_multi_layer_varlen"
   ],
   "note": "All four trees, both node layouts, for admissible size parameters."
  },
  {
   "property": "C16",
   "status": "partial",
   "theorems": [
    "C16_calm_linearizable_fixlen_partial",
    "C16_calm_linearizable_varlen_partial",
    "C16_repaired_linearizable_fixlen_partial",
    "C16_repaired_linearizable_varlen_partial",
    "C16_C36_fixlen_refuted",
    "C16_C36_varlen_refuted",
    "C16_C36_default_page_refuted",
    "C16_undefined_behaviour_fixlen_refuted",
    "C16_undefined_behaviour_varlen_refuted"
   ],
   "note": "False of the code: GetSeparatorKey reads the split node after its latch was released, so a second split can make the first install too small a separator; a committed key then reads as absent, and going on leads to undefined behaviour. Proved for every execution, with any number of threads, in which the three racy situations do not arise (calm), and for every execution of the machine with three small repairs. Latched sections are atomic steps; the optimistic tree relies on validated reads being consistent."
  },
  {
   "property": "C17",
   "status": "partial",
   "theorems": [
    "C17_calm_separators_fixlen_partial",
    "C17_calm_separators_varlen_partial",
    "C17_repaired_separators_fixlen_partial",
    "C17_repaired_separators_varlen_partial",
    "C17_fixlen_refuted",
    "C17_varlen_refuted"
   ],
   "note": "False of the code (see C16); proved for calm executions and for the repaired machine."
  },
  {
   "property": "C18",
   "status": "partial",
   "theorems": [
    "C18_linearizable_pml_fixlen_partial",
    "C18_linearizable_pml_varlen_partial",
    "C18_calm_linearizable_pml_fixlen_partial",
    "C18_calm_linearizable_pml_varlen_partial",
    "C18_repaired_linearizable_pml_fixlen_partial",
    "C18_repaired_linearizable_pml_varlen_partial",
    "C18_C20_use_after_free_fixlen_refuted",
    "C18_C20_use_after_free_varlen_refuted",
    "C18_C20_use_after_free_default_page_refuted"
   ],
   "note": "Every history is linearizable up to the first undefined behaviour. The code can run into one (a reader uses the root page after ShrinkTreeIfNeeded released it), so the full statement is false; proved without exception for executions in which the root is not released under a reader, and for the machine in which ShrinkTreeIfNeeded waits for readers."
  },
  {
   "property": "C19",
   "status": "proved",
   "theorems": [
    "C19_no_deadlock_pml_fixlen",
    "C19_no_deadlock_pml_varlen",
    "C19_repaired_no_deadlock_pml_fixlen",
    "C19_repaired_no_deadlock_pml_varlen",
    "C19_no_deadlock_with_scans_pml_fixlen",
    "C19_no_deadlock_with_scans_pml_varlen",
    "C19_repaired_no_deadlock_with_scans_pml_fixlen",
    "C19_repaired_no_deadlock_with_scans_pml_varlen"
   ],
   "note": "Some thread that is in a call can always make a step, for the code as it is (the step may be the use after free of C20) and for the repaired machine (where the step succeeds). The theorems with_scans say the same when scans run at the same time."
  },
  {
   "property": "C20",
   "status": "partial",
   "theorems": [
    "C20_release_pml_fixlen_partial",
    "C20_release_pml_varlen_partial",
    "C20_only_readers_pml_fixlen_partial",
    "C20_only_readers_pml_varlen_partial",
    "C20_repaired_release_pml_fixlen_partial",
    "C20_repaired_release_pml_varlen_partial",
    "C20_fixlen_refuted",
    "C20_varlen_refuted",
    "C18_C20_use_after_free_fixlen_refuted",
    "C18_C20_use_after_free_varlen_refuted",
    "C18_C20_use_after_free_default_page_refuted",
    "C20_release_with_scans_pml_fixlen_partial",
    "C20_release_with_scans_pml_varlen_partial"
   ],
   "note": "False of the code: ShrinkTreeIfNeeded releases the root while readers hold it. Every other release is proved safe, and every release of the repaired machine."
  },
  {
   "property": "C21",
   "status": "partial",
   "theorems": [
    "C21_no_deadlock_without_delete_fixlen_partial",
    "C21_no_deadlock_without_delete_varlen_partial",
    "C21_repaired_no_deadlock_without_delete_fixlen_partial",
    "C21_repaired_no_deadlock_without_delete_varlen_partial",
    "C21_self_deadlock_fixlen_refuted",
    "C21_self_deadlock_varlen_refuted",
    "C21_self_deadlock_repaired_refuted",
    "C21_deadlock_cycle_fixlen_refuted"
   ],
   "note": "False of the code: Merge starts its loop again with the right sibling still latched and latches it again, and TryShrinkTree latches parent before child while Merge latches child before parent. Proved for programs without Delete."
  },
  {
   "property": "C22",
   "status": "partial",
   "theorems": [
    "C22_reads_osl_fixlen",
    "C22_reads_osl_varlen",
    "C22_reads_oml_fixlen",
    "C22_reads_oml_varlen_partial",
    "C22_read_fixlen",
    "C22_read_varlen",
    "C22_child_fixlen",
    "C22_reads_oml_varlen_refuted",
    "C22_oml_varlen_garbage_refuted"
   ],
   "note": "Proved for BTreeOSL (both layouts) and BTreeOML with fixed-length nodes: any reader program, any number of writers running any sequence of the node functions, interleaved action by action. False for BTreeOML with variable-length nodes, whose Merge assigns header fields before it upgrades its latch; proved there without Merge. The latch and epoch libraries are external and enter by their contract."
  },
  {
   "property": "C23",
   "status": "partial",
   "theorems": [
    "C23_calm_scans_fixlen_partial",
    "C23_calm_scans_varlen_partial",
    "C23_repaired_calm_scans_fixlen_partial",
    "C23_repaired_calm_scans_varlen_partial",
    "C23_scans_without_delete_fixlen_partial",
    "C23_scans_without_delete_varlen_partial",
    "C23_repaired_scans_without_delete_fixlen_partial",
    "C23_repaired_scans_without_delete_varlen_partial",
    "C23_scan_order_refuted_fixlen",
    "C23_scan_order_refuted_varlen"
   ],
   "note": "False of the code: a merge that waits for the latch of the leaf a scan holds, followed by a merge of the next leaf, makes the scan go back and deliver keys again. Proved for every execution of programs without Delete (callers calm as in C16, or with the repairs of C16), and with Delete for every execution in which a scan is not led to a removed page."
  },
  {
   "property": "C24",
   "status": "partial",
   "theorems": [
    "C24_calm_scans_fixlen_partial",
    "C24_calm_scans_varlen_partial",
    "C24_repaired_calm_scans_fixlen_partial",
    "C24_repaired_calm_scans_varlen_partial",
    "C24_scans_without_delete_fixlen_partial",
    "C24_scans_without_delete_varlen_partial",
    "C24_repaired_scans_without_delete_fixlen_partial",
    "C24_repaired_scans_without_delete_varlen_partial",
    "C24_scan_complete_refuted_fixlen",
    "C24_scan_complete_refuted_varlen",
    "C24_oml_calm_scans_fixlen_partial",
    "C24_oml_repaired_calm_scans_fixlen_partial",
    "C24_oml_calm_scans_varlen_partial",
    "C24_oml_repaired_calm_scans_varlen_partial",
    "C24_oml_scan_complete_refuted_fixlen",
    "C24_oml_scan_complete_refuted_varlen",
    "C24_oml_half_merge_refuted_fixlen",
    "C24_oml_half_merge_refuted_varlen"
   ],
   "note": "False of the code: the optimistic iterator compares a begin position with an end position of a later version of the leaf and ends without a version check. Proved for BTreeOSL for every execution of programs without Delete (callers calm as in C16, or with the repairs of C16), and with Delete for every execution in which a scan does not do this and is not at a removed page. BTreeOML (OScanModel.v): the same defect is exhibited there, and a second one, a scan that meets a half-finished Merge misses a record; proved for every execution in which nobody meets a half-finished Merge or TryShrinkTree, no scan takes its end position from a changed page and no scan without records arrives at a removed leaf; with the repairs of C39 and C40 only the scans have to be calm."
  },
  {
   "property": "C25",
   "status": "partial",
   "theorems": [
    "C25_pess_single_layer_fixlen",
    "C25_pess_single_layer_varlen",
    "C25_pess_multi_layer_fixlen",
    "C25_pess_multi_layer_varlen",
    "C25_opt_single_layer_fixlen_partial",
    "C25_opt_single_layer_varlen_partial",
    "C25_opt_multi_layer_fixlen_partial",
    "C25_opt_multi_layer_varlen_partial",
    "C25_opt_single_layer_fixlen_refuted",
    "C25_opt_single_layer_varlen_refuted",
    "C25_opt_multi_layer_fixlen_refuted",
    "C25_opt_multi_layer_varlen_refuted"
   ],
   "note": "Holds for BTreePSL and BTreePML for every interleaving of any number of iterators and reads. False for BTreeOSL and BTreeOML, whose iterators share one thread_local key (refuted: a scan skips records); proved for them when only the youngest iterator is advanced."
  },
  {
   "property": "C26",
   "status": "partial",
   "theorems": [
    "C26_by_value_single_layer_fixlen",
    "C26_by_value_single_layer_varlen",
    "C26_by_value_multi_layer_fixlen",
    "C26_by_value_multi_layer_varlen",
    "C26_optimistic_single_layer_fixlen",
    "C26_optimistic_single_layer_varlen",
    "C26_optimistic_multi_layer_fixlen",
    "C26_optimistic_multi_layer_varlen",
    "C26_pointer_single_layer_varlen_refuted",
    "C26_pointer_multi_layer_varlen_refuted"
   ],
   "note": "Proved when the key is passed by value (fixed-length keys, or a copy of a variable-length key) and for the optimistic iterators. False for variable-length keys with BTreePSL and BTreePML when the pointer returned by the iterator is passed to Read: it points into the buffer that the search overwrites."
  },
  {
   "property": "C27",
   "status": "proved",
   "theorems": [
    "C27_search_fixlen",
    "C27_search_varlen"
   ],
   "note": "Binary search of both layouts, for any node whose keys are readable and ascending; only positions below the record count are read."
  },
  {
   "property": "C28",
   "status": "proved",
   "theorems": [
    "C28_split_single_layer_fixlen",
    "C28_split_multi_layer_fixlen",
    "C28_split_varlen",
    "C28_reachable_single_layer_fixlen",
    "C28_reachable_single_layer_varlen",
    "C28_reachable_multi_layer_fixlen",
    "C28_reachable_multi_layer_varlen"
   ],
   "note": "Split of a full, well-formed node; the reachable theorems show every node of every reached tree is well-formed."
  },
  {
   "property": "C29",
   "status": "proved",
   "theorems": [
    "C29_merge_single_layer_fixlen",
    "C29_merge_multi_layer_fixlen",
    "C29_merge_varlen",
    "C29_merge_right_node_single_layer_varlen",
    "C28_reachable_single_layer_fixlen",
    "C28_reachable_single_layer_varlen",
    "C28_reachable_multi_layer_fixlen",
    "C28_reachable_multi_layer_varlen"
   ],
   "note": "Merge of two adjacent well-formed nodes."
  },
  {
   "property": "C30",
   "status": "proved",
   "theorems": [
    "C30_dead_space_exact",
    "C30_reuse_revives",
    "C30_cleanup",
    "C30_single_layer_steps",
    "C30_multi_layer_steps"
   ],
   "note": "Variable-length nodes; evolves is the closure of node creation under every node-level operation."
  },
  {
   "property": "C31",
   "status": "proved",
   "theorems": [
    "C31_all_variants_agree"
   ],
   "note": "Results compared along an order embedding of the fixed-length key type into the variable-length one."
  },
  {
   "property": "C32",
   "status": "proved",
   "theorems": [
    "C32_round_trip",
    "C32_delete_only_changes_the_flag",
    "C32_equality",
    "C32_equality_ignores_the_flag",
    "C32_fields_determine_the_entry"
   ],
   "note": "The entry is modelled as the 64-bit word its bit fields occupy."
  },
  {
   "property": "C33",
   "status": "proved",
   "theorems": [
    "C33_latches_released_single_layer_fixlen",
    "C33_latches_released_single_layer_varlen",
    "C33_latches_released_multi_layer_fixlen",
    "C33_latches_released_multi_layer_varlen",
    "C33_calm_idle_thread_holds_no_latch_fixlen",
    "C33_calm_idle_thread_holds_no_latch_varlen",
    "C33_idle_thread_holds_no_latch_pml_fixlen",
    "C33_idle_thread_holds_no_latch_pml_varlen",
    "C33_finished_scan_holds_no_latch_pml_fixlen",
    "C33_finished_scan_holds_no_latch_pml_varlen"
   ],
   "note": "All four trees, both node layouts, for admissible size parameters. The calm theorems cover concurrent executions of the single-layer trees."
  },
  {
   "property": "C34",
   "status": "partial",
   "theorems": [
    "C34_refuted_single_layer_fixlen",
    "C34_refuted_single_layer_varlen",
    "C34_refuted_multi_layer_fixlen",
    "C34_refuted_multi_layer_varlen",
    "C34_old_tree_lost_single_layer_fixlen",
    "C34_old_tree_lost_single_layer_varlen",
    "C34_old_tree_lost_multi_layer_fixlen",
    "C34_old_tree_lost_multi_layer_varlen"
   ],
   "note": "False of the code: Bulkload succeeds, the old records are gone, and exactly the old tree's pages are still allocated after the destructor."
  },
  {
   "property": "C35",
   "status": "partial",
   "theorems": [
    "C35_under_x_osl_fixlen",
    "C35_under_x_osl_varlen",
    "C35_under_x_oml_fixlen",
    "C35_under_x_oml_varlen_partial",
    "C35_under_x_oml_varlen_refuted",
    "C35_x_is_alone",
    "C35_try_same_version"
   ],
   "note": "Proved for three of the four optimistic node types (a new page may be written before it is published). False for oml/node_varlen.hpp: Merge writes h_key_offset_ and h_key_len_ under SIX; proved there without Merge."
  },
  {
   "property": "C36",
   "status": "partial",
   "theorems": [
    "C36_calm_reads_fixlen_partial",
    "C36_calm_reads_varlen_partial",
    "C36_repaired_reads_fixlen_partial",
    "C36_repaired_reads_varlen_partial",
    "C16_C36_fixlen_refuted",
    "C16_C36_varlen_refuted",
    "C16_C36_default_page_refuted"
   ],
   "note": "False of the code (see C16); proved for calm executions and for the repaired machine."
  },
  {
   "property": "C37",
   "status": "proved",
   "theorems": [
    "C37_fields_fit_single_layer_fixlen",
    "C37_fields_fit_single_layer_varlen",
    "C37_fields_fit_multi_layer_fixlen",
    "C37_fields_fit_multi_layer_varlen"
   ],
   "note": "Every node of every tree a session can build, for pages below 64 KiB."
  },
  {
   "property": "C38",
   "status": "partial",
   "theorems": [
    "C38_pess_single_layer_refuted",
    "C38_opt_single_layer_refuted",
    "C38_pess_multi_layer_refuted",
    "C38_opt_multi_layer_refuted",
    "C05_scan_exact_single_layer_fixlen",
    "C05_scan_exact_single_layer_varlen",
    "C05_scan_exact_multi_layer_fixlen",
    "C05_scan_exact_multi_layer_varlen"
   ],
   "note": "False for the end key: the iterator keeps a reference and reads it again at each leaf. With unchanged variables the scan is exact (C05)."
  },
  {
   "property": "C39",
   "status": "partial",
   "theorems": [
    "C39_lost_key_fixlen_refuted",
    "C39_lost_key_varlen_refuted",
    "C39_lost_key_default_page_refuted",
    "C39_C40_calm_fixlen_partial",
    "C39_C40_calm_varlen_partial",
    "C39_C40_repaired_fixlen_partial",
    "C39_C40_repaired_varlen_partial"
   ],
   "note": "False of the code: Merge unlocks the left node before it marks the right node as removed, and the parent still leads to the right node. A writer that was suspended on the left node stores a key there and returns; a Read that starts later is led to the right node and misses the key. Proved for every execution of the code in which no thread looks at the page or loads root_ while another thread is between the two halves of a Merge or a TryShrinkTree (calm), and for every execution of the machine in which these halves are one step."
  },
  {
   "property": "C40",
   "status": "partial",
   "theorems": [
    "C40_released_root_fixlen_refuted",
    "C40_released_root_varlen_refuted",
    "C40_released_root_default_page_refuted",
    "C40_released_leaf_fixlen_refuted",
    "C39_C40_calm_fixlen_partial",
    "C39_C40_calm_varlen_partial",
    "C39_C40_repaired_fixlen_partial",
    "C39_C40_repaired_varlen_partial"
   ],
   "note": "False of the code in two ways: TryShrinkTree hands the root to the garbage collector before root_ is changed, and a call that starts during Merge of two inner nodes can be led to a leaf retired before it began. Proved for calm executions and for the repaired machine (see C39): no step uses a page that may have been released."
  },
  {
   "property": "C41",
   "status": "partial",
   "theorems": [
    "C41_no_deadlock_calm_fixlen_partial",
    "C41_no_deadlock_calm_varlen_partial",
    "C41_no_deadlock_repaired_fixlen_partial",
    "C41_no_deadlock_repaired_varlen_partial",
    "C41_idle_thread_holds_no_latch_calm_fixlen_partial",
    "C41_idle_thread_holds_no_latch_calm_varlen_partial"
   ],
   "note": "Proved for calm executions of the code and for all executions of the repaired machine (see C39), by a rank on waiting threads. Missing: executions after a Merge has been observed half-done, where the tree may already be damaged."
  },
  {
   "property": "C42",
   "status": "partial",
   "theorems": [
    "C42_touches_complete",
    "C42_scan_touches_complete",
    "C42_calm_reclamation_psl_fixlen_partial",
    "C42_repaired_reclamation_psl_fixlen",
    "C42_calm_reclamation_osl_fixlen_partial",
    "C42_repaired_reclamation_osl_fixlen",
    "C42_calm_reclamation_psl_varlen_partial",
    "C42_repaired_reclamation_psl_varlen",
    "C42_calm_reclamation_osl_varlen_partial",
    "C42_repaired_reclamation_osl_varlen",
    "C42_shrink_refuted_fixlen",
    "C42_shrink_refuted_varlen",
    "C42_iterator_refuted_fixlen",
    "C42_iterator_refuted_varlen",
    "reclamation_met_fixlen",
    "reclamation_met_varlen"
   ],
   "note": "False of the code in two ways: TryShrinkTree hands the old root to the collector before the new root is stored, so a call that starts in between uses a released page (BTreePSL and BTreeOSL); the iterators of BTreePSL keep no epoch guard and can come to a leaf that is then released. Proved for all executions in which neither happens and the callers are calm (C16), and for all executions of the repaired tree. The touches theorems say that the pages watched are all the pages a step uses. no_leak: with nothing in progress, the pages not released are exactly those reachable from the root."
  },
  {
   "property": "C43",
   "status": "partial",
   "theorems": [
    "C43_scans_pml_fixlen_partial",
    "C43_scans_pml_varlen_partial",
    "C43_calm_scans_pml_fixlen_partial",
    "C43_calm_scans_pml_varlen_partial",
    "C43_repaired_scans_pml_fixlen_partial",
    "C43_repaired_scans_pml_varlen_partial",
    "C43_only_the_descent_pml_fixlen_partial",
    "C43_only_the_descent_pml_varlen_partial",
    "C20_release_with_scans_pml_fixlen_partial",
    "C20_release_with_scans_pml_varlen_partial",
    "C19_no_deadlock_with_scans_pml_fixlen",
    "C19_no_deadlock_with_scans_pml_varlen",
    "C33_finished_scan_holds_no_latch_pml_fixlen",
    "C33_finished_scan_holds_no_latch_pml_varlen",
    "C43_scan_uses_released_root_fixlen_refuted",
    "C43_scan_uses_released_root_varlen_refuted",
    "busy_scans_fixlen",
    "busy_scans_varlen"
   ],
   "note": "False of the code in one way: a scan on its way down can hold the root's latch in shared mode when ShrinkTreeIfNeeded releases the root's page, and then uses the released page. Up to such a moment all scans of all executions of the code are right; in executions in which no reader or scan is at the root when it is released, and in all executions of the repaired tree, there is no undefined behaviour at all."
  },
  {
   "property": "C44",
   "status": "partial",
   "theorems": [
    "C44_write_under_iterator_never_returns_pml_fixlen_refuted",
    "C44_write_under_iterator_never_returns_pml_varlen_refuted",
    "C44_read_under_iterator_pml_fixlen_partial",
    "C44_read_under_iterator_pml_varlen_partial",
    "self_deadlock_fixlen",
    "self_deadlock_varlen"
   ],
   "note": "False of the code: the iterator keeps the shared latch of its leaf, so a Write, Insert, Update or Delete on a key of that leaf made by the thread that has the iterator open never returns, in any execution. Proved that open iterators never make a Read wait. BTreePML only."
  },
  {
   "property": "C45",
   "status": "partial",
   "theorems": [
    "C45_no_leak_pml_fixlen",
    "C45_no_leak_calm_fixlen_partial",
    "C45_no_leak_repaired_fixlen_partial",
    "C45_once_calm_fixlen_partial",
    "C45_once_repaired_fixlen_partial",
    "C45_no_leak_pml_varlen",
    "C45_no_leak_calm_varlen_partial",
    "C45_no_leak_repaired_varlen_partial",
    "C45_once_calm_varlen_partial",
    "C45_once_repaired_varlen_partial",
    "fill_fixlen",
    "fill_varlen",
    "fill_prog_ok"
   ],
   "note": "BTreePML: proved for every state of every execution of the code as it is (an execution ends where a released page is used, C20). BTreeOML: proved for calm executions of the code as it is (nobody looks at a half-finished Merge or TryShrinkTree) and for all executions of the repaired tree; missing: executions of the code as it is that are not calm."
  },
  {
   "property": "C46",
   "status": "partial",
   "theorems": [
    "C46_safe_calm_fixlen_partial",
    "C46_safe_repaired_fixlen_partial",
    "C46_scans_never_wait_fixlen",
    "C46_calls_go_on_calm_fixlen_partial",
    "C46_calls_go_on_repaired_fixlen_partial",
    "C46_no_leak_calm_fixlen_partial",
    "C46_no_leak_repaired_fixlen_partial",
    "C46_safe_calm_varlen_partial",
    "C46_safe_repaired_varlen_partial",
    "C46_scans_never_wait_varlen",
    "C46_calls_go_on_calm_varlen_partial",
    "C46_calls_go_on_repaired_varlen_partial",
    "C46_no_leak_calm_varlen_partial",
    "C46_no_leak_repaired_varlen_partial",
    "C46_released_root_fixlen_refuted",
    "C46_released_root_varlen_refuted"
   ],
   "note": "Scans never wait: proved for all states. The rest is false of the code (a scan uses a released root); proved for all executions in which nobody meets a half-finished Merge or TryShrinkTree, whatever the scans do otherwise, and for all executions of the tree with the repairs of C39 and C40."
  },
  {
   "property": "C47",
   "status": "partial",
   "theorems": [
    "C47_everybody_is_answered_pml_fixlen_partial",
    "C47_calm_everybody_is_answered_pml_fixlen_partial",
    "C47_repaired_everybody_is_answered_pml_fixlen_partial",
    "few_calm_fixlen",
    "C47_everybody_is_answered_pml_varlen_partial",
    "C47_calm_everybody_is_answered_pml_varlen_partial",
    "C47_repaired_everybody_is_answered_pml_varlen_partial",
    "few_calm_varlen"
   ],
   "note": "Proved for the code as it is: every fair execution answers every call and every scan, or uses a released root page (C20, C43); without exception for calm executions and for the tree in which ShrinkTreeIfNeeded waits for the readers of the root. few_calm: a fair execution of four callers and two scanners that is calm for ever."
  },
  {
   "property": "C48",
   "status": "partial",
   "theorems": [
    "C48_asked_again_pessimistic",
    "C48_asked_again_optimistic",
    "C48_scan_asking_often",
    "C48_asked_again_unchanged_leaf_oml_partial",
    "C48_asked_again_skips_oml_fixlen_refuted",
    "C48_asked_again_skips_oml_varlen_refuted"
   ],
   "note": "Proved for one thread, all iterators, trees and layouts, in all states. With concurrent writers proved for the optimistic iterator as long as its leaf does not change; false of the code otherwise: HasRecord marks its record as read, so asked again after a write to the leaf it moves on and the record is lost."
  },
  {
   "property": "C49",
   "status": "proved",
   "theorems": [
    "C49_scan_and_change_fixlen",
    "C49_no_leak_fixlen",
    "C49_scan_and_change_varlen",
    "C49_no_leak_varlen"
   ],
   "note": "For the code as it is, with no calmness assumption: executions without overlap are proved to meet neither of the situations in which C24, C39, C40 or C46 fail. Said of BTreeOML only; the scans themselves are stated as in C24."
  },
  {
   "property": "C50",
   "status": "proved",
   "theorems": [
    "C50_next_record_fixlen",
    "C50_next_record_varlen"
   ],
   "note": "For the code as it is. The map is computed from the calls of the history with the sequential specification, not from the model's pages. Said of BTreeOML only."
  },
  {
   "property": "C51",
   "status": "partial",
   "theorems": [
    "C51_end_was_right_fixlen_partial",
    "C51_end_was_right_varlen_partial",
    "C51_end_after_looking_fixlen_partial",
    "C51_end_after_looking_varlen_partial",
    "C51_end_of_scan_fixlen_refuted",
    "C51_end_of_scan_varlen_refuted"
   ],
   "note": "Proved: there was nothing more at some moment since the last record was delivered (end_was_right), and at the moment of the answer if HasRecord looks at the leaf before it answers (end_after_looking). False of the code otherwise: at the end of the last leaf in range HasRecord answers without looking at the version of the leaf, so a record written after the last one was delivered is not seen. Witness in both layouts, one thread."
  },
  {
   "property": "C52",
   "status": "proved",
   "theorems": [
    "C52_has_record_returns_fixlen",
    "C52_has_record_returns_varlen"
   ],
   "note": "For the code as it is, when HasRecord runs with nobody else inside, in steps in which HasSameVersion does not fail for an unchanged version (C35). Said of BTreeOML only; with concurrent writers HasRecord may have to start again any number of times."
  },
  {
   "property": "C53",
   "status": "proved",
   "theorems": [
    "C53_scan_returns_fixlen",
    "C53_scan_returns_varlen",
    "C53_scan_loop_ends_fixlen",
    "C53_scan_loop_ends_varlen"
   ],
   "note": "For the code as it is, with nobody else inside, in steps in which HasSameVersion does not fail for an unchanged version (C35). Said of BTreeOML only; what the scan delivers is C49 and C50."
  }
 ]
}