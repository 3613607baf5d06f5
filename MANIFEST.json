{
 "claims": [
  {
   "property": "C01",
   "status": "proved",
   "theorems": [
    "sort_unstable_sorts",
    "sort_unstable_by_sorts"
   ],
   "note": "All element types, lists, strict weak orders and build configurations; zero-sized types are assumed to have one value."
  },
  {
   "property": "C02",
   "status": "proved",
   "theorems": [
    "sort_unstable_by_any_comparator"
   ],
   "note": "Comparator is an arbitrary state machine; run returning Done excludes out-of-bounds access, internal panics and divergence."
  },
  {
   "property": "C03",
   "status": "proved",
   "theorems": [
    "sort_unstable_by_panic_safe",
    "sort_unstable_by_panic_propagates"
   ],
   "note": "Comparator may panic at any call; outcome is Done or the comparator's panic, array is a permutation."
  },
  {
   "property": "C04",
   "status": "proved",
   "theorems": [
    "sort_unstable_depth",
    "sort_unstable_uses_depth"
   ],
   "note": "Recursion depth is an explicit argument of the model; Diverged is impossible with depth log2 len + 2."
  },
  {
   "property": "C12",
   "status": "proved",
   "theorems": [
    "select_nth_unstable_selects",
    "select_nth_unstable_by_selects"
   ],
   "note": "Release builds (dbg = false). The element is placed and equal to the order statistic of every sorted arrangement."
  },
  {
   "property": "C13",
   "status": "proved",
   "theorems": [
    "select_nth_unstable_index_out_of_range",
    "select_nth_unstable_index_in_range"
   ],
   "note": "Out of range: panic, array and closure state untouched. In range: no panic (release builds)."
  },
  {
   "property": "C14",
   "status": "proved",
   "theorems": [
    "select_nth_unstable_any_comparator",
    "select_nth_unstable_by_panic_propagates"
   ],
   "note": "Any closure incl. panicking; in debug builds the debug_assert of median_of_medians may fire as well."
  },
  {
   "property": "C15",
   "status": "proved",
   "theorems": [
    "select_many_nth_unstable_selects",
    "select_many_nth_unstable_by_selects"
   ],
   "note": "Release builds; array length fits in usize."
  },
  {
   "property": "C16",
   "status": "proved",
   "theorems": [
    "select_many_nth_unstable_rejects",
    "select_many_nth_unstable_accepts"
   ],
   "note": "Both overflow modes; rejection for every comparator."
  },
  {
   "property": "C17",
   "status": "proved",
   "theorems": [
    "select_many_nth_unstable_any_comparator",
    "select_many_nth_unstable_by_panic_propagates"
   ],
   "note": "Any closure, any index list."
  },
  {
   "property": "C45",
   "status": "partial",
   "theorems": [
    "select_nth_unstable_debug_refuted",
    "select_nth_unstable_debug_distinct_refuted",
    "select_nth_unstable_by_debug_refuted",
    "select_nth_unstable_debug_partial",
    "select_nth_unstable_by_debug_partial"
   ],
   "note": "False of the code: in debug builds the debug_assert of median_of_medians fails for a valid index. The refutations give witnesses of 38 numbers with repetitions (39 on 32-bit), of 46 distinct numbers (64-bit and 32-bit), and of 28 elements with a closure that is no order. The partial theorems prove the claim for strict weak orders on at most 37 elements (the best number), on at most 45 elements of which no two are equal (the best number), for the first and last index, and for any comparator on at most 27 elements (the best number). Open: strict weak orders with equal elements on 38 elements on 32-bit targets. The release-build claim is C12/C13."
  },
  {
   "property": "C05",
   "status": "proved",
   "theorems": [
    "sort_sorts",
    "sort_by_sorts"
   ],
   "note": "All element types, lists, strict weak orders and build configurations."
  },
  {
   "property": "C06",
   "status": "proved",
   "theorems": [
    "sort_sorts",
    "sort_by_sorts"
   ],
   "note": "Same theorems; last conjunct same_order_of_equals."
  },
  {
   "property": "C07",
   "status": "proved",
   "theorems": [
    "sort_by_any_comparator"
   ],
   "note": "Arbitrary stateful comparator; Undefined covers array and scratch-buffer accesses."
  },
  {
   "property": "C08",
   "status": "proved",
   "theorems": [
    "sort_by_panic_safe",
    "sort_by_panic_propagates"
   ],
   "note": "Comparator may panic at any call; array is a permutation."
  },
  {
   "property": "C18",
   "status": "proved",
   "theorems": [
    "binary_search_by_monotone_correct",
    "binary_search_correct",
    "binary_search_by_key_correct"
   ],
   "note": "All element types, lengths and monotone closures; also the binary_search and binary_search_by_key entry points on sorted arrays."
  },
  {
   "property": "C19",
   "status": "proved",
   "theorems": [
    "binary_search_by_any_comparator",
    "bit_length_is_log2",
    "logged_runs"
   ],
   "note": "Arbitrary stateful or panicking closure, with the log of all calls."
  },
  {
   "property": "C20",
   "status": "proved",
   "theorems": [
    "partition_point_correct",
    "partition_point_any_predicate"
   ],
   "note": "Pure predicates for the result, arbitrary stateful ones for the bound."
  },
  {
   "property": "C21",
   "status": "proved",
   "theorems": [
    "partition_dedup_by_correct",
    "partition_dedup_correct"
   ],
   "note": ""
  },
  {
   "property": "C22",
   "status": "proved",
   "theorems": [
    "partition_dedup_by_any_closure",
    "partition_dedup_by_key_is_by"
   ],
   "note": "Closure may change its arguments and panic; aliasing arguments would be Undefined."
  },
  {
   "property": "C23",
   "status": "proved",
   "theorems": [
    "reverse_correct"
   ],
   "note": ""
  },
  {
   "property": "C24",
   "status": "proved",
   "theorems": [
    "is_sorted_by_correct",
    "is_sorted_by_transitive",
    "is_sorted_by_calls"
   ],
   "note": ""
  },
  {
   "property": "C25",
   "status": "proved",
   "theorems": [
    "contains_correct",
    "contains_calls"
   ],
   "note": ""
  },
  {
   "property": "C38",
   "status": "proved",
   "theorems": [
    "sort_by_key_is_sort_by",
    "sort_unstable_by_key_is_sort_unstable_by",
    "select_nth_unstable_by_key_is_by",
    "select_many_nth_unstable_by_key_is_by",
    "is_sorted_by_key_is_by",
    "binary_search_by_key_is_by",
    "sort_by_pure_key_is_sort_by",
    "sort_by_key_panic_propagates",
    "sort_unstable_by_key_panic_propagates",
    "select_nth_unstable_by_key_panic_propagates",
    "select_many_nth_unstable_by_key_panic_propagates"
   ],
   "note": "Key function with state and panics; equality of runs."
  },
  {
   "property": "C43",
   "status": "proved",
   "theorems": [
    "sort_by_zero_sized",
    "sort_unstable_by_zero_sized",
    "select_nth_unstable_by_zero_sized"
   ],
   "note": "Closure state unchanged, so no call is made."
  },
  {
   "property": "C44",
   "status": "proved",
   "theorems": [
    "sort_idempotent",
    "sort_unstable_input_order_independent"
   ],
   "note": ""
  },
  {
   "property": "C42",
   "status": "proved",
   "theorems": [
    "sort_by_sorted_linear",
    "sort_by_descending_linear"
   ],
   "note": "Exact count; holds for every relation, sized elements."
  },
  {
   "property": "C36",
   "status": "proved",
   "theorems": [
    "sort_by_calls_n_log_n"
   ],
   "note": "At most 20 n (log2 n + 1) calls, any closure."
  },
  {
   "property": "C37",
   "status": "partial",
   "theorems": [
    "select_nth_unstable_by_calls_linear_refuted",
    "select_nth_unstable_by_calls_linear_partial"
   ],
   "note": "Proved: for every M there is a constant such that the bound holds whenever no element has more than M equivalent elements (M = 1: no equal elements), in every build. Missing: unboundedly many equal elements, where the claim is false: partition moves elements equal to the pivot to the right, so the fallback median_of_medians (src/partition.rs:183-236) drops one element per iteration on almost-all-equal arrays and recurses on a similar subarray each time; for every polynomial there are a strict weak order, an array and an index with more calls. Arrays with at most eight values are linear as well (C63)."
  },
  {
   "property": "C35",
   "status": "partial",
   "theorems": [
    "sort_unstable_by_calls_n_log_n_refuted",
    "sort_unstable_by_calls_n_log_n_partial",
    "sort_unstable_by_calls_quadratic"
   ],
   "note": "False for arbitrary comparators: a pure relation (not a strict weak order) on 3 values makes the eq-branch of recurse (src/quick_sort.rs:94-103, which leaves limit and was_balanced alone) shed one element per pass; the witness family exceeds every C*n*(log2 n+1). For every closure answering by a strict weak order (panics allowed) at most 340*n*(log2 n+1) calls; for every closure at most 13n^2+20n."
  },
  {
   "property": "C09",
   "status": "proved",
   "theorems": [
    "sort_by_cached_key_sorts"
   ],
   "note": "The standard library's sort_unstable on the (key, index) vector is a question whose answer must be a sorted permutation; the key function and its call log are explicit."
  },
  {
   "property": "C10",
   "status": "proved",
   "theorems": [
    "sort_by_cached_key_panic_safe",
    "sort_by_cached_key_panics_with_key",
    "par_sort_by_cached_key_panic_safe"
   ],
   "note": "Panics of the key function and of the pair comparison."
  },
  {
   "property": "C11",
   "status": "proved",
   "theorems": [
    "cached_key_index_width_invisible",
    "cached_key_index_width_exchangeable",
    "cached_key_index_not_truncated"
   ],
   "note": "All four widths, all sizes of the pair types."
  },
  {
   "property": "C33",
   "status": "proved",
   "theorems": [
    "par_sort_by_cached_key_sorts",
    "par_sort_by_cached_key_schedule_independent"
   ],
   "note": "The delivery order of par_bridge is answered by the environment; each call of the key function is one step."
  },
  {
   "property": "C29",
   "status": "proved",
   "theorems": [
    "par_sort_unstable_sorts",
    "par_sort_unstable_by_sorts",
    "par_sort_unstable_by_key_sorts"
   ],
   "note": "Every interleaving of the tasks of rayon::join (Interleave.v)."
  },
  {
   "property": "C30",
   "status": "proved",
   "theorems": [
    "par_sort_unstable_by_any_comparator",
    "par_sort_unstable_by_key_any_closure"
   ],
   "note": "Any total answer relation, so also stateful, inconsistent and panicking closures; every interleaving."
  },
  {
   "property": "C31",
   "status": "proved",
   "theorems": [
    "par_select_many_nth_unstable_selects",
    "par_select_many_nth_unstable_by_selects",
    "par_select_many_nth_unstable_by_key_selects"
   ],
   "note": "Result slots are modelled by the returned list; None would be an uninitialised slot."
  },
  {
   "property": "C32",
   "status": "proved",
   "theorems": [
    "par_select_many_nth_unstable_any_comparator"
   ],
   "note": "The collection is unchanged on a panic because set_len is not reached; the model returns the appended slots only on normal return."
  },
  {
   "property": "C27",
   "status": "proved",
   "theorems": [
    "par_sort_sorts_stably",
    "par_sort_by_sorts_stably",
    "par_sort_by_key_sorts_stably"
   ],
   "note": "Every interleaving of the tasks, any contents of the uninitialised buffer, any choice of which chunks rayon starts before it notices a panic."
  },
  {
   "property": "C28",
   "status": "proved",
   "theorems": [
    "par_sort_by_any_comparator",
    "par_sort_by_key_any_closure",
    "par_sort_by_never_reads_uninitialised"
   ],
   "note": "Any total answer relation, so also stateful, inconsistent and panicking closures; every interleaving."
  },
  {
   "property": "C34",
   "status": "proved",
   "theorems": [
    "par_sort_unstable_tasks_disjoint",
    "par_select_many_tasks_disjoint",
    "par_sort_tasks_disjoint",
    "par_sort_unstable_schedules_sequential",
    "par_select_many_schedules_sequential",
    "par_sort_schedules_sequential"
   ],
   "note": "Array and merge buffer; result slots are returned values in the model and so cannot be shared."
  },
  {
   "property": "C39",
   "status": "proved",
   "theorems": [
    "all_stable_sorts_agree",
    "unstable_sorts_agree",
    "sort_by_cached_key_agrees_with_sort",
    "sort_unstable_agrees_with_sort"
   ],
   "note": "sort, sort_by, par_sort (every schedule), sort_by_cached_key; sort_unstable and par_sort_unstable when equal elements are indistinguishable."
  },
  {
   "property": "C40",
   "status": "proved",
   "theorems": [
    "sort_then_search",
    "par_sort_then_search"
   ],
   "note": "For sort, sort_unstable, par_sort and par_sort_unstable (every schedule)."
  },
  {
   "property": "C41",
   "status": "proved",
   "theorems": [
    "prepared_indices_are_accepted",
    "prepared_indices_are_accepted_in_parallel"
   ],
   "note": "For select_many_nth_unstable and its parallel variant (every schedule)."
  },
  {
   "property": "C26",
   "status": "proved",
   "theorems": [
    "sorts_act_on_views",
    "selections_act_on_views",
    "dedup_and_reverse_act_on_views",
    "searches_act_on_views",
    "parallel_operations_act_on_views",
    "par_sort_acts_on_views",
    "strided_views"
   ],
   "note": "Any injective index-to-address map; sequential operations with any stateful closure, parallel ones under every schedule. The map is applied to the accesses of the modelled operation; the pointer arithmetic inside ndarray is not modelled."
  },
  {
   "property": "C46",
   "status": "proved",
   "theorems": [
    "stable_sort_returns_memory"
   ],
   "note": "BufGuard, RunVec (down to its slots) and the calls of the allocator are modelled in MAlloc.v; the theorem relates that model to the one the other theorems of sort are about. Sequential sort only."
  },
  {
   "property": "C47",
   "status": "partial",
   "theorems": [
    "stable_sort_allocation_failure_refuted",
    "stable_sort_allocation_failure_partial"
   ],
   "note": "False of the code: if enlarging the vector of runs fails, the vector is dropped with its capacity doubled already and the old block is freed with the wrong length (src/merge_sort.rs:402-403). The witness has 29994 elements. The partial theorem proves the claim for arrays of at most 29993 elements, and for all arrays if only the first two allocations can fail."
  },
  {
   "property": "C48",
   "status": "partial",
   "theorems": [
    "par_sort_unstable_by_calls_n_log_n_refuted",
    "par_sort_unstable_by_calls_n_log_n_partial",
    "par_sort_unstable_by_calls_quadratic"
   ],
   "note": "False of the code: every task of rayon::join restarts recurse with was_balanced = true (src/par/quick_sort.rs:138), so limit is not decremented while a part has more than 2000 elements; for each C there are a strict weak order and an array with more than C n log n calls. The partial theorem has the bound for arrays of at most 2001 elements (nothing is forked); a quadratic bound holds for every closure. Calls are counted in the run that executes the tasks of a join one after the other. Arrays with few values: C63."
  },
  {
   "property": "C49",
   "status": "partial",
   "theorems": [
    "par_sort_unstable_join_depth_refuted",
    "par_sort_unstable_join_depth_partial"
   ],
   "note": "False of the code for the same reason as C48. What holds is the linear bound n - 2001, hence no join up to 2001 elements, and 2k - 1 for arrays with k values (C63)."
  },
  {
   "property": "C50",
   "status": "proved",
   "theorems": [
    "sort_unstable_by_sorted_linear",
    "sort_unstable_by_descending_linear",
    "par_sort_unstable_by_sorted_linear",
    "par_sort_unstable_by_descending_linear"
   ],
   "note": "The documented best case. Holds for every comparator (asymmetric for the descending arrays), sized elements."
  },
  {
   "property": "C51",
   "status": "partial",
   "theorems": [
    "select_many_nth_unstable_by_calls_n_log_m_refuted",
    "select_many_nth_unstable_by_calls_n_log_m_partial",
    "par_select_many_nth_unstable_by_calls_n_log_m_partial"
   ],
   "note": "False as stated, already for one index (see C37): refuted for every polynomial in n. Proved for arrays in which each element has a bounded number of equivalent elements. Arrays with at most eight values: C63."
  },
  {
   "property": "C52",
   "status": "proved",
   "theorems": [
    "par_sort_by_calls_n_log_n",
    "par_sort_by_calls_n_log_n_stateful"
   ],
   "note": "Every schedule (calls_made, CallSpec.v), every closure; a prefix of a run counts as well. The second theorem is for stateful closures with the tasks one after the other."
  },
  {
   "property": "C53",
   "status": "proved",
   "theorems": [
    "par_sort_unstable_panic_leaves",
    "par_sort_unstable_by_panic_leaves",
    "par_sort_unstable_by_key_panic_leaves",
    "par_sort_panic_leaves",
    "par_sort_by_panic_leaves",
    "par_sort_by_key_panic_leaves",
    "par_select_many_nth_unstable_panic_leaves",
    "par_select_many_nth_unstable_by_panic_leaves",
    "par_select_many_nth_unstable_by_key_panic_leaves"
   ],
   "note": "Every schedule with the log of its calls (schedule_log, CallSpec.v), every closure. For the selection: valid indices, release build (debug builds may fail an assertion see C45)."
  },
  {
   "property": "C54",
   "status": "proved",
   "theorems": [
    "sort_by_key_calls_n_log_n",
    "sort_unstable_by_key_calls_n_log_n",
    "par_sort_by_key_calls_n_log_n",
    "select_nth_unstable_by_key_calls_linear",
    "sort_by_key_calls_twice",
    "sort_unstable_by_key_calls_twice",
    "select_nth_unstable_by_key_calls_twice"
   ],
   "note": "The documented O(mn log n) with key functions of cost O(m). The selection is linear only if the multiplicity of the keys is bounded (see C37)."
  },
  {
   "property": "C55",
   "status": "proved",
   "theorems": [
    "sort_calls_on_elements",
    "sort_by_calls_on_elements",
    "sort_by_key_calls_on_elements",
    "sort_unstable_calls_on_elements",
    "sort_unstable_by_calls_on_elements",
    "sort_unstable_by_key_calls_on_elements",
    "select_nth_unstable_calls_on_elements",
    "select_nth_unstable_by_calls_on_elements",
    "select_nth_unstable_by_key_calls_on_elements",
    "select_many_nth_unstable_calls_on_elements",
    "select_many_nth_unstable_by_calls_on_elements",
    "select_many_nth_unstable_by_key_calls_on_elements",
    "par_sort_calls_on_elements",
    "par_sort_by_calls_on_elements",
    "par_sort_by_key_calls_on_elements",
    "par_sort_unstable_calls_on_elements",
    "par_sort_unstable_by_calls_on_elements",
    "par_sort_unstable_by_key_calls_on_elements",
    "par_select_many_nth_unstable_calls_on_elements",
    "par_select_many_nth_unstable_by_calls_on_elements",
    "par_select_many_nth_unstable_by_key_calls_on_elements",
    "stateful_runs_are_schedules"
   ],
   "note": "Holds at every moment of every schedule. The last theorem says that closures with a state are covered by arbitrary answers."
  },
  {
   "property": "C56",
   "status": "proved",
   "theorems": [
    "sort_data_independent",
    "sort_by_data_independent",
    "sort_by_key_data_independent",
    "sort_unstable_data_independent",
    "sort_unstable_by_data_independent",
    "sort_unstable_by_key_data_independent",
    "select_nth_unstable_data_independent",
    "select_nth_unstable_by_data_independent",
    "select_nth_unstable_by_key_data_independent",
    "select_many_nth_unstable_data_independent",
    "select_many_nth_unstable_by_data_independent",
    "select_many_nth_unstable_by_key_data_independent",
    "par_sort_data_independent",
    "par_sort_schedules_data_independent",
    "par_sort_by_data_independent",
    "par_sort_by_schedules_data_independent",
    "par_sort_by_key_data_independent",
    "par_sort_by_key_schedules_data_independent",
    "par_sort_unstable_data_independent",
    "par_sort_unstable_schedules_data_independent",
    "par_sort_unstable_by_data_independent",
    "par_sort_unstable_by_schedules_data_independent",
    "par_sort_unstable_by_key_data_independent",
    "par_sort_unstable_by_key_schedules_data_independent",
    "par_select_many_nth_unstable_data_independent",
    "par_select_many_nth_unstable_schedules_data_independent",
    "par_select_many_nth_unstable_by_data_independent",
    "par_select_many_nth_unstable_by_schedules_data_independent",
    "par_select_many_nth_unstable_by_key_data_independent",
    "par_select_many_nth_unstable_by_key_schedules_data_independent",
    "binary_search_data_independent",
    "binary_search_by_data_independent",
    "binary_search_by_key_data_independent",
    "partition_point_data_independent",
    "contains_data_independent",
    "is_sorted_data_independent",
    "is_sorted_by_key_data_independent",
    "partition_dedup_data_independent",
    "partition_dedup_by_data_independent",
    "partition_dedup_by_key_data_independent",
    "sort_by_cached_key_data_independent",
    "par_sort_by_cached_key_data_independent",
    "sort_by_key_moves_like_keys",
    "sort_unstable_by_key_moves_like_keys",
    "select_nth_unstable_by_key_moves_like_keys",
    "select_many_nth_unstable_by_key_moves_like_keys",
    "par_sort_unstable_by_key_moves_like_keys",
    "par_select_many_nth_unstable_by_key_moves_like_keys"
   ],
   "note": "For par_sort the memory includes the scratch buffer, whose contents must correspond as well."
  },
  {
   "property": "C57",
   "status": "proved",
   "theorems": [
    "sort_accesses",
    "sort_by_accesses",
    "sort_by_key_accesses",
    "sort_unstable_accesses",
    "sort_unstable_by_accesses",
    "sort_unstable_by_key_accesses",
    "select_nth_unstable_accesses",
    "select_nth_unstable_by_accesses",
    "select_nth_unstable_by_key_accesses",
    "select_many_nth_unstable_accesses",
    "select_many_nth_unstable_by_accesses",
    "select_many_nth_unstable_by_key_accesses",
    "par_sort_accesses",
    "par_sort_by_accesses",
    "par_sort_by_key_accesses",
    "par_sort_unstable_accesses",
    "par_sort_unstable_by_accesses",
    "par_sort_unstable_by_key_accesses",
    "par_select_many_nth_unstable_accesses",
    "par_select_many_nth_unstable_by_accesses",
    "par_select_many_nth_unstable_by_key_accesses",
    "sort_by_cached_key_accesses",
    "par_sort_by_cached_key_accesses",
    "is_sorted_accesses",
    "is_sorted_by_key_accesses",
    "is_sorted_early_accesses",
    "contains_accesses",
    "partition_dedup_by_accesses",
    "partition_dedup_accesses",
    "partition_dedup_by_key_accesses",
    "binary_search_by_accesses",
    "binary_search_accesses",
    "binary_search_by_key_accesses",
    "partition_point_accesses",
    "schedules_have_counts",
    "runs_have_counts",
    "sort_by_accesses_n_log_n",
    "sort_unstable_by_accesses_n_log_n",
    "sort_unstable_by_accesses_any",
    "par_sort_by_accesses_n_log_n",
    "select_nth_unstable_by_accesses_linear"
   ],
   "note": "Accesses are the Read and Write operations of the model. The merge buffer of the sequential stable sort and the key vector of the cached-key sorts are values in the model and not counted; each access to the former accompanies an access to the array. Runs and schedules are covered by accesses_bounded; schedules_have_counts and runs_have_counts show that every schedule and every run has counts."
  },
  {
   "property": "C58",
   "status": "proved",
   "theorems": [
    "par_sort_rounds",
    "par_sort_by_rounds",
    "par_sort_by_key_rounds",
    "par_sort_by_sorts_in_rounds",
    "rounds_lead_to_the_end",
    "rounds_at_most_calls"
   ],
   "note": "Time is counted in calls of the closure; reads, writes and joins take none (C57 bounds the accesses). The chunks are sorted in two phases in the model of par_bridge, which doubles the constant."
  },
  {
   "property": "C59",
   "status": "proved",
   "theorems": [
    "stable_sort_memory",
    "stable_sort_short_no_memory",
    "stable_sort_needs_half"
   ],
   "note": "Memory is counted in elements and runs; both blocks that are live while the vector of runs grows are counted. The number of runs is bounded by the invariant of collapse, two runs for each doubling; 10 is the least length of a run."
  },
  {
   "property": "C60",
   "status": "partial",
   "theorems": [
    "par_sort_half_buffer_refuted",
    "par_sort_half_buffer_partial",
    "par_sort_by_half_buffer_partial"
   ],
   "note": "False of the code: two chunks are merged through a buffer as long as the array, so 2001 elements need more than 1000 cells. Proved: up to 2000 elements half is enough and up to 20 none is needed, in every schedule, for lawful and for arbitrary closures. With a buffer of the whole length C27 and C28 hold without this limit."
  },
  {
   "property": "C61",
   "status": "proved",
   "theorems": [
    "par_sort_unstable_by_calls_every_schedule",
    "par_sort_unstable_by_key_calls_every_schedule",
    "par_sort_unstable_by_calls_every_schedule_small",
    "par_select_many_calls_every_schedule"
   ],
   "note": "Calls made along any sequence of steps of the interleaving semantics, including steps that unwind."
  },
  {
   "property": "C62",
   "status": "proved",
   "theorems": [
    "par_select_many_nests_logarithmically",
    "par_select_many_by_key_nests_logarithmically",
    "par_merging_nests_logarithmically",
    "par_sort_unstable_nests_linearly"
   ],
   "note": "active counts the joins around the deepest running task. The chunks of the parallel stable sort are sorted by rayon's par_bridge, whose nesting is rayon's and not bounded here."
  },
  {
   "property": "C63",
   "status": "proved",
   "theorems": [
    "sort_unstable_by_calls_few_values",
    "par_sort_unstable_by_calls_few_values",
    "par_sort_unstable_by_nests_few_values",
    "par_sort_unstable_join_depth_few_values",
    "select_nth_unstable_by_calls_few_values",
    "select_many_nth_unstable_by_calls_few_values",
    "par_select_many_nth_unstable_by_calls_few_values"
   ],
   "note": "The parallel bounds are for every schedule and every prefix of one."
  },
  {
   "property": "C64",
   "status": "proved",
   "theorems": [
    "median_of_medians_recursion",
    "median_of_medians_recursion_memory",
    "partition_at_indices_recursion",
    "select_many_nth_unstable_recursion"
   ],
   "note": "Depth is the argument of the model's recursive functions; running out of it is the outcome Diverged."
  },
  {
   "property": "C65",
   "status": "proved",
   "theorems": [
    "select_nth_unstable_by_calls_any",
    "select_nth_unstable_by_calls_any_memory",
    "select_many_nth_unstable_by_calls_any",
    "par_select_many_nth_unstable_by_calls_any"
   ],
   "note": "The upper bound to C37: no polynomial suffices for all arrays, n to the power of the recursion depth does."
  },
  {
   "property": "C66",
   "status": "proved",
   "theorems": [
    "sort_unstable_words",
    "sort_unstable_by_words",
    "sort_unstable_by_key_words",
    "sort_words",
    "sort_by_words",
    "sort_by_key_words",
    "select_nth_unstable_words",
    "select_nth_unstable_by_words",
    "select_nth_unstable_by_key_words",
    "select_many_nth_unstable_words",
    "select_many_nth_unstable_by_words",
    "select_many_nth_unstable_by_key_words",
    "binary_search_by_words",
    "partition_dedup_by_words",
    "overflow_checks_make_no_difference"
   ],
   "note": "Justifies the natural numbers of the model for the sequential functions. The run stack RunVec is C70, src/par/merge_sort.rs C68, src/par/quick_sort.rs and src/par/partition.rs C69; the cached-key sorts do no arithmetic but casts, which the model does with words."
  },
  {
   "property": "C67",
   "status": "proved",
   "theorems": [
    "partition_points_bound_equal_range",
    "insertion_maintains_order",
    "insertion_points_agree",
    "insertion_indices_differ"
   ],
   "note": "Vec::insert is modelled by insert_at; insertion_indices_differ is the witness that the equivalence of the documentation's comment concerns the resulting arrays only, not the indices."
  },
  {
   "property": "C68",
   "status": "proved",
   "theorems": [
    "par_sort_words",
    "par_sort_by_words",
    "par_sort_by_key_words",
    "par_sort_by_words_interleave",
    "par_sort_words_sorts_stably",
    "par_sort_by_words_sorts_stably",
    "par_sort_by_key_words_sorts_stably",
    "par_sort_by_words_any_comparator"
   ],
   "note": "Extends C66 to src/par/merge_sort.rs."
  },
  {
   "property": "C69",
   "status": "proved",
   "theorems": [
    "par_sort_unstable_words",
    "par_sort_unstable_by_words",
    "par_sort_unstable_by_key_words",
    "par_select_many_nth_unstable_words",
    "par_select_many_nth_unstable_by_words",
    "par_select_many_nth_unstable_by_key_words",
    "par_sort_unstable_by_words_interleave",
    "par_select_many_nth_unstable_by_words_interleave",
    "par_sort_unstable_words_sorts",
    "par_sort_unstable_by_words_sorts",
    "par_sort_unstable_by_key_words_sorts",
    "par_sort_unstable_by_words_any_comparator",
    "par_select_many_nth_unstable_by_words_selects",
    "par_select_many_nth_unstable_by_words_any_comparator"
   ],
   "note": "Extends C66 to src/par/quick_sort.rs and src/par/partition.rs. As in C66, unsorted indices in builds with overflow checks are excluded: there the model itself panics by overflow (C32)."
  },
  {
   "property": "C70",
   "status": "proved",
   "theorems": [
    "stable_sort_memory_words",
    "stable_sort_words_return_memory",
    "stable_sort_any_allocator",
    "stable_sort_any_allocator_sorts"
   ],
   "note": "Extends C66 to the run stack RunVec and adds the layouts of src/stable_sort.rs. Elements without bytes are excluded from the first two theorems: for them the sort returns before allocating. Blocks are identified by what the allocator returns; a fresh block is assumed not to overlap the array."
  },
  {
   "property": "C71",
   "status": "proved",
   "theorems": [
    "select_many_nth_unstable_lends",
    "select_many_nth_unstable_lends_selected",
    "select_many_nth_unstable_lends_all",
    "select_many_nth_unstable_lends_panic_propagates",
    "select_many_nth_unstable_lends_same_code"
   ],
   "note": "The closure is is_less, an arbitrary state machine; the wrappers of the _by and _by_key methods are special cases of it. Extend::extend is called with one pair, as in the code."
  },
  {
   "property": "C72",
   "status": "proved",
   "theorems": [
    "sort_by_concatenated_sequences",
    "sort_by_key_concatenated_sequences",
    "par_sort_by_concatenated_sequences",
    "par_sort_by_key_concatenated_sequences",
    "sort_by_nearly_sorted",
    "par_sort_by_nearly_sorted",
    "sort_by_key_nearly_sorted",
    "par_sort_by_key_nearly_sorted",
    "sort_by_appended",
    "par_sort_by_appended"
   ],
   "note": "The documentation says 'very fast' and gives no bound; O(n log k) is what the merging of runs can guarantee. The parallel sort has an array of temporary storage of the same length."
  }
 ]
}