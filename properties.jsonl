{"id": "C01", "title": "sort_unstable sorts", "statement": "If the comparator is a strict weak order, sort_unstable / sort_unstable_by return normally and leave the array in non-decreasing order, holding exactly the elements it held before (same multiset).", "quantifier": "all element types, all arrays of every length and content, all strict weak orders, debug and release builds, 32- and 64-bit targets", "why_tests_cant": "The pattern-defeating quicksort takes different branches (insertion sort, block partitioning, equal partitioning, pattern breaking, heapsort fallback) depending on length and data; the heapsort fallback and the re-partitioning of equal elements are reached only by adversarial inputs a random test does not generate.", "anchors": ["src/lib.rs:sort_unstable", "src/lib.rs:sort_unstable_by", "src/quick_sort.rs:quick_sort", "src/quick_sort.rs:recurse", "src/partition.rs:partition", "src/partition.rs:partition_in_blocks", "src/heap_sort.rs:heap_sort"]}
{"id": "C02", "title": "sort_unstable tolerates any comparator", "statement": "With a comparator that is inconsistent, non-transitive, stateful or random (but does not panic), sort_unstable_by still returns normally, never reads or writes outside the array, never copies an element onto itself with ptr::copy_nonoverlapping, never hits an internal bounds check, and leaves a permutation of the original elements.", "quantifier": "all element types, arrays, and comparators viewed as arbitrary state machines answering each question with any Boolean", "why_tests_cant": "The set of comparator behaviours is infinite; memory-safety of the unchecked accesses depends on all answer sequences, and a test fixes one sequence.", "anchors": ["src/lib.rs:sort_unstable_by", "src/quick_sort.rs:recurse", "src/partition.rs:partition_in_blocks", "src/insertion_sort.rs", "src/heap_sort.rs:heap_sort"]}
{"id": "C03", "title": "sort_unstable is panic safe", "statement": "If the comparator panics at any call, the panic that leaves sort_unstable_by is that panic, and at that moment the array holds a permutation of the original elements: nothing is lost or duplicated (no double drop).", "quantifier": "all arrays, all comparators, every possible call at which the comparator panics", "why_tests_cant": "Each of the O(n log n) comparison sites is a distinct panic point and the hole guards must restore the element for each of them; tests exercise a handful.", "anchors": ["src/lib.rs:sort_unstable_by", "src/insertion_sort.rs:InsertionHole", "src/partition.rs:partition_in_blocks", "src/partition.rs:partition_equal"]}
{"id": "C04", "title": "sort_unstable terminates with logarithmic recursion", "statement": "sort_unstable_by terminates for every comparator, and its recursion depth never exceeds floor(log2(len)) + 2.", "quantifier": "all arrays and all comparators, consistent or not", "why_tests_cant": "Termination for inconsistent comparators and the stack bound are statements about all executions.", "anchors": ["src/lib.rs:sort_unstable_by", "src/quick_sort.rs:recurse"]}
{"id": "C05", "title": "sort sorts", "statement": "If the comparator is a strict weak order, sort / sort_by return normally and leave the array in non-decreasing order, holding exactly the elements it held before.", "quantifier": "all element types, all arrays, all strict weak orders", "why_tests_cant": "TimSort's run detection and collapse policy have a history of input-dependent bugs (run-length invariant) that no test suite found.", "anchors": ["src/lib.rs:sort", "src/lib.rs:sort_by", "src/merge_sort.rs:merge_sort", "src/merge_sort.rs:merge", "src/merge_sort.rs:collapse", "src/stable_sort.rs:stable_sort"]}
{"id": "C06", "title": "sort is stable", "statement": "After sort / sort_by with a strict weak order, elements that compare equal appear in the same relative order as before the call.", "quantifier": "all arrays, all strict weak orders, all equivalence classes of the order", "why_tests_cant": "Stability depends on the direction of every comparison in insertion, reversal of strictly descending runs and both merge directions, for all data.", "anchors": ["src/lib.rs:sort", "src/lib.rs:sort_by", "src/merge_sort.rs:find_streak", "src/merge_sort.rs:merge", "src/insertion_sort.rs:insert_tail"]}
{"id": "C07", "title": "sort tolerates any comparator within its scratch buffer", "statement": "With an arbitrary non-panicking comparator, sort_by returns normally, never accesses the array or its scratch buffer (len/2 elements) outside their bounds, never reads a scratch slot that was not written, never copies an element onto itself with ptr::copy_nonoverlapping, and leaves a permutation of the original elements.", "quantifier": "all arrays and all comparators viewed as arbitrary state machines", "why_tests_cant": "The merge buffer is sized from an argument about the shorter run; violating it is undefined behaviour that need not be observable in a test.", "anchors": ["src/lib.rs:sort_by", "src/merge_sort.rs:merge", "src/merge_sort.rs:merge_sort", "src/merge_sort.rs:provide_sorted_batch"]}
{"id": "C08", "title": "sort is panic safe", "statement": "If the comparator panics at any call, the same panic leaves sort_by and the array holds a permutation of the original elements, including when the panic strikes while elements are parked in the scratch buffer.", "quantifier": "all arrays, all comparators, every call at which the comparator panics", "why_tests_cant": "The number of panic points grows with n log n; each leaves a different split between array, buffer and hole.", "anchors": ["src/lib.rs:sort_by", "src/merge_sort.rs:MergeHole", "src/insertion_sort.rs:InsertionHole"]}
{"id": "C09", "title": "sort_by_cached_key sorts stably by key", "statement": "sort_by_cached_key leaves the array equal to the unique stable arrangement of the original elements by key: sorted by key, permutation, elements with equal keys in original order; the key function is called exactly once per element (in array order) when len >= 2 and never otherwise.", "quantifier": "all arrays, all key functions, all totally ordered key types, every correct implementation of the standard library's unstable sort used for the index vector", "why_tests_cant": "The in-place cycle-chasing permutation step must be right for every permutation; tests sample few of the n! permutations.", "anchors": ["src/lib.rs:sort_by_cached_key"]}
{"id": "C10", "title": "sort_by_cached_key panic in key function", "statement": "If the key function panics on some element, the array is left exactly as it was. If the key comparison panics inside the index sort, the array is also left unchanged.", "quantifier": "all arrays, every element at which the key function panics", "why_tests_cant": "Universal over panic points and data.", "anchors": ["src/lib.rs:sort_by_cached_key"]}
{"id": "C11", "title": "index width selection is invisible", "statement": "sort_by_cached_key gives the same result whichever of the index types u8/u16/u32/usize is selected for the index vector: no index is truncated for any length admitted for that type.", "quantifier": "all array lengths, all size relations between the (key, index) pair types, all four index widths", "why_tests_cant": "Truncation would show only at particular boundary lengths (255, 65535, 2^32-1), the last of which is far too big for a test.", "anchors": ["src/lib.rs:sort_by_cached_key", "src/lib.rs:par_sort_by_cached_key"]}
{"id": "C12", "title": "select_nth_unstable selects", "statement": "For index < len and a strict weak order, select_nth_unstable[_by] returns normally; the array is a permutation of the original; the element at index is the one a full sort would put there; everything before it is <= it and everything after it is >= it; the returned three parts are exactly array[..index], array[index], array[index+1..].", "quantifier": "all arrays, all indices below the length, all strict weak orders (release builds)", "why_tests_cant": "The median-of-medians fallback is reached only after 16 unbalanced partitions, on adversarial data no random test produces.", "anchors": ["src/lib.rs:select_nth_unstable", "src/lib.rs:select_nth_unstable_by", "src/partition.rs:partition_at_index", "src/partition.rs:partition_at_index_loop", "src/partition.rs:median_of_medians"]}
{"id": "C13", "title": "select_nth_unstable panics exactly when index >= len", "statement": "select_nth_unstable with a non-panicking comparator panics if and only if index >= len, and in that case leaves the array untouched without calling the comparator.", "quantifier": "all arrays, all indices, all non-panicking comparators", "why_tests_cant": "The 'only if' direction quantifies over all data and comparator answers, including those driving the median-of-medians fallback whose debug assertion can fire.", "anchors": ["src/lib.rs:select_nth_unstable", "src/partition.rs:partition_at_index", "src/partition.rs:median_of_medians"]}
{"id": "C14", "title": "select_nth_unstable tolerates any comparator", "statement": "With an arbitrary, stateful or panicking comparator, select_nth_unstable_by terminates, never accesses memory outside the array, never copies an element onto itself with ptr::copy_nonoverlapping, and leaves a permutation of the original elements whether it returns or panics; the only panic leaving it (release build, index < len) is the comparator's own.", "quantifier": "all arrays, all indices below len, all comparators including panicking ones", "why_tests_cant": "Infinite family of comparator behaviours; the fallback code with unchecked indices is reachable only for some of them.", "anchors": ["src/lib.rs:select_nth_unstable_by", "src/partition.rs:partition_at_index_loop", "src/partition.rs:median_of_ninthers"]}
{"id": "C15", "title": "select_many_nth_unstable selects all indices", "statement": "For strictly increasing indices below len and a strict weak order, select_many_nth_unstable returns normally, yields one (index, element) pair per requested index in increasing index order, each element is the one a full sort would place at that index, is located at that index in the array, and the array is a permutation of the original; between two consecutive selected positions all elements are ordered between the two selected ones.", "quantifier": "all arrays, all strictly increasing index lists of any length, all strict weak orders (release builds)", "why_tests_cant": "Combination of index lists and data is unbounded.", "anchors": ["src/lib.rs:select_many_nth_unstable", "src/lib.rs:select_many_nth_unstable_by", "src/partition.rs:partition_at_indices"]}
{"id": "C16", "title": "select_many_nth_unstable rejects invalid indices", "statement": "If the indices are not strictly increasing or some index is >= len, select_many_nth_unstable panics instead of returning wrong references, both when integer overflow is checked and when it wraps; the array is left a permutation of the original; with valid indices and a non-panicking comparator it does not panic.", "quantifier": "all arrays, all index lists, both overflow modes, all non-panicking comparators (release build for the no-panic direction)", "why_tests_cant": "An invalid list is detected only by a relative index that underflows; whether every invalid list is detected is a universally quantified claim.", "anchors": ["src/lib.rs:select_many_nth_unstable", "src/partition.rs:partition_at_indices"]}
{"id": "C17", "title": "select_many_nth_unstable tolerates any comparator", "statement": "With any comparator, select_many_nth_unstable_by terminates, leaves a permutation of the original elements on return and on panic, and on return hands out pairwise distinct element references, one for each requested index, at exactly the requested positions.", "quantifier": "all arrays, all index lists, all comparators including panicking ones", "why_tests_cant": "Aliasing of the returned mutable references would be undefined behaviour and is a claim about all executions.", "anchors": ["src/lib.rs:select_many_nth_unstable_by", "src/partition.rs:partition_at_indices"]}
{"id": "C18", "title": "binary_search is correct on partitioned data", "statement": "If the comparator function is monotone on the array (all Less, then all Equal, then all Greater), binary_search_by returns Ok(i) with f(array[i]) = Equal if some element is Equal, and otherwise Err(i) where i is the number of Less elements, so inserting there keeps the order.", "quantifier": "all arrays, all monotone comparator functions; with binary_search / binary_search_by_key for all sorted arrays and needles", "why_tests_cant": "All lengths and all positions of the Equal block.", "anchors": ["src/lib.rs:binary_search", "src/lib.rs:binary_search_by", "src/lib.rs:binary_search_by_key"]}
{"id": "C19", "title": "binary_search is safe and logarithmic for any comparator", "statement": "binary_search_by with an arbitrary (stateful) comparator never reads outside the array, returns Ok(i) with i < len or Err(i) with i <= len, only returns Ok(i) when the comparator's last answer about element i was Equal, never modifies the array, and calls the comparator at most floor(log2(len)) + 1 times.", "quantifier": "all arrays, all comparators as arbitrary state machines including panicking ones", "why_tests_cant": "The unchecked read and the call bound are claims about every answer sequence.", "anchors": ["src/lib.rs:binary_search_by"]}
{"id": "C20", "title": "partition_point finds the boundary", "statement": "If pred holds on a prefix and on no later element, partition_point(pred) is the length of that prefix; for any predicate the result is <= len.", "quantifier": "all arrays, all predicates", "why_tests_cant": "All lengths and boundaries.", "anchors": ["src/lib.rs:partition_point"]}
{"id": "C21", "title": "partition_dedup keeps first of each run", "statement": "partition_dedup_by with a pure same_bucket returns two views that together cover the array; the first is exactly the list obtained by scanning left to right and dropping each element that is same_bucket with the last kept element; both together are a permutation of the input.", "quantifier": "all arrays, all pure Boolean relations (not only equivalences)", "why_tests_cant": "Universal over data and relation; order inside the kept part is exact, not sampled.", "anchors": ["src/lib.rs:partition_dedup", "src/lib.rs:partition_dedup_by", "src/partition_dedup.rs:partition_dedup"]}
{"id": "C22", "title": "partition_dedup tolerates mutating and panicking closures", "statement": "same_bucket receives two different elements at each call (never the same element twice, so the two &mut never alias), may modify both and may panic; in every case no element is lost or duplicated: the array is a rearrangement of the originals up to the modifications the closure made, and it is called exactly len-1 times if it does not panic and len >= 1.", "quantifier": "all arrays, all closures as state machines that answer, replace both arguments by arbitrary values, or panic", "why_tests_cant": "Aliasing and element conservation have to hold at each call for each closure behaviour.", "anchors": ["src/lib.rs:partition_dedup_by", "src/partition_dedup.rs:partition_dedup"]}
{"id": "C23", "title": "reverse reverses", "statement": "reverse leaves the array holding its elements in exactly reversed order, for every length, never touching memory outside the array.", "quantifier": "all arrays of all lengths", "why_tests_cant": "All lengths (odd/even) and contents.", "anchors": ["src/lib.rs:reverse", "src/partition.rs:reverse"]}
{"id": "C24", "title": "is_sorted decides sortedness", "statement": "is_sorted_by(cmp) returns true iff cmp holds for every adjacent pair; if cmp is a transitive relation this is iff it holds for every pair i < j; the array is never modified and cmp is called on each adjacent pair at most once, in order, stopping at the first failure.", "quantifier": "all arrays, all relations, including partial orders with incomparable elements", "why_tests_cant": "Universal over relations and data.", "anchors": ["src/lib.rs:is_sorted", "src/lib.rs:is_sorted_by", "src/lib.rs:is_sorted_by_key", "src/partition.rs:is_sorted"]}
{"id": "C25", "title": "contains decides membership", "statement": "contains(x) returns true iff some element equals x, comparing elements left to right and stopping at the first hit.", "quantifier": "all arrays, all needles, all equality functions", "why_tests_cant": "Universal over data.", "anchors": ["src/lib.rs:contains"]}
{"id": "C26", "title": "views only touch their own elements", "statement": "Running any of the sorting, selection, dedup or reverse operations on a strided, reversed or offset view changes only the elements the view addresses, and on these elements acts exactly as on a contiguous array holding them in view order.", "quantifier": "all memory states, all views (any injective index-to-address map, e.g. any non-zero stride and offset), all operations and comparators", "why_tests_cant": "Layouts, strides and contents are unbounded.", "anchors": ["src/lib.rs:Slice1Ext for ArrayBase<S, Ix1>"]}
{"id": "C27", "title": "par_sort sorts stably under every schedule", "statement": "If the comparator is a strict weak order, par_sort / par_sort_by leave the array sorted, a permutation of the original and stable, for every way the parallel tasks may be interleaved or distributed.", "quantifier": "all arrays, all strict weak orders, all schedules of the parallel tasks", "why_tests_cant": "Schedules cannot be enumerated by tests; inputs of interest are longer than 4000 elements.", "anchors": ["src/lib.rs:par_sort", "src/lib.rs:par_sort_by", "src/par/merge_sort.rs:par_merge_sort", "src/par/merge_sort.rs:recurse", "src/par/merge_sort.rs:par_merge", "src/par/merge_sort.rs:split_for_merge"]}
{"id": "C28", "title": "par_sort is panic safe and tolerates any comparator", "statement": "With any comparator, par_sort_by terminates and never accesses the array or buffer out of bounds nor copies an element onto itself with ptr::copy_nonoverlapping; on return and on a panic of the comparator in any task the array holds a permutation of the original elements.", "quantifier": "all arrays, all comparators, all panic points, all schedules", "why_tests_cant": "Combination of panics in sibling tasks, with elements in a shared buffer.", "anchors": ["src/lib.rs:par_sort_by", "src/par/merge_sort.rs:CopyOnDrop", "src/par/merge_sort.rs:par_merge"]}
{"id": "C29", "title": "par_sort_unstable sorts under every schedule", "statement": "If the comparator is a strict weak order, par_sort_unstable leaves the array sorted and a permutation of the original for every interleaving of the parallel tasks.", "quantifier": "all arrays, all strict weak orders, all schedules", "why_tests_cant": "Schedules cannot be enumerated; parallel branches need more than 2000 elements.", "anchors": ["src/lib.rs:par_sort_unstable", "src/lib.rs:par_sort_unstable_by", "src/par/quick_sort.rs:par_quick_sort"]}
{"id": "C30", "title": "par_sort_unstable is panic safe and tolerates any comparator", "statement": "With any comparator, par_sort_unstable_by terminates and leaves a permutation of the original elements on return and on panic in any task.", "quantifier": "all arrays, all comparators, all panic points, all schedules", "why_tests_cant": "As C28.", "anchors": ["src/lib.rs:par_sort_unstable_by", "src/par/quick_sort.rs:recurse"]}
{"id": "C31", "title": "par_select_many_nth_unstable selects all indices", "statement": "For strictly increasing indices below len and a strict weak order, par_select_many_nth_unstable appends to the collection exactly one reference per index, in index order, each to the array slot with that index, which holds the element a full sort would put there; every appended slot is initialised.", "quantifier": "all arrays, all index lists, all strict weak orders, all schedules (release builds)", "why_tests_cant": "Uninitialised slots or swapped results in the parallel branch are possible only for large inputs and particular schedules.", "anchors": ["src/lib.rs:par_select_many_nth_unstable", "src/par/partition.rs:par_partition_at_indices"]}
{"id": "C32", "title": "par_select_many_nth_unstable rejects invalid indices", "statement": "If the indices are not strictly increasing or some index is >= len, par_select_many_nth_unstable panics; on any panic the collection keeps its previous length and contents and the array holds a permutation of the original.", "quantifier": "all arrays, all index lists, both overflow modes, all comparators, all schedules", "why_tests_cant": "All invalid lists, all schedules.", "anchors": ["src/lib.rs:par_select_many_nth_unstable", "src/par/partition.rs:par_partition_at_indices"]}
{"id": "C33", "title": "par_sort_by_cached_key is schedule independent", "statement": "par_sort_by_cached_key leaves the array equal to the unique stable arrangement by key, whatever the order in which the parallel iterator delivers the (key, index) pairs, and calls the key function exactly once per element.", "quantifier": "all arrays, all key functions, all delivery orders of the parallel bridge, every correct unstable sort", "why_tests_cant": "The delivery order of par_bridge is nondeterministic and unbounded.", "anchors": ["src/lib.rs:par_sort_by_cached_key"]}
{"id": "C34", "title": "parallel tasks never race", "statement": "In par_sort_unstable, par_sort and par_select_many the tasks running at the same time access disjoint memory (array, buffer and result slots), for all data and all comparator answers, so every interleaving of their steps gives a result the sequential composition allows.", "quantifier": "all arrays, all comparators, all interleavings of task steps", "why_tests_cant": "Data races are schedule dependent and may be invisible in any finite number of runs.", "anchors": ["src/par/quick_sort.rs:recurse", "src/par/merge_sort.rs:recurse", "src/par/merge_sort.rs:par_merge", "src/par/partition.rs:par_partition_at_indices"]}
{"id": "C35", "title": "sort_unstable makes O(n log n) comparisons", "statement": "There are constants such that sort_unstable_by calls the comparator at most c * n * (log2 n + 1) times on every array, for every comparator.", "quantifier": "all arrays, all comparators", "why_tests_cant": "Worst case over all inputs; adversarial inputs are exactly those not sampled.", "anchors": ["src/lib.rs:sort_unstable_by", "src/quick_sort.rs:recurse", "src/heap_sort.rs:heap_sort"]}
{"id": "C36", "title": "sort makes O(n log n) comparisons", "statement": "There are constants such that sort_by calls the comparator at most c * n * (log2 n + 1) times on every array, for every comparator.", "quantifier": "all arrays, all comparators", "why_tests_cant": "Worst case over all inputs.", "anchors": ["src/lib.rs:sort_by", "src/merge_sort.rs:merge_sort", "src/merge_sort.rs:collapse"]}
{"id": "C37", "title": "select_nth_unstable makes O(n) comparisons", "statement": "There is a constant such that select_nth_unstable_by calls the comparator at most c * n times on every array and index, for every strict weak order (release builds).", "quantifier": "all arrays, all indices, all strict weak orders", "why_tests_cant": "Linear worst case rests on the median-of-medians pivot quality for all inputs.", "anchors": ["src/lib.rs:select_nth_unstable_by", "src/partition.rs:partition_at_index_loop", "src/partition.rs:median_of_medians"]}
{"id": "C38", "title": "by_key variants equal by variants", "statement": "sort_by_key, sort_unstable_by_key, select_*_by_key, is_sorted_by_key and binary_search_by_key behave exactly like the _by variants with the comparator induced by the key, also when the key function has state or panics (array stays a permutation of the original).", "quantifier": "all arrays, all key functions including stateful and panicking ones, all totally ordered key types", "why_tests_cant": "Universal over key functions.", "anchors": ["src/lib.rs:sort_by_key", "src/lib.rs:sort_unstable_by_key", "src/lib.rs:select_nth_unstable_by_key", "src/lib.rs:is_sorted_by_key", "src/lib.rs:binary_search_by_key"]}
{"id": "C39", "title": "all stable sorts agree", "statement": "sort, par_sort and, with the identity key, sort_by_cached_key and par_sort_by_cached_key produce the very same array, for every order and every schedule; sort_unstable and par_sort_unstable produce it too whenever equal elements are indistinguishable.", "quantifier": "all arrays, all strict weak orders / total orders, all schedules", "why_tests_cant": "Equality of different algorithms on all inputs.", "anchors": ["src/lib.rs:sort", "src/lib.rs:par_sort", "src/lib.rs:sort_by_cached_key", "src/lib.rs:par_sort_by_cached_key", "src/lib.rs:sort_unstable", "src/lib.rs:par_sort_unstable"]}
{"id": "C40", "title": "sort then search", "statement": "After any of the sorts with a total order, is_sorted returns true and binary_search(x) returns Ok iff contains(x) held before sorting, at an index holding x.", "quantifier": "all arrays, all needles, all total orders", "why_tests_cant": "Composition of operations over all data.", "anchors": ["src/lib.rs:sort", "src/lib.rs:sort_unstable", "src/lib.rs:is_sorted", "src/lib.rs:binary_search", "src/lib.rs:contains"]}
{"id": "C41", "title": "documented index preparation is sufficient", "statement": "sort_unstable followed by partition_dedup on an arbitrary list of indices below len, as the select_many documentation tells users to do, gives a first view that select_many_nth_unstable and par_select_many_nth_unstable accept without panic, containing each original index exactly once.", "quantifier": "all index lists with entries below len, all arrays", "why_tests_cant": "Composition of three operations over all index lists.", "anchors": ["src/lib.rs:select_many_nth_unstable", "src/lib.rs:sort_unstable", "src/lib.rs:partition_dedup"]}
{"id": "C42", "title": "sort is linear on sorted and strictly descending input", "statement": "sort_by on an already sorted array of length n > 20 calls the comparator exactly n - 1 times and leaves the array unchanged; on a strictly descending array it also calls it exactly n - 1 times and reverses it.", "quantifier": "all lengths, all strict weak orders, all sorted or strictly descending arrays", "why_tests_cant": "All lengths.", "anchors": ["src/lib.rs:sort_by", "src/merge_sort.rs:find_streak"]}
{"id": "C43", "title": "zero-sized elements", "statement": "For zero-sized element types the sorts return without calling the comparator and leave the array unchanged, and selection with a valid index returns at once with the requested position.", "quantifier": "all lengths, all comparators, all indices", "why_tests_cant": "All lengths; the element type is special.", "anchors": ["src/lib.rs:sort", "src/lib.rs:sort_unstable", "src/lib.rs:select_nth_unstable", "src/stable_sort.rs:stable_sort", "src/quick_sort.rs:quick_sort"]}
{"id": "C44", "title": "sorting is idempotent and input-order independent", "statement": "Sorting an already sorted array with sort leaves it unchanged; sort_unstable of any two permutations of the same elements under a total order gives the same array.", "quantifier": "all arrays, all orders, all permutations", "why_tests_cant": "Relational property over pairs of inputs.", "anchors": ["src/lib.rs:sort", "src/lib.rs:sort_unstable"]}
{"id": "C45", "title": "selection with a valid index does not panic in debug builds", "statement": "select_nth_unstable with index < len and a strict weak order returns normally also when the crate is compiled with debug assertions.", "quantifier": "all arrays, all indices below the length, all strict weak orders, builds with debug assertions", "why_tests_cant": "The linear-time fallback is entered only after 16 unbalanced partitions, which random inputs do not produce; the failing assertion needs in addition a subarray of length 11 (or 132..143) at that point.", "anchors": ["src/partition.rs:median_of_medians", "src/partition.rs:median_of_ninthers", "src/lib.rs:select_nth_unstable"]}
{"id": "C46", "title": "the stable sort returns its memory", "statement": "If allocations succeed, sort frees each block it allocates exactly once with the length it was allocated with, also if the comparator panics, never accesses its vector of runs out of bounds or uninitialised, and otherwise behaves like the sort with an abstract stack of runs.", "quantifier": "all arrays, all stateful and panicking comparators, all allocators that do not return null", "why_tests_cant": "Leaks and wrong layouts are invisible to tests; a panic at each comparison would have to be tried.", "anchors": ["src/merge_sort.rs:merge_sort", "src/merge_sort.rs:BufGuard", "src/merge_sort.rs:RunVec", "src/stable_sort.rs:stable_sort"]}
{"id": "C47", "title": "the stable sort survives allocation failure", "statement": "If an allocation fails, sort panics, and it frees each block it had allocated exactly once with the length it was allocated with.", "quantifier": "all arrays, all comparators, all allocators", "why_tests_cant": "Tests do not make allocations fail; the vector of runs is enlarged only for arrays of at least 29994 elements of a special shape.", "anchors": ["src/merge_sort.rs:BufGuard", "src/merge_sort.rs:RunVec"]}
{"id": "C48", "title": "the parallel unstable sort makes O(n log n) comparisons", "statement": "par_sort_unstable_by calls its comparator at most C * n * (log2 n + 1) times, for one constant C.", "quantifier": "all arrays, all strict weak orders", "why_tests_cant": "The bad inputs need more than 2000 elements and an adversarial order; random and patterned inputs show n log n.", "anchors": ["src/par/quick_sort.rs:recurse", "src/par/quick_sort.rs:par_quick_sort", "src/lib.rs:par_sort_unstable_by"]}
{"id": "C49", "title": "the parallel unstable sort nests its tasks logarithmically deep", "statement": "At any point of par_sort_unstable at most C * (log2 n + 1) calls of rayon::join are active around each other, for one constant C; their number bounds the stack of a worker that runs both tasks itself.", "quantifier": "all arrays, all strict weak orders", "why_tests_cant": "The depth of the stack is not observable and the bad inputs are adversarial.", "anchors": ["src/par/quick_sort.rs:recurse"]}
{"id": "C50", "title": "sort_unstable is linear on sorted and strictly descending input", "statement": "sort_unstable_by and par_sort_unstable_by call the comparator at most n + 11 times on a sorted array and leave it unchanged; on a strictly descending array of at least 50 elements they call it exactly n + 11 times and reverse it.", "quantifier": "all lengths, all comparators under which the array is sorted (strictly descending)", "why_tests_cant": "All lengths and all comparators; the number of calls is not observed by the tests.", "anchors": ["src/lib.rs:sort_unstable_by", "src/quick_sort.rs:recurse", "src/partition.rs:choose_pivot", "src/insertion_sort.rs:partial_insertion_sort"]}
{"id": "C51", "title": "select_many_nth_unstable makes O(n log m) comparisons", "statement": "There is a constant such that select_many_nth_unstable_by and par_select_many_nth_unstable_by call the comparator at most C * n * (log2 m + 1) times on an array of length n with m indices, for every strict weak order.", "quantifier": "all arrays, index lists, strict weak orders", "why_tests_cant": "Worst case over all arrays and orders; the number of calls is not observed by the tests.", "anchors": ["src/lib.rs:select_many_nth_unstable_by", "src/partition.rs:partition_at_indices", "src/par/partition.rs:par_partition_at_indices"]}
{"id": "C52", "title": "par_sort makes O(n log n) comparisons", "statement": "par_sort_by calls the comparator at most 20 * n * (log2 n + 1) times, in all tasks together, on an array of length n, whatever the comparator answers, also if it panics, and however the tasks are scheduled.", "quantifier": "all arrays, all comparators (consistent or not, panicking or not), all schedules", "why_tests_cant": "Worst case over all arrays, comparators and schedules; the number of calls is not observed by the tests.", "anchors": ["src/lib.rs:par_sort_by", "src/par/merge_sort.rs:par_merge_sort", "src/par/merge_sort.rs:merge_sort", "src/par/merge_sort.rs:par_merge", "src/par/merge_sort.rs:recurse"]}
{"id": "C53", "title": "A panic in a parallel task is never swallowed", "statement": "When par_sort, par_sort_unstable or par_select_many_nth_unstable (each also _by and _by_key) ends, it ends in the closure's panic if some call of the closure panicked, in whichever task, and it returns normally only if no call panicked; no other panic occurs. The array holds a permutation of its elements in both cases.", "quantifier": "all arrays, all closures (any answers, panics at any calls), all schedules of the tasks, all choices of the chunks started before a panic is noticed; for the selection all valid index lists in release builds", "why_tests_cant": "Tests of the parallel functions use arrays and closures that do not panic, and one schedule per run.", "anchors": ["src/lib.rs:par_sort_by", "src/lib.rs:par_sort_unstable_by", "src/lib.rs:par_select_many_nth_unstable_by", "src/par/merge_sort.rs:par_merge_sort", "src/par/merge_sort.rs:par_merge", "src/par/quick_sort.rs:recurse", "src/par/partition.rs:par_partition_at_indices"]}
{"id": "C54", "title": "The key variants call the key function O(n log n) times", "statement": "sort_by_key calls the key function at most 40 * n * (log2 n + 1) times and sort_unstable_by_key at most 680 * n * (log2 n + 1) times; par_sort_by_key makes at most 60 * n * (log2 n + 1) calls of the key function and of the comparison of keys in all tasks together; select_nth_unstable_by_key makes at most C * n calls if no key occurs more than M times, C depending on M only. The sorts and the selection by key call the key function at most twice per comparison of the corresponding _by variant and otherwise behave like it.", "quantifier": "all arrays; for the stable sorts all closures and all schedules; for the unstable sort all closures that answer by a key function and a strict weak order of the keys or panic; for the selection all key functions and strict weak orders with bounded multiplicity", "why_tests_cant": "Tests check the resulting order on some arrays, they do not count calls of the key function.", "anchors": ["src/lib.rs:sort_by_key", "src/lib.rs:sort_unstable_by_key", "src/lib.rs:par_sort_by_key", "src/lib.rs:select_nth_unstable_by_key"]}
{"id": "C55", "title": "Closures are only ever called with elements of the array", "statement": "At every moment of every run, sequential or parallel, whatever the closure answers and also while a panic unwinds: every call of the comparator so far had two elements of the original array as arguments; every call of a key function had an element of the array, and only keys returned by such calls are compared; every cell of the array holds an element of the original array. The contents of the freshly allocated, uninitialised scratch buffer of the parallel stable sort are never passed to the closure and never copied into the array.", "quantifier": "all 21 sort and selection entry points (stable, unstable, nth, many; sequential and parallel; plain, _by, _by_key), all arrays, all buffer contents, all closures with arbitrary (also inconsistent or panicking) answers, all schedules, all intermediate moments", "why_tests_cant": "Reading an uninitialised or already moved-out slot shows up only for particular interleavings and particular inconsistent or panicking closures, and most reads of stale memory yield plausible values.", "anchors": ["src/merge_sort.rs:merge", "src/par/merge_sort.rs:par_merge", "src/par/merge_sort.rs:recurse", "src/partition.rs:partition_in_blocks", "src/insertion_sort.rs:insert_tail", "src/quick_sort.rs:recurse"]}
{"id": "C56", "title": "Only the closure's answers decide how the elements move", "statement": "Take two arrays whose elements, of any two types, correspond place by place, and two closures that give the same answers to calls with corresponding elements (possibly inconsistent answers, panics, or answers depending on earlier calls). Then every method does the same to both arrays: it ends the same way (same result indices and subviews, same panic), and the final arrays correspond place by place, i.e. the elements moved in the same way. For the parallel methods every schedule on one array has a counterpart on the other. In particular a _by_key method moves the elements exactly as the plain method moves the array of their keys, also among elements with equal keys.", "quantifier": "all sorts, selections, searches, deduplications and cached-key sorts; all pairs of element types and all correspondences (also many-to-many); all closures with state; all arrays; for the parallel methods all schedules", "why_tests_cant": "It is a statement about pairs of runs over all element types and all correspondences between them; a dependence on the element values or their type (a specialised path, a cached comparison) would have to be hit by chance.", "anchors": ["src/lib.rs:sort_unstable_by_key", "src/quick_sort.rs:recurse", "src/merge_sort.rs:merge_sort", "src/partition.rs:partition_at_index", "src/par/merge_sort.rs:par_merge_sort", "src/par/quick_sort.rs:recurse"]}
{"id": "C57", "title": "Memory is accessed a bounded number of times per call of the closure", "statement": "Counting every read and write of an array element (for the parallel sorts also of the buffer): the sorts and selections access memory at most 16 times per call of the closure, plus n + 2 times (stable sort), 2n + 30 times (unstable sort, selection of one element, parallel unstable sort), 2n + 30 + 4m times (selection of m elements; 34m instead of 4m in parallel) and 2n(log2 n + 3) + 2 times (parallel stable sort). This holds for every closure, also one that panics or is inconsistent, at every point of every run, including the restoring of the array after a panic, and for the parallel methods in every schedule. The scans and the cached-key sorts access the array linearly often (contains n, is_sorted 2(n-1), deduplication 8(n-1), cached-key sorts 5n), a search reads one element per call. With the bounds on the calls: the stable sorts access memory O(n log n) times with every closure, the unstable sort with every strict weak order.", "quantifier": "all element types, configurations, lengths, index lists, closures with state (also inconsistent or panicking), arrays; for the parallel methods all closures and all schedules, also incomplete ones", "why_tests_cant": "A bound on the work for all inputs and all closures is not a finite statement; counting accesses on samples misses the rare input or the panic at which a hidden quadratic loop (moving elements without calling the closure) shows.", "anchors": ["src/merge_sort.rs:merge", "src/merge_sort.rs:merge_sort", "src/insertion_sort.rs:insertion_sort_shift_left", "src/heap_sort.rs:heap_sort", "src/quick_sort.rs:recurse", "src/partition.rs:partition", "src/partition.rs:partition_at_index", "src/par/merge_sort.rs:par_merge_sort", "src/par/merge_sort.rs:par_merge", "src/par/quick_sort.rs:recurse", "src/lib.rs:sort_by_cached_key", "src/partition_dedup.rs:partition_dedup"]}
{"id": "C58", "title": "The parallel stable sort takes few rounds if every task has a processor", "statement": "Let every task of the parallel stable sort have a processor of its own, let a call of the closure take one round and everything else no time. Then sorting n elements takes at most n/2000 + 4(log2 n + 1)^3 + 5000(log2 n + 1) + 480000 rounds (three times as many with a key function, whose comparison is three calls), whatever the closure answers, also if it panics or is inconsistent. In other words, no chain of calls that wait for each other is longer. With a strict weak order the rounds lead to the end, where the array is stably sorted.", "quantifier": "all element types, configurations, lengths, arrays, buffer contents, closures, answers, choices of the chunks taken before a panic is noticed, and all orders of the other steps within and between the rounds", "why_tests_cant": "The length of the longest chain of dependent calls is not visible in a run on a machine with few processors, and the bound is for all lengths and all closures.", "anchors": ["src/par/merge_sort.rs:par_merge", "src/par/merge_sort.rs:split_for_merge", "src/par/merge_sort.rs:recurse", "src/par/merge_sort.rs:par_merge_sort", "src/lib.rs:par_sort", "src/lib.rs:par_sort_by", "src/lib.rs:par_sort_by_key"]}
{"id": "C59", "title": "The stable sort needs memory for half of the array and logarithmically many runs", "statement": "An allocator that can hand out n/2 elements and max(16, 6 log2(n/10) + 3) runs is enough for the stable sort of n elements, for every comparator: it never panics for lack of memory, does what it does with an unlimited allocator, and gives everything back. Arrays of at most 20 elements are sorted without any allocation; longer ones need the n/2 elements.", "quantifier": "all element types, configurations, arrays, stateful or panicking comparators, and all allocators that refuse nothing they have room for", "why_tests_cant": "The height of the stack of runs depends on the pattern of run lengths in the input, and the capacity grows only for patterns that tests do not contain; the bound is for all lengths and all comparators.", "anchors": ["src/merge_sort.rs:merge_sort", "src/merge_sort.rs:RunVec", "src/merge_sort.rs:BufGuard", "src/merge_sort.rs:collapse", "src/stable_sort.rs:stable_sort", "src/lib.rs:sort"]}
{"id": "C60", "title": "The parallel stable sort gets along with temporary storage of half the array", "statement": "As the documentation of par_sort, par_sort_by and par_sort_by_key says, the parallel stable sort uses temporary storage of half the size of the array: run with a buffer of n/2 elements it never accesses the buffer behind its end.", "quantifier": "all element types, arrays, closures and schedules", "why_tests_cant": "The implementation allocates a buffer as long as the array, so a test sees neither how much of it is needed nor for which lengths; whether half would do depends on the lengths of all runs that can be merged.", "anchors": ["src/lib.rs:par_sort", "src/par/merge_sort.rs:par_merge_sort", "src/par/merge_sort.rs:merge_sort", "src/par/merge_sort.rs:merge", "src/par/merge_sort.rs:recurse"]}
{"id": "C61", "title": "the bounds on the number of calls hold in every schedule", "statement": "However the threads are scheduled and wherever the run is cut off: par_sort_unstable_by has called its comparator at most 13 n^2 + 20 n times for any comparator (also one that panics, contradicts itself or answers differently in each call), at most 340 n (log2 n + 1) times for an order and n <= 2001, par_sort_unstable_by_key makes at most three times as many calls, and par_select_many_nth_unstable_by with m indices at most K n (log2 m + 1) calls, K depending on the number of equivalent elements only.", "quantifier": "all arrays, comparators, index lists, schedules and prefixes of schedules", "why_tests_cant": "A test sees the schedules its thread pool happens to produce; after a panic in one task the others go on for a number of calls that depends on the timing.", "anchors": ["src/par/quick_sort.rs:recurse", "src/par/quick_sort.rs:par_quick_sort", "src/par/partition.rs:par_partition_at_indices", "src/lib.rs:par_sort_unstable_by", "src/lib.rs:par_select_many_nth_unstable_by"]}
{"id": "C62", "title": "the selection of many indices and the merging of the parallel stable sort nest their tasks logarithmically deep", "statement": "In every state of every schedule, whatever the closure answers: in par_select_many_nth_unstable with m indices at most log2 m calls of rayon::join wait for each other; in the recursion that merges k sorted chunks of an array of n elements at most log2_up k + 4 (log2 n - 11); in par_sort_unstable, where no logarithmic bound holds, at most n - 2001.", "quantifier": "all arrays, closures, index lists, chunk lists, schedules and moments of the execution", "why_tests_cant": "The depth is not observable from outside and depends on the splits, hence on all elements; a stack overflow needs inputs no test has.", "anchors": ["src/par/partition.rs:par_partition_at_indices", "src/par/merge_sort.rs:recurse", "src/par/merge_sort.rs:par_merge", "src/par/quick_sort.rs:recurse"]}
{"id": "C63", "title": "few distinct values: the unstable sorts make O(nk) calls and the selections are linear", "statement": "If an array of n elements has at most k values up to equivalence, sort_unstable_by makes at most 680 n k calls of the comparator and par_sort_unstable_by in every schedule at most n (26 k + 3 log2 n + 20), at most 46 n k if 2 k <= log2 n. With at most eight values select_nth_unstable_by makes at most (6 k + 9) n calls and the selection of m indices, also in parallel in every schedule, at most (6 k + 9) n (log2 m + 1). The tasks of the parallel unstable sort nest at most 2k - 1 deep at any time in any schedule.", "quantifier": "all arrays, orders, closures (also stateful or panicking ones), indices, schedules and builds", "why_tests_cant": "The bound rests on the comparison of the pivot with its predecessor; leaving it out changes no result, only the cost, and for the selections the fallback is quadratic or worse on exactly such arrays (C37).", "anchors": ["src/quick_sort.rs:recurse", "src/par/quick_sort.rs:recurse", "src/partition.rs:partition_equal", "src/partition.rs:partition_at_index_loop", "src/partition.rs:partition_at_indices", "src/par/partition.rs:par_partition_at_indices"]}
{"id": "C64", "title": "the recursion of the selections is shallow", "statement": "In select_nth_unstable at most eight calls of median_of_medians are nested for arrays of fewer than 2^63 elements, in general at most 3 + d for fewer than 8448 * 1024^d; select_many_nth_unstable with m > 0 indices nests partition_at_indices at most log2 m + 2 deep. Nothing else in the selections recurses.", "quantifier": "all arrays, indices and closures, consistent or not", "why_tests_cant": "The depth of the stack is not observable; arrays of more than 2^23 elements, which need the fifth level, and closures that force the fallback are out of reach of tests.", "anchors": ["src/partition.rs:median_of_medians", "src/partition.rs:median_of_ninthers", "src/partition.rs:partition_at_indices"]}
{"id": "C65", "title": "the selections make quasi-polynomially many calls whatever the closure answers", "statement": "On an array of n < 8448 * 1024^d elements select_nth_unstable makes at most 300 n + 9 n^(3+d) calls of its closure (n^8 for every array of fewer than 2^63 elements), select_many_nth_unstable and par_select_many_nth_unstable with m indices at most log2 m + 1 times as many, even if the closure is not an order, changes its answers or panics, in every schedule.", "quantifier": "all arrays, indices, closures and schedules", "why_tests_cant": "The bound concerns closures that answer adversarially, of which there are infinitely many; the median_of_medians fallback is superpolynomial (C37), which no test reaches.", "anchors": ["src/partition.rs:partition_at_index", "src/partition.rs:median_of_medians", "src/partition.rs:partition_at_indices", "src/par/partition.rs:par_partition_at_indices"]}
{"id": "C66", "title": "usize arithmetic of the sequential algorithms never overflows", "statement": "On every array of at most isize::MAX elements (2^31 - 1 or 2^63 - 1), which is all that ndarray allows, no sum, difference or product computed by sort_unstable, sort, select_nth_unstable, select_many_nth_unstable (in builds with overflow checks for sorted distinct indices in range), their _by and _by_key variants, binary_search_by and partition_dedup_by overflows or underflows: the programs with every operation done in 32- or 64-bit words, panicking or wrapping on overflow, have the same outcome, calls and final array as the programs over natural numbers, for every closure, whether it is an order or not and also if it panics. Builds with and without overflow checks therefore behave alike.", "quantifier": "all arrays up to isize::MAX elements, closures, indices, 32- and 64-bit builds with and without overflow checks and debug assertions", "why_tests_cant": "Overflows of indices happen, if at all, on arrays of billions of elements, and wrap silently in release builds.", "anchors": ["src/partition.rs", "src/quick_sort.rs", "src/heap_sort.rs", "src/insertion_sort.rs", "src/merge_sort.rs:merge_sort", "src/partition_dedup.rs", "src/lib.rs:binary_search_by"]}
{"id": "C67", "title": "The documented uses of partition_point and binary_search work", "statement": "In an array sorted by a total preorder, with low = partition_point(x < v) and high = partition_point(x <= v), the elements before low are less than v, those from low to high are equal to v and those from high on are greater; binary_search(v) returns Ok of an index in low..high if this range is not empty, and else Err(low) with low = high. Inserting v at low, at high or at binary_search(v).unwrap_or_else(|x| x) keeps the array sorted, and if only v itself is equal to v the array after inserting at low is the same as after inserting at the index of the binary search. The two indices, called equivalent in a comment of the documentation, do differ in general if v occurs.", "quantifier": "all sorted arrays, total preorders and elements", "why_tests_cant": "The documentation tests show one array and four values.", "anchors": ["src/lib.rs:partition_point", "src/lib.rs:binary_search"]}
{"id": "C68", "title": "usize arithmetic of the parallel stable sort never overflows", "statement": "On every array of at most isize::MAX elements no sum, difference or product computed by par_sort, par_sort_by and par_sort_by_key overflows or underflows: the programs with every operation done in 32- or 64-bit words, panicking or wrapping on overflow, make the same accesses, calls and forks as the programs over natural numbers. Run task after task they have the same outcome, calls and final memory for every closure; every interleaving of their tasks is an interleaving of the tasks of the programs over natural numbers, so they sort stably under every schedule, and any comparator leaves a permutation.", "quantifier": "all arrays up to isize::MAX elements, closures, schedules, 32- and 64-bit builds with and without overflow checks and debug assertions", "why_tests_cant": "Overflows of indices happen, if at all, on arrays of billions of elements, and wrap silently in release builds; schedules cannot be enumerated.", "anchors": ["src/par/merge_sort.rs", "src/lib.rs:par_sort", "src/lib.rs:par_sort_by", "src/lib.rs:par_sort_by_key"]}
{"id": "C69", "title": "usize arithmetic of the parallel unstable sort and selection never overflows", "statement": "On every array of at most isize::MAX elements no sum or difference computed by par_sort_unstable(_by, _by_key) and par_select_many_nth_unstable(_by, _by_key) overflows or underflows (for the selection: with sorted, distinct indices within bounds, or any indices in builds without overflow checks): the programs with every operation done in 32- or 64-bit words, panicking or wrapping on overflow, have, run task after task, the same outcome, calls and final array as the programs over natural numbers, for every closure; every interleaving of their tasks is an interleaving of the tasks of the programs over natural numbers with the same array, also if the closure panics in several tasks; so they sort and select under every schedule, and any comparator leaves a permutation.", "quantifier": "all arrays up to isize::MAX elements, closures, index lists, schedules, 32- and 64-bit builds with and without overflow checks and debug assertions", "why_tests_cant": "Overflows of indices happen, if at all, on arrays of billions of elements, and wrap silently in release builds; a panic of the right task of rayon::join is lost if the left one panics, too; schedules cannot be enumerated.", "anchors": ["src/par/quick_sort.rs", "src/par/partition.rs", "src/lib.rs:par_sort_unstable", "src/lib.rs:par_select_many_nth_unstable"]}
{"id": "C70", "title": "The stable sort's memory management is safe with machine words and any allocator", "statement": "For elements of size at least their alignment in an array of at most isize::MAX bytes, every block that sort(_by, _by_key) allocates or frees (merge buffer and run stack RunVec) has a valid, non-empty Layout, so unwrap_unchecked is never reached with an error; and no usize operation of the merge sort and of RunVec overflows: the program with words and layouts has, for every comparator and every allocator (also failing ones and panicking comparators), the same outcome, requests and final array as the program over natural numbers. With an allocator that never fails it does what sort does and every block is freed exactly once. Whatever allocator and comparator do, the array stays a permutation, nothing out of bounds is accessed, and the only panics are the comparator's and the one for a null pointer; with a strict weak order it sorts stably unless the latter occurs.", "quantifier": "all arrays of at most isize::MAX bytes, element sizes and alignments, comparators, allocators, 32- and 64-bit builds with and without overflow checks and debug assertions", "why_tests_cant": "A layout too large or an overflowing capacity needs arrays of gigabytes; failing allocators cannot be injected as the allocator is global; undefined behaviour of unwrap_unchecked need not show.", "anchors": ["src/stable_sort.rs:28-72", "src/merge_sort.rs:209-327", "src/merge_sort.rs:367-501"]}
{"id": "C71", "title": "select_many_nth_unstable never touches an element it has passed to the collection", "statement": "select_many_nth_unstable(_by, _by_key) passes to the caller's collection exclusive references while it is still working. Whatever the comparator and the collection answer, whenever they panic and however the caller changes the elements it has got already: the selection neither accesses such an element nor passes it on again; the indices are passed in order, each with the element at that index, and after a panic those passed are a prefix of the indices; except for the caller's changes the array is a permutation of the input. With a strict weak order each element passed is the order statistic of its index and in its final place at that time, also if there is a panic later. Valid indices are all passed if the caller does not panic (release builds). A panic of the comparator or of the collection is the last call of either and leaves the selection. With a collection that neither panics nor changes elements the selection is the one of the other properties, call by call.", "quantifier": "all arrays, index lists, comparators, collections, changes by the caller, moments of a panic, builds", "why_tests_cant": "Collections in tests are vectors and maps, which neither panic nor change elements during the selection; a second access to a lent element is undefined behaviour that need not show.", "anchors": ["src/partition.rs:20-42", "src/lib.rs:select_many_nth_unstable", "src/lib.rs:select_many_nth_unstable_by", "src/lib.rs:select_many_nth_unstable_by_key"]}
{"id": "C72", "title": "sort and par_sort are fast on nearly sorted arrays and on sorted sequences concatenated one after another", "statement": "sort and sort_by call the comparator at most (8 log2 k + 70) n times on an array of n elements that is the concatenation of k sequences each of which is non-descending or strictly descending, and sort_by_key calls the key function at most (16 log2 k + 140) n times. The sequences may be of any lengths, also empty. The comparator need not be an order, and it may panic. par_sort and par_sort_by call it at most (2 log2 k + 130) n times, all threads together, and par_sort_by_key makes at most three times as many calls of the key function and of the order of the keys. For an array that is sorted or strictly descending but for r elements the bounds hold with k = 2r + 1. If r arbitrary elements are appended to a sorted or strictly descending array, the bounds for sort_by and par_sort_by hold with k = r + 1.", "quantifier": "all arrays, all divisions into sorted sequences, all comparators that answer as a function of the two elements or panic, all builds, all schedules and prefixes of schedules", "why_tests_cant": "The bound is over all lengths of the sequences; a wrong rule for merging runs gives the same result with more comparisons, and only for particular proportions of the lengths.", "anchors": ["src/merge_sort.rs:merge_sort", "src/merge_sort.rs:find_streak", "src/merge_sort.rs:provide_sorted_batch", "src/merge_sort.rs:collapse", "src/lib.rs:338-346", "src/par/merge_sort.rs:merge_sort", "src/par/merge_sort.rs:par_merge_sort", "src/par/merge_sort.rs:recurse", "src/lib.rs:146-151"]}
