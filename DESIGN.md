# Formal model of ndarray-slice

Rocq/Coq 8.16.1 with stdpp.  Build: `cd rocq && coq_makefile -f _CoqProject -o Makefile && make -j4`.

## 1. How the code is modelled

* A Rust function on a view of `T` is a value of the inductive type `prog T Q R A` (`Prog.v`):
  a tree of `Read i`, `Write i x`, `Ask q` (call of a closure of the user), `Par p1 p2`
  (`rayon::join`), `Throw e` (panic), `Undef` (undefined behaviour: unchecked access out of bounds,
  use of an uninitialised slot, `ptr::copy_nonoverlapping` of an element onto itself), `NoFuel` and
  `Ret a`.
* `run o p s l` executes a program on the list `l`; the oracle `o` plays the closure.  It has a state
  `s` and may panic.  `run` returns `Done`, `Panicked`, `Undefined` or `Diverged`, the final state of
  the oracle and the final list.
* `wp ans p Φ E l` is the program logic: every run whose answers are allowed by `ans` ends
  normally in `Φ` or by a panic in `E`, and never in `Undefined`/`Diverged`.  Soundness: `wp_run`.
* Unwinding guards (`InsertionHole`, `MergeHole`, `CopyOnDrop`, ...) are `on_unwind cleanup p`.
* Subviews (`split_at`, `slice_mut`) are `focus`/`slice`: the callee sees only its part.
* Loops are fuel-recursive; running out of fuel is `NoFuel`, which `wp` forbids, so every theorem
  that gives the outcome includes termination.
* Build options are in the record `cfg`: `dbg` (debug assertions), `ovf` (overflow checks), `wide`
  (64-bit `usize`), `zst` (zero-sized elements).
* Parallel programs have two semantics: `run` (left arm first) and the small-step semantics of
  `Interleave.v` in which an arbitrary scheduler interleaves single memory accesses and closure
  calls.  Theorems about "every schedule" use the latter.
* The comparator's calls are counted by `costs` (`Cost.v`), recorded by `logged`.

One proof per function covers all comparators.  `klt ans a b` / `kle ans a b` mean "every strict weak
order that agrees with the answers the comparator may give says a < b / not b < a".  For a correct
comparator this is the order; for an inconsistent one there is no such order and the facts are
vacuous, so the same triple gives functional correctness and (with `≡ₚ`) the robustness claims.
`sperm ans` (swaps of adjacent elements that are strictly out of order) carries stability.

## 2. Files (rocq/theories)

| files | contents |
|-------|----------|
| `Prog`, `Ops`, `Subst`, `Interleave` | the language, its semantics and logic; primitive operations |
| `M*` | the model; each definition cites file and lines of /repo |
| `Spec`, `Closures`, `HeapSpec`, `CallSpec`, `ParSpec`, `OwnsSpec`, `AlikeSpec`, `AccessSpec` | vocabulary of the statements, independent of the model |
| `Examples`, `ExamplesPar` | comparators used in the examples |
| `Order`, `WpOps`, `P*` | triples for the functions of the model |
| `Ghost`, `Polite`, `Footprint`, `FootAll`, `FootMerge`, `Views`, `Unique` | call log, panics, footprints, views, uniqueness of sorted arrangements |
| `Cost`, `Calls`, `C*` | numbers of comparator calls, sequential and in every schedule |
| `Loud` | programs that do not hide a panic of the closure |
| `Alike` | programs that do the same on related elements |
| `Access` | numbers of memory accesses, paid for by calls |
| `Owns` | which cells of the memory hold elements, under every schedule |
| `Word` | `usize` arithmetic; programs that do the same unless the other ends badly |
| `Top`, `T*`, `RAlloc` | from triples to the statements about `run` |
| `Prop*` | the theorems named in MANIFEST.json, each with `Print Assumptions`, and their examples |

## 3. Plan per property

| id | modelled by | proof |
|----|-------------|-------|
| C01-C03 | quick_sort, recurse, partition*, heap_sort, insertion sorts | wp triple with knowledge relations; `upanic` postcondition |
| C04 | recursion depth is an explicit argument of the model's `recurse` | no `NoFuel` with depth = bit length + 1 |
| C05-C08 | merge_sort, merge, collapse, find_streak, buffer of `len/2` slots | wp triple with `sperm`; buffer access checked by `Undef` |
| C09-C11, C33 | cached-key macro with an abstract correct std sort; index width as modulus | cycle-chasing invariant; uniqueness of stable arrangements |
| C12-C14 | partition_at_index(_loop), median_of_medians | wp triple |
| C15-C17 | partition_at_indices | induction over the index list |
| C18-C20 | binary_search_by, partition_point | loop invariant; call counter |
| C21-C22 | partition_dedup with a closure that may rewrite its arguments | loop invariant |
| C23-C25 | reverse, is_sorted, contains | loop invariants |
| C26 | `relocate` by an injective address map | simulation |
| C27-C32, C34 | par quick sort, par merge sort, par select | wp triple for `Par`; footprints; interleaving semantics |
| C35-C37, C42 | the same models with a counter of comparator calls | cost recurrences; adversary for the refutations |
| C38 | key questions substituted for comparator questions | simulation |
| C39-C41, C44 | compositions | uniqueness of sorted / stable arrangements |
| C43 | `zst` flag | computation |
| C45 | builds with debug assertions | refuted by concrete inputs; for short arrays, least `limit` per length checked against all partitions, with the positions `break_patterns` moves elements to (TDebugPos.v) |
| C46-C47 | `BufGuard`, `RunVec` and the allocator | simulation by the model with a list of runs; refuted for failing allocators |
| C48-C49 | par quick sort; `join_depth` (ParSpec.v) | refuted by an adversary that answers by groups (CPar.v); upper bounds in CParUp.v |
| C50 | unstable sorts | the exact run on sorted and descending arrays |
| C51 | select_many, par_select_many | refuted by C37's adversary; cost recurrence over the halved index list |
| C52 | par_sort, every schedule; `calls_made` (CallSpec.v) | bound on the calls preserved by every step of every task; the collapse rule of a chunk is the one of the sequential sort read from the right, so its amortisation applies; merging n elements in parallel makes at most 2n calls |
| C53 | the parallel sorts and the parallel selection, every schedule; `schedule_log` (CallSpec.v) | syntactic predicate: after a panicking call a task, a join or a bridge cannot return a value that hides it, preserved by every step of every task (Loud.v); that a panic has a panicking call as its reason follows from the triples, instantiated with exactly the answers of the schedule |
| C54 | the `_by_key` entry points, `key_calls` counts the calls of the key function in the log | simulation of the key variant by the `_by` variant with the comparator derived from the key closure (CKey.v); bounds of C35, C36, C37, C52 |
| C55 | the sorts and selections; `schedule_log` collects the calls of a schedule, `holds_only` is about the memory at any moment | monotone knowledge logic: cells known to hold elements stay so because only elements are written (Owns.v); array-only functions in TOwns.v, the buffer of the parallel stable sort in TOwnsPar.v |
| C56 | all methods with closures | binary logical relation `alike` on programs (same accesses, related values and questions, alike continuations), one lemma per function; runs and schedules of alike programs simulate each other (Alike.v, TAlike*.v) |
| C57 | all methods with closures | credit logic `pays` (a call earns, an access costs, tasks split the credits), one lemma per function; soundness for runs and for schedules (Access.v, TAccess*.v) |
| C58 | `par_sort`, `par_sort_by`, `par_sort_by_key` | `rounds`: all unfinished tasks call at once; logic `spans` (a join costs the larger arm), split to at most 5/6, log2 levels of merges (SpanSpec.v, Span.v, CSpan.v, TSpan.v) |
| C59 | `stable_sort` with `RunVec` and allocator | `limited` allocators (MemorySpec.v); invariant of allocator state and live blocks carried through the simulation of PAlloc.v; `fib` bounds the runs (TMemory.v) |
| C60 | `par_merge_sort` with a shorter buffer | refuted by 2001 equal elements; `below` compares the programs for two capacities (THalf.v) |
| C61 | par quick sort and par_select_many, all schedules | a counting assertion is kept by every step of disjoint tasks (CSched.v) |
| C62 | par_select_many, `recurse`, `par_merge`, par quick sort | `nests` bounds the active joins and is kept by every step (CNest.v) |
| C63 | quick sort, selection, partition_equal, sequential and parallel | each value is the pivot of at most two partitions in a row (CFew.v, CFewSelect.v); `wpd` is `wp` with a bound on the nesting of joins, preserved by every step of a schedule (CDepth.v) |
| C64 | recursion of `median_of_medians` and `partition_at_indices` | depth as an argument, ninthers shrink by 12, 64, 1024 (TDepth.v) |
| C65 | calls of the selections for any closure | `any_f n = 9 n ^ depth n`, one call of the fallback costs a recursive call on the ninthers and one on n - 1 elements (CAny.v) |
| C66 | `usize` arithmetic | MWord.v repeats the algorithms with `uadd`, `umul`, `wsub` on words; `tracks p q` (Word.v): p is q except where q is doomed to panic by an index or overflow or to undefined behaviour, which the earlier theorems exclude; length bounds come from the checks of the source (TWord.v, TWordMerge.v) |
| C67 | documented uses of searches | a sorted array is a less, an equal and a greater part (`sorted_monotone`); the partition points are the lengths of the first one and two parts (TRecipe.v) |
| C68 | `usize` arithmetic of the parallel stable sort | MWordPar.v repeats src/par/merge_sort.rs with words; `exactly p q` (Exact.v): the same accesses, calls and forks, hence the same runs and the same schedules; the bounds are structural: runs and chunks are adjacent, cursors stay within their views (TWordPar.v) |
| C69 | `usize` arithmetic of the parallel unstable sort and selection | MWordQuick.v repeats src/par/quick_sort.rs and src/par/partition.rs with words; `sane` (Sane.v) is `wp` with the condition that no task panics by an index out of bounds or an overflow, `treads p q`: `p` does the same as `q` unless `q` ends badly, also within tasks; hence the same runs and schedules (TWordQuick.v) |
| C70 | Stable sort's memory with words and layouts | MWordAlloc.v repeats MAlloc.v with words; a block without a valid layout is `Undef`; `tracks` (Word.v) against MAlloc.v with the bound of 127 runs on the stack (TWordAlloc.v), `wp` for allocators that may fail (TMemSafe.v) |
| C71 | Elements passed to the collection of `select_many_nth_unstable` | MLend.v repeats `partition_at_indices` with the collection as code of the caller; in `lend_run` (LendSpec.v) the access to a lent element is undefined and the caller may change lent elements at every call; `lendwp` is `wp` over the array as if the caller had not (TLend.v); panics propagate by `polite` (TLendPanic.v); TLendSame.v relates MLend.v and MSelect.v step by step |
| C72 | Number of calls of the stable sorts on concatenated sorted sequences | CRuns.v charges the merges to the runs: those in which the new run is the smaller part at most cost a constant per element, and afterwards the height of the stack is logarithmic in the share of the new run in the array. TRuns.v shows that every run taken up covers at least the rest of the sequence it starts in, so that there are no more runs than sequences. For the parallel sort (TParRuns.v) a chunk costs a constant per element, and at most two chunks per sequence and two more are left when those inside of a sequence have been joined. TNearly.v cuts a sorted array in which some elements have been overwritten into at most two sequences per overwritten element and one more, and one with elements appended into one sequence per appended element and one more |

## 4. Claims that are false of the code

* C35 (n log n calls of `sort` and `sort_unstable` for *every* comparator): refuted for inconsistent
  comparators; proved for strict weak orders, quadratic bound for all comparators.
* C37, C51 (linearly many calls of the selection, n log m of the selection of many): refuted (many
  equal elements defeat the ninthers); proved when few elements are equal.
* C45 (selection with a valid index never panics in debug builds): refuted by an array of 38 numbers
  (39 if `usize` has 32 bits, 46 if distinct) and proved up to 37 (45 if distinct);
  `median_of_ninthers` calls `median_of_medians` with an empty slice, whose
  `debug_assert!(k < v.len())` (src/partition.rs:189) fails.
* C47 (a failing allocation is handled cleanly): refuted; `RunVec::push` doubles `capacity` before
  `unwrap` can panic (src/merge_sort.rs:402-403), so the drop frees the old block with a wrong layout.
* C48, C49 (`par_sort_unstable` makes n log n comparisons and nests its tasks logarithmically deep;
  src/lib.rs documents *O*(*n* \* log(*n*)) worst-case): refuted.  Each task of a join starts with
  `was_balanced = true`, so `limit` never decreases while a part has more than 2000 elements and the
  fallback to heapsort is out of reach; the number of calls is quadratic and the nesting linear for
  adversarial strict weak orders.  With few values both are small (C63).
* C60 (temporary storage of half the array suffices for the parallel stable sort, src/lib.rs:153,
  209 and 256): refuted for 2001 elements; `par_merge_sort` needs, and allocates
  (src/par/merge_sort.rs:846), a buffer as long as the array.  Proved up to 2000 elements.

## 5. Trusted base

* Coq's kernel (`coqc` 8.16.1).  No axioms: `Print Assumptions` below each theorem of the `Prop*.v`
  files prints `Closed under the global context` for every one of them.  (`coqchk` in addition
  lists `Coq.ssr.ssrunder.Under_rel.*` of the standard library's ssreflect, which stdpp loads; no
  theorem depends on it.)
* The examples of the documentation of src/lib.rs, except those on floating-point numbers, are run on
  the model in `DocExamples.v`, with the assertions they make there.
* No kernel check is switched off; nothing is admitted; no functors, plugins or native computation.
* The reading of Rust into `prog`, documented at each definition, and these assumptions:
  - **ndarray.**  Indexing, `uget`, `swap`, `split_at`, `slice_mut`, `iter` behave as documented on
    1-dimensional views.  A view is a list; views with strides are covered by C26, where the model's
    accesses go through an arbitrary injective map.  The pointer arithmetic inside ndarray is not
    modelled.
  - **Integers.**  Indices are natural numbers.  A subtraction that underflows is `OverflowPanic` in
    the model, which the theorems exclude, so builds without overflow checks do not wrap either;
    the one subtraction that can underflow (`pivot - offset` of `select_many` with unsorted
    indices) is modelled with wrap-around.  That sums, differences and products fit `usize` is proved
    for the sequential functions (C66), the parallel stable sort (C68), the parallel unstable
    sort and selection (C69) and the run stack `RunVec` (C70).  `break_patterns` and the casts of
    `sort_by_cached_key`, which does no other arithmetic, are modelled with their word size.
  - **References.**  `pred: &T` is modelled by the value it points to (the element is outside of
    the view that is modified meanwhile).  Aliasing rules are not modelled except that
    `partition_dedup` never passes the same element twice and that the selection never touches
    an element it has passed to the collection of the caller (C71).
  - **Raw copies.**  A `ptr::copy_nonoverlapping` of one element is a read and a write, guarded by
    `nonoverlapping` (Ops.v) or `vcopy` (MParMerge.v), which are `Undef` if source and destination
    are the same element: the cyclic exchange of src/partition.rs:666-672 and all copies of the
    merges whose source and destination may be in the same allocation.  No guard is written where the
    addresses differ on sight: `i` and `i - 1` in the insertion sorts, the element and a local
    variable, the array and the separately allocated scratch buffer, two allocations of `RunVec`.
  - **Uninitialised memory.**  The sequential merge's buffer is a list of initialised slots, reading
    any other slot is `Undef`; the parallel merge's buffer has arbitrary contents.  The `values`
    slots of `select_many` are the returned lists, `None` is a slot that was not written.
  - **Drop.**  Elements are not dropped by any modelled function; "each element exactly once" is
    stated as `Permutation`, also after panics.
  - **External code.**  `<[T]>::sort_unstable`, rayon's `par_sort_unstable` (in the cached-key
    sorts) and the key function are questions to the environment; the theorems say what is assumed
    of the answers.  `rayon::join` runs both arms to their end and propagates a panic afterwards;
    `par_bridge` may process the elements in any order.  `max_by`, `min_by` are modelled after
    `core`.
  - **Allocation.**  `stable_sort`'s allocator is an arbitrary state machine (C46, C47, C70).  The `Vec`s
    of the cached-key sorts and of the parallel merge sort are lists.

### Modelled

src/lib.rs: all methods of `Slice1Ext` with their `_by` and `_by_key` variants.
src/insertion_sort.rs, src/heap_sort.rs, src/partition.rs, src/quick_sort.rs, src/merge_sort.rs,
src/stable_sort.rs, src/partition_dedup.rs: all functions.
src/par/quick_sort.rs, src/par/merge_sort.rs, `par_partition_at_indices` of src/par/partition.rs.
The other functions in src/par/{insertion_sort,heap_sort,partition}.rs are textual copies of the
sequential ones (`&F`, `F: Fn` for `&mut F`, `F: FnMut`) and share their models.

### Not modelled

`maybe_grow` (src/lib.rs:82, calls its argument; `stacker` changes the stack, not the result), the
feature gates, the tests, documentation examples, `impl` boilerplate for `ArrayBase`, and panics of
allocation inside `Vec`.

## 6. Testing the theorems

`seeded/LOG.jsonl` records wrong programs: each line is a change to the model that corresponds to a
plausible mistake in /repo, and the theorem whose proof it breaks (or that none does, and why).
