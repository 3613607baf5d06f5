(** * C59: how much memory the stable sort needs.

    [limited al fr left] (MemorySpec.v): the allocator can still hand out [left a k]
    elements or runs in its state [a]. *)
From Verif Require Import TMemory Examples.

(** C59.  Half as many elements as the array has, and logarithmically many runs: an
    allocator that has this much is enough, whatever the comparator answers.  In the
    end the allocator has at least as much again. *)
Theorem stable_sort_memory :
  ∀ (T S A : Type) (c : cfg) (less : S → T * T → option bool * S)
    (al : A → block_kind → nat → option nat * A) (fr : A → block_kind → nat → nat → A)
    (left : A → block_kind → nat),
  limited al fr left →
  ∀ (s : S) (a : A) (l : list T),
  length l / 2 ≤ left a ElemBlock →
  16 `max` (6 * Nat.log2 (length l / 10) + 3) ≤ left a RunBlock →
  ∃ r s' l' a', run less (stable_sort c (length l)) s l = (r, s', l') ∧
    run (environment less al fr) (stable_sort_mem c (length l)) (Env s a (Some [])) l =
      (r, Env s' a' (Some []), l') ∧
    (r = Done tt ∨ r = Panicked UserPanic) ∧ Permutation l l' ∧
    ∀ k, left a k ≤ left a' k.
Proof. exact @stable_sort_in_memory. Qed.
Print Assumptions stable_sort_memory.

(** Arrays of at most 20 elements need none: the allocator is not asked. *)
Theorem stable_sort_short_no_memory :
  ∀ (T S A : Type) (c : cfg) (less : S → T * T → option bool * S)
    (al : A → block_kind → nat → option nat * A) (fr : A → block_kind → nat → nat → A)
    (s : S) (a : A) (h : option memory) (l : list T),
  length l ≤ 20 →
  run (environment less al fr) (stable_sort_mem c (length l)) (Env s a h) l =
    let '(r, s', l') := run less (stable_sort c (length l)) s l in (r, Env s' a h, l').
Proof. exact @stable_sort_short. Qed.
Print Assumptions stable_sort_short_no_memory.

(** Longer ones do need half of their length: if it is refused, they panic. *)
Theorem stable_sort_needs_half :
  ∀ (T S A : Type) (c : cfg) (less : S → T * T → option bool * S)
    (al : A → block_kind → nat → option nat * A) (fr : A → block_kind → nat → nat → A)
    (s : S) (a : A) (l : list T),
  20 < length l → zst c = false → (al a ElemBlock (length l / 2)).1 = None →
  run (environment less al fr) (stable_sort_mem c (length l)) (Env s a (Some [])) l =
    (Panicked AssertPanic, Env s (al a ElemBlock (length l / 2)).2 (Some []), l).
Proof. exact @stable_sort_asks_half. Qed.
Print Assumptions stable_sort_needs_half.

(** 25 elements on a heap with room for 12 elements and 16 runs, and on one with room
    for 11 elements. *)
Example stable_sort_memory_example :
  let l := [5; 1; 4; 4; 9; 0; 23; 7; 7; 2; 31; 6; 8; 3; 12; 40; 39; 38; 37; 36; 35; 34; 33; 32; 1] in
  limited heap_alloc heap_free room_left ∧
  length l / 2 ≤ room_left (SmallHeap 12 16 0) ElemBlock ∧
  16 `max` (6 * Nat.log2 (length l / 10) + 3) ≤ room_left (SmallHeap 12 16 0) RunBlock ∧
  run (environment (pure_less Nat.ltb) heap_alloc heap_free) (stable_sort_mem cfg_release64 (length l))
    (Env tt (SmallHeap 12 16 0) (Some [])) l =
    (Done tt, Env tt (SmallHeap 12 16 2) (Some []),
     [0; 1; 1; 2; 3; 4; 4; 5; 6; 7; 7; 8; 9; 12; 23; 31; 32; 33; 34; 35; 36; 37; 38; 39; 40]) ∧
  run (environment (pure_less Nat.ltb) heap_alloc heap_free) (stable_sort_mem cfg_release64 (length l))
    (Env tt (SmallHeap 11 16 0) (Some [])) l =
    (Panicked AssertPanic, Env tt (SmallHeap 11 16 0) (Some []), l).
Proof.
  split; [exact small_heap_limited|].
  split; [vm_compute; lia|]. split; [vm_compute; lia|]. split; vm_compute; reflexivity.
Qed.
