(** * C46, C47: the memory the stable sort asks for. *)
From Verif Require Import RAlloc Examples.

(** C46.  In the environment of HeapSpec.v [Some []] says that no block is
    allocated, [None] that something was freed that was not allocated like this.
    The vector of runs is modelled down to its slots (MAlloc.v), so the theorem
    also says that it is never accessed out of bounds or uninitialised. *)
Theorem stable_sort_returns_memory :
  ∀ (T S A : Type) (c : cfg) (less : S → T * T → option bool * S)
    (al : A → block_kind → nat → option nat * A) (fr : A → block_kind → nat → nat → A)
    (s : S) (a : A) (l : list T),
  (∀ a k len, (al a k len).1 ≠ None) →
  ∃ r s' l' a', run less (stable_sort c (length l)) s l = (r, s', l') ∧
    run (environment less al fr) (stable_sort_mem c (length l)) (Env s a (Some [])) l =
      (r, Env s' a' (Some []), l') ∧
    (r = Done tt ∨ r = Panicked UserPanic) ∧ Permutation l l'.
Proof. exact @stable_sort_frees. Qed.
Print Assumptions stable_sort_returns_memory.

(** A sort that returns, and one whose comparator panics when it sees 9: two
    blocks are allocated, none is left. *)
Example stable_sort_returns_memory_example :
  let l := [5; 1; 4; 4; 9; 0; 23; 7; 7; 2; 31; 6; 8; 3; 12; 40; 39; 38; 37; 36; 35; 34; 33; 32; 1] in
  let al := λ (a : nat) (_ : block_kind) (_ : nat), (Some a, a + 1) in
  let angry : unit → nat * nat → option bool * unit :=
    λ _ '(x, y), (if (x =? 9) || (y =? 9) then None else Some (x <? y), tt) in
  (∀ a k len, (al a k len).1 ≠ None) ∧
  run (environment (pure_less Nat.ltb) al (λ a _ _ _, a)) (stable_sort_mem cfg_release64 (length l))
    (Env tt 0 (Some [])) l =
    (Done tt, Env tt 2 (Some []),
     [0; 1; 1; 2; 3; 4; 4; 5; 6; 7; 7; 8; 9; 12; 23; 31; 32; 33; 34; 35; 36; 37; 38; 39; 40]) ∧
  (run (environment angry al (λ a _ _ _, a)) (stable_sort_mem cfg_release64 (length l))
    (Env tt 0 (Some [])) l).1 = (Panicked UserPanic, Env tt 2 (Some [])).
Proof. split; [done|]. split; vm_compute; reflexivity. Qed.

(** C47 is false: if the allocation for the 17th run fails ([RunVec::push],
    src/merge_sort.rs:402-403), the panic of [unwrap] drops the vector when its
    capacity is doubled already, and the block of 16 runs is freed as a block of
    32.  The witness is an array of 29994 numbers with sixteen non-decreasing
    runs and one more element, under the usual order. *)
Theorem stable_sort_allocation_failure_refuted :
  ∃ (l : list nat) a', N.of_nat (length l) = 29994%N ∧
    run (environment (pure_less Nat.ltb) third_null (λ a _ _ _, a))
      (stable_sort_mem (Cfg false false true false) (length l)) (Env tt 0 (Some [])) l =
      (Panicked AssertPanic, Env tt a' None, l).
Proof. exact third_null_wrong_free. Qed.
Print Assumptions stable_sort_allocation_failure_refuted.

(** C47, the part that holds: arrays of at most 29993 elements (one less than
    the witness has), and allocators that can always enlarge the vector.  The
    sort then does what it does without failures, or it panics before it has
    called the comparator or touched the array. *)
Theorem stable_sort_allocation_failure_partial :
  ∀ (T S A : Type) (c : cfg) (less : S → T * T → option bool * S)
    (al : A → block_kind → nat → option nat * A) (fr : A → block_kind → nat → nat → A)
    (s : S) (a : A) (l : list T),
  ((∀ a len, 16 < len → (al a RunBlock len).1 ≠ None) ∨ (N.of_nat (length l) ≤ 29993)%N) →
  ∃ r s' l' a',
    run (environment less al fr) (stable_sort_mem c (length l)) (Env s a (Some [])) l =
      (r, Env s' a' (Some []), l') ∧
    (run less (stable_sort c (length l)) s l = (r, s', l') ∨
     (¬ (∀ a k len, (al a k len).1 ≠ None) ∧ r = Panicked AssertPanic ∧ s' = s ∧ l' = l)).
Proof. exact @stable_sort_null. Qed.
Print Assumptions stable_sort_allocation_failure_partial.

(** The second allocation fails: the block of the first is freed. *)
Example stable_sort_allocation_failure_example :
  let l := [5; 1; 4; 4; 9; 0; 23; 7; 7; 2; 31; 6; 8; 3; 12; 40; 39; 38; 37; 36; 35; 34; 33; 32; 1] in
  let al := λ (a : nat) (_ : block_kind) (_ : nat), (if a =? 1 then None else Some a, a + 1) in
  (N.of_nat (length l) ≤ 29993)%N ∧
  run (environment (pure_less Nat.ltb) al (λ a _ _ _, a)) (stable_sort_mem cfg_release64 (length l))
    (Env tt 0 (Some [])) l = (Panicked AssertPanic, Env tt 2 (Some []), l).
Proof. split; [vm_compute; discriminate|vm_compute; reflexivity]. Qed.
