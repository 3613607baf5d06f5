(** * C70: the stable sort's memory management with [usize] arithmetic and layouts. *)
From Verif Require Import RWordAlloc Examples.
From Coq Require Import NArith.

(** The array exists, so its bytes are at most [isize::MAX].  The environment [o] answers
    comparisons and requests for memory with anything: the comparator may panic, the
    allocator may return null.  On the left a block without layout is undefined behaviour. *)
Theorem stable_sort_memory_words :
  ∀ (T S : Type) (c : cfg) (size align : N) (o : S → mem_question T → mem_answer * S)
    (s : S) (l : list T),
  (0 < align)%N → (align ≤ size)%N → (2 * (N.of_nat (length l) * size) < words c)%N →
  run o (stable_sort_mem_w c size align (length l)) s l = run o (stable_sort_mem c (length l)) s l.
Proof. exact @stable_sort_mem_word. Qed.
Print Assumptions stable_sort_memory_words.

(** A debug build for 32 bits, elements of 12 bytes aligned to 4. *)
Example stable_sort_memory_words_example :
  let l := [5; 1; 4; 4; 9; 0; 23; 7; 7; 2; 31; 6; 8; 3; 12; 40; 39; 38; 37; 36; 35; 34; 33; 32; 1] in
  let al := λ (a : nat) (_ : block_kind) (_ : nat), (Some a, a + 1) in
  (0 < 4)%N ∧ (4 ≤ 12)%N ∧ (2 * (N.of_nat (length l) * 12) < words cfg_debug32)%N ∧
  run (environment (pure_less Nat.ltb) al (λ a _ _ _, a))
    (stable_sort_mem_w cfg_debug32 12 4 (length l)) (Env tt 0 (Some [])) l =
    (Done tt, Env tt 2 (Some []),
     [0; 1; 1; 2; 3; 4; 4; 5; 6; 7; 7; 8; 9; 12; 23; 31; 32; 33; 34; 35; 36; 37; 38; 39; 40]).
Proof. split; [done|]. split; [done|]. split; [vm_compute; reflexivity|]. vm_compute. reflexivity. Qed.
(** Such an array of elements of 2^30 bytes does not fit: there is no layout for the buffer. *)
Example stable_sort_memory_words_too_large :
  let al := λ (a : nat) (_ : block_kind) (_ : nat), (Some a, a + 1) in
  (run (environment (pure_less Nat.ltb) al (λ a _ _ _, a))
    (stable_sort_mem_w cfg_debug32 (2 ^ 30) 4 25) (Env tt 0 (Some [])) (seq 0 25)).1.1 = Undefined.
Proof. vm_compute. reflexivity. Qed.

(** With an allocator that never fails it does what [sort] does and returns all memory. *)
Theorem stable_sort_words_return_memory :
  ∀ (T S A : Type) (c : cfg) (size align : N) (less : S → T * T → option bool * S)
    (al : A → block_kind → nat → option nat * A) (fr : A → block_kind → nat → nat → A)
    (s : S) (a : A) (l : list T),
  (0 < align)%N → (align ≤ size)%N → (2 * (N.of_nat (length l) * size) < words c)%N →
  (∀ a k len, (al a k len).1 ≠ None) →
  ∃ r s' l' a', run less (MApi.sort c (length l)) s l = (r, s', l') ∧
    run (environment less al fr) (stable_sort_mem_w c size align (length l)) (Env s a (Some [])) l =
      (r, Env s' a' (Some []), l') ∧
    (r = Done tt ∨ r = Panicked UserPanic) ∧ Permutation l l'.
Proof. exact @stable_sort_mem_word_frees. Qed.
Print Assumptions stable_sort_words_return_memory.

(** Whatever the allocator and the comparator do, nothing is accessed out of bounds, and the
    elements stay; [AssertPanic] is the panic for a null pointer. *)
Theorem stable_sort_any_allocator :
  ∀ (T S : Type) (c : cfg) (o : S → mem_question T → mem_answer * S) (s : S) (l : list T),
  ∃ r s' l', run o (stable_sort_mem c (length l)) s l = (r, s', l') ∧
    (r = Done tt ∨ r = Panicked UserPanic ∨ r = Panicked AssertPanic) ∧ Permutation l l'.
Proof. exact @stable_sort_mem_all. Qed.
Print Assumptions stable_sort_any_allocator.

(** If it returns, the array is sorted, and stably. *)
Theorem stable_sort_any_allocator_sorts :
  ∀ (T A : Type) (c : cfg) (lt : T → T → bool) (al : A → block_kind → nat → option nat * A)
    (fr : A → block_kind → nat → nat → A) (a : A) (h : option (list (block_kind * nat * nat)))
    (l : list T),
  strict_weak_order lt → (zst c = true → ∀ x y : T, x = y) →
  ∃ r e' l',
    run (environment (pure_less lt) al fr) (stable_sort_mem c (length l)) (Env tt a h) l = (r, e', l') ∧
    Permutation l l' ∧
    ((r = Done tt ∧ sorted_wrt lt l' ∧ same_order_of_equals lt l l') ∨ r = Panicked AssertPanic).
Proof. exact @stable_sort_mem_sorts. Qed.
Print Assumptions stable_sort_any_allocator_sorts.

(** The allocator fails for the stack of runs, and then it does not. *)
Example stable_sort_any_allocator_example :
  let l := [11; 21; 31; 12; 12; 13; 17; 25; 24; 23; 22; 41; 50; 61; 62; 63; 64; 65; 66; 67; 68; 69; 8; 7; 5] in
  let al := λ (a : nat) (k : block_kind) (len : nat), (if (len =? 16) && (a =? 1) then None else Some a, a + 1) in
  strict_weak_order (is_lt digit_cmp) ∧ (zst cfg_debug64 = true → ∀ x y : nat, x = y) ∧
  run (environment (pure_less (is_lt digit_cmp)) al (λ a _ _ _, a))
    (stable_sort_mem cfg_debug64 (length l)) (Env tt 0 None) l =
    (Panicked AssertPanic, Env tt 2 None, l) ∧
  run (environment (pure_less (is_lt digit_cmp)) al (λ a _ _ _, a))
    (stable_sort_mem cfg_debug64 (length l)) (Env tt 1 None) l =
    (Done tt, Env tt 3 None,
     [50; 11; 21; 31; 41; 61; 12; 12; 22; 62; 13; 23; 63; 24; 64; 25; 65; 5; 66; 17; 67; 7; 68; 8; 69]).
Proof.
  split; [|split; [done|]].
  - apply digit_swo.
  - split; vm_compute; reflexivity.
Qed.
