(** * C60: how much buffer the parallel stable sort needs.

    As in PropParMerge.v the memory is the array [l] followed by the buffer [junk],
    but the buffer is not as long as the array.  An access behind the end of the
    memory is undefined. *)
From Verif Require Import THalf Examples.

(** C60.  The documentation promises temporary storage of half the size of the array.
    For two chunks that is not enough: the sort of 2001 equal elements accesses the
    buffer behind the 1000 elements. *)
Theorem par_sort_half_buffer_refuted :
  ¬ ∀ (T : Type) (c : cfg) (take_item : nat → bool) (lt : T → T → bool) (l junk : list T),
    strict_weak_order lt → (zst c = true → ∀ x y : T, x = y) → length junk = length l / 2 →
    (run (pure_less lt) (par_sort c take_item (length l)) tt (l ++ junk)).1.1 = Done tt.
Proof. exact par_sort_half_false. Qed.
Print Assumptions par_sort_half_buffer_refuted.

(** For one chunk, that is up to 2000 elements, half is enough, and up to 20 elements
    need no buffer.  What is missing is longer arrays, for which the buffer must be as
    long as the array and C27 applies. *)
Theorem par_sort_half_buffer_partial :
  ∀ (T : Type) (c : cfg) (take_item : nat → bool) (lt : T → T → bool) (l junk : list T),
  strict_weak_order lt → (zst c = true → ∀ x y : T, x = y) →
  length l ≤ 20 ∨ length l ≤ 2000 ∧ length junk = length l / 2 →
  every_schedule (ans_lt lt) (par_sort c take_item (length l)) (l ++ junk)
    (λ _ m, let l' := take (length l) m in
       Permutation l l' ∧ sorted_wrt lt l' ∧ same_order_of_equals lt l l') (λ _ _, False).
Proof. exact @par_sort_half_lt. Qed.
Print Assumptions par_sort_half_buffer_partial.

(** The same for comparators that answer anything or panic. *)
Theorem par_sort_by_half_buffer_partial :
  ∀ (T : Type) (c : cfg) (take_item : nat → bool) (ans : T * T → option comparison → Prop)
    (l junk : list T),
  (∀ q, ∃ r, ans q r) →
  length l ≤ 20 ∨ length l ≤ 2000 ∧ length junk = length l / 2 →
  every_schedule ans (par_sort_by c take_item (length l)) (l ++ junk)
    (λ _ m, Permutation l (take (length l) m))
    (λ e m, e = UserPanic ∧ Permutation l (take (length l) m)).
Proof. exact @par_sort_by_half_any. Qed.
Print Assumptions par_sort_by_half_buffer_partial.

(** 27 elements in runs of 10, 7 and 10, sorted with a buffer of 13. *)
Example par_sort_half_buffer_example :
  let l := seq 20 10 ++ seq 0 7 ++ seq 10 10 in
  strict_weak_order Nat.ltb ∧ length (repeat 99 13) = length l / 2 ∧
  (∀ q : nat * nat, ∃ r : option comparison, (λ _ _, True) q r) ∧
  (run (pure_less Nat.ltb) (par_sort cfg_debug64 (λ _, true) 27) tt (l ++ repeat 99 13)).1.1 = Done tt ∧
  take 27 (run (pure_less Nat.ltb) (par_sort cfg_debug64 (λ _, true) 27) tt (l ++ repeat 99 13)).2 =
    seq 0 7 ++ seq 10 20 ∧
  (run (pure_less Nat.ltb) (par_sort cfg_debug64 (λ _, true) 27) tt (l ++ repeat 99 5)).1.1 = Undefined.
Proof.
  split; [exact ltb_swo|]. split; [reflexivity|]. split; [by exists None|].
  vm_compute. repeat split.
Qed.
