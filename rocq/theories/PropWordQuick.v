(** * C69: the parallel unstable sort and selection with [usize] arithmetic, which panics or
    wraps on overflow, do exactly what the model with natural numbers does, under every
    schedule. *)
From Verif Require Import TWordQuick Examples.
From stdpp Require Import relations.
From Coq Require Import NArith.

(** The tasks one after the other: same outcome, same calls, same array. *)
Theorem par_sort_unstable_words :
  ∀ (T S : Type) (c : cfg) (o : S → T * T → option bool * S) (s : S) (l : list T),
  allowed c (length l) →
  run o (par_sort_unstable_w c (length l)) s l = run o (par_sort_unstable c (length l)) s l.
Proof. exact (λ T S c o, @par_sort_unstable_word T c S o). Qed.
Print Assumptions par_sort_unstable_words.

Theorem par_sort_unstable_by_words :
  ∀ (T S : Type) (c : cfg) (o : S → T * T → option comparison * S) (s : S) (l : list T),
  allowed c (length l) →
  run o (par_sort_unstable_by_w c (length l)) s l = run o (par_sort_unstable_by c (length l)) s l.
Proof. exact (λ T S c o, @par_sort_unstable_by_word T c S o). Qed.
Print Assumptions par_sort_unstable_by_words.

Theorem par_sort_unstable_by_key_words :
  ∀ (T S K : Type) (c : cfg) (o : S → key_question (T:=T) K → key_answer K * S) (s : S) (l : list T),
  allowed c (length l) →
  run o (par_sort_unstable_by_key_w c (length l)) s l =
    run o (par_sort_unstable_by_key c (length l)) s l.
Proof. exact (λ T S K c o, @par_sort_unstable_by_key_word T c S K o). Qed.
Print Assumptions par_sort_unstable_by_key_words.

Theorem par_select_many_nth_unstable_words :
  ∀ (T S : Type) (c : cfg) (o : S → T * T → option bool * S) (s : S) (vlen : nat) (inds : list nat)
    (l : list T),
  allowed c (length l) → length inds ≤ vlen → ovf c = false ∨ valid_indices 0 (length l) inds →
  run o (par_select_many_w c (length l) vlen inds) s l =
    run o (par_select_many_nth_unstable c (length l) vlen inds) s l.
Proof. exact (λ T S c o, @par_select_many_word T c S o). Qed.
Print Assumptions par_select_many_nth_unstable_words.

Theorem par_select_many_nth_unstable_by_words :
  ∀ (T S : Type) (c : cfg) (o : S → T * T → option comparison * S) (s : S) (vlen : nat)
    (inds : list nat) (l : list T),
  allowed c (length l) → length inds ≤ vlen → ovf c = false ∨ valid_indices 0 (length l) inds →
  run o (par_select_many_by_w c (length l) vlen inds) s l =
    run o (par_select_many_nth_unstable_by c (length l) vlen inds) s l.
Proof. exact (λ T S c o, @par_select_many_by_word T c S o). Qed.
Print Assumptions par_select_many_nth_unstable_by_words.

Theorem par_select_many_nth_unstable_by_key_words :
  ∀ (T S K : Type) (c : cfg) (o : S → key_question (T:=T) K → key_answer K * S) (s : S) (vlen : nat)
    (inds : list nat) (l : list T),
  allowed c (length l) → length inds ≤ vlen → ovf c = false ∨ valid_indices 0 (length l) inds →
  run o (par_select_many_by_key_w c (length l) vlen inds) s l =
    run o (par_select_many_nth_unstable_by_key c (length l) vlen inds) s l.
Proof. exact (λ T S K c o, @par_select_many_by_key_word T c S K o). Qed.
Print Assumptions par_select_many_nth_unstable_by_key_words.

(** Any interleaving of the tasks is one of the model's tasks, with the same array, whatever
    the closure does, also if it panics in one task or in several. *)
Theorem par_sort_unstable_by_words_interleave :
  ∀ (T : Type) (c : cfg) (ans : T * T → option comparison → Prop) (l l' : list T)
    (p : prog T (T * T) (option comparison) unit),
  (∀ q, ∃ r, ans q r) → allowed c (length l) →
  rtc (stepm ans) (par_sort_unstable_by_w c (length l), l) (p, l') →
  ∃ q, rtc (stepm ans) (par_sort_unstable_by c (length l), l) (q, l') ∧
    ∀ r, result p = Some r → result q = Some r.
Proof. exact @par_sort_unstable_by_word_steps. Qed.
Print Assumptions par_sort_unstable_by_words_interleave.

Theorem par_select_many_nth_unstable_by_words_interleave :
  ∀ (T : Type) (c : cfg) (ans : T * T → option comparison → Prop) (vlen : nat) (inds : list nat)
    (l l' : list T) (p : prog T (T * T) (option comparison) (list (option nat))),
  (∀ q, ∃ r, ans q r) →
  allowed c (length l) → length inds ≤ vlen → ovf c = false ∨ valid_indices 0 (length l) inds →
  rtc (stepm ans) (par_select_many_by_w c (length l) vlen inds, l) (p, l') →
  ∃ q, rtc (stepm ans) (par_select_many_nth_unstable_by c (length l) vlen inds, l) (q, l') ∧
    ∀ r, result p = Some r → result q = Some r.
Proof. exact @par_select_many_by_word_steps. Qed.
Print Assumptions par_select_many_nth_unstable_by_words_interleave.

(** The theorems of PropPar.v for words. *)
Theorem par_sort_unstable_words_sorts :
  ∀ (T : Type) (c : cfg) (lt : T → T → bool) (l : list T),
  allowed c (length l) →
  strict_weak_order lt → (zst c = true → ∀ x y : T, x = y) →
  every_schedule (ans_lt lt) (par_sort_unstable_w c (length l)) l
    (λ _ l', Permutation l l' ∧ sorted_wrt lt l') (λ _ _, False).
Proof. exact @par_sort_unstable_word_sorts. Qed.
Print Assumptions par_sort_unstable_words_sorts.

Theorem par_sort_unstable_by_words_sorts :
  ∀ (T : Type) (c : cfg) (cmp : T → T → comparison) (l : list T),
  allowed c (length l) →
  strict_weak_order (is_lt cmp) → (zst c = true → ∀ x y : T, x = y) →
  every_schedule (ans_cmp cmp) (par_sort_unstable_by_w c (length l)) l
    (λ _ l', Permutation l l' ∧ sorted_wrt (is_lt cmp) l') (λ _ _, False).
Proof. exact @par_sort_unstable_by_word_sorts. Qed.
Print Assumptions par_sort_unstable_by_words_sorts.

Theorem par_sort_unstable_by_key_words_sorts :
  ∀ (T : Type) (c : cfg) (K : Type) (f : T → K) (ltk : K → K → bool) (l : list T),
  allowed c (length l) →
  let lt := λ a b, ltk (f a) (f b) in
  strict_weak_order lt → (zst c = true → ∀ x y : T, x = y) →
  every_schedule (ans_key f ltk) (par_sort_unstable_by_key_w c (length l)) l
    (λ _ l', Permutation l l' ∧ sorted_wrt lt l') (λ _ _, False).
Proof. exact @par_sort_unstable_by_key_word_sorts. Qed.
Print Assumptions par_sort_unstable_by_key_words_sorts.

Theorem par_sort_unstable_by_words_any_comparator :
  ∀ (T : Type) (c : cfg) (ans : T * T → option comparison → Prop) (l : list T),
  allowed c (length l) → (∀ q, ∃ r, ans q r) →
  every_schedule ans (par_sort_unstable_by_w c (length l)) l
    (λ _ l', Permutation l l')
    (λ e l', e = UserPanic ∧ (∃ q, ans q None) ∧ Permutation l l').
Proof. exact @par_sort_unstable_by_word_any. Qed.
Print Assumptions par_sort_unstable_by_words_any_comparator.

Theorem par_select_many_nth_unstable_by_words_selects :
  ∀ (T : Type) (c : cfg) (cmp : T → T → comparison) (vlen : nat) (inds : list nat) (l : list T),
  allowed c (length l) →
  dbg c = false → valid_indices 0 (length l) inds → length inds ≤ vlen →
  strict_weak_order (is_lt cmp) → (zst c = true → ∀ x y : T, x = y) →
  every_schedule (ans_cmp cmp) (par_select_many_by_w c (length l) vlen inds) l
    (λ r l', r = map Some inds ∧ Permutation l l' ∧
       Forall (λ i, ∃ x, placed (is_lt cmp) l' i x ∧ order_statistic (is_lt cmp) l i x) inds)
    (λ _ _, False).
Proof. exact @par_select_many_by_word_selects. Qed.
Print Assumptions par_select_many_nth_unstable_by_words_selects.

Theorem par_select_many_nth_unstable_by_words_any_comparator :
  ∀ (T : Type) (c : cfg) (ans : T * T → option comparison → Prop) (vlen : nat)
    (inds : list nat) (l : list T),
  allowed c (length l) →
  (∀ q, ∃ r, ans q r) → length inds ≤ vlen → ovf c = false ∨ valid_indices 0 (length l) inds →
  every_schedule ans (par_select_many_by_w c (length l) vlen inds) l
    (λ r l', valid_indices 0 (length l) inds ∧ r = map Some inds ∧ Permutation l l')
    (λ e l', Permutation l l' ∧
       (e = UserPanic ∧ (∃ q, ans q None) ∨ e = DebugPanic ∧ dbg c = true ∨
        ¬ valid_indices 0 (length l) inds ∧ (e = AssertPanic ∨ e = OverflowPanic ∧ ovf c = true))).
Proof. exact @par_select_many_by_word_any. Qed.
Print Assumptions par_select_many_nth_unstable_by_words_any_comparator.

Example par_sort_unstable_words_example :
  allowed cfg_debug32 (N.to_nat 2147483647) ∧
  (let r := run (pure_less Nat.ltb) (par_sort_unstable_w cfg_debug32 60) tt
              (rev (seq 0 30) ++ seq 15 30) in
   r.1.1 = Done tt ∧ take 20 r.2 = [0; 1; 2; 3; 4; 5; 6; 7; 8; 9; 10; 11; 12; 13; 14; 15; 15; 16; 16; 17]).
Proof.
  split; [unfold allowed; rewrite N2Nat.id; by vm_compute|].
  vm_compute. split; reflexivity.
Qed.

(** An index below its predecessor wraps around without overflow checks: out of bounds. *)
Example par_select_many_words_example :
  let l := [5; 1; 4; 4; 9; 0; 23; 7; 7; 2; 31; 6; 8; 3; 12] in
  allowed cfg_release64 (length l) ∧ length [0; 4; 5; 14] ≤ 9 ∧
  valid_indices 0 (length l) [0; 4; 5; 14] ∧ ovf cfg_release64 = false ∧
  (let r := run (pure_less Nat.ltb) (par_select_many_w cfg_release64 (length l) 9 [0; 4; 5; 14]) tt l in
   r.1.1 = Done [Some 0; Some 4; Some 5; Some 14] ∧ r.2 !! 4 = Some 4).
Proof.
  split; [by vm_compute|]. split; [simpl; lia|]. split.
  { split; repeat constructor; unfold Nat.lt; simpl; lia. }
  split; [done|]. vm_compute. split; reflexivity.
Qed.
