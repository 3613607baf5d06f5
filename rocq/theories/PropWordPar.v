(** * C68: the parallel stable sort with [usize] arithmetic, which panics or wraps on
    overflow, does exactly what the model with natural numbers does, under every schedule.

    As in PropParMerge.v the memory is the array [l] and the buffer [junk]. *)
From Verif Require Import TWordPar TParMerge Examples.
From stdpp Require Import relations.
From Coq Require Import NArith.

(** The tasks one after the other: same outcome, same calls, same memory. *)
Theorem par_sort_words :
  ∀ (T S : Type) (c : cfg) (o : S → T * T → option bool * S) (take_item : nat → bool) (s : S)
    (n : nat) (mem : list T),
  allowed c n →
  run o (par_sort_w c take_item n) s mem = run o (par_sort c take_item n) s mem.
Proof. exact (λ T S c o, @par_sort_word T c S o). Qed.
Print Assumptions par_sort_words.

Theorem par_sort_by_words :
  ∀ (T S : Type) (c : cfg) (o : S → T * T → option comparison * S) (take_item : nat → bool) (s : S)
    (n : nat) (mem : list T),
  allowed c n →
  run o (par_sort_by_w c take_item n) s mem = run o (par_sort_by c take_item n) s mem.
Proof. exact (λ T S c o, @par_sort_by_word T c S o). Qed.
Print Assumptions par_sort_by_words.

Theorem par_sort_by_key_words :
  ∀ (T S K : Type) (c : cfg) (o : S → key_question (T:=T) K → key_answer K * S)
    (take_item : nat → bool) (s : S) (n : nat) (mem : list T),
  allowed c n →
  run o (par_sort_by_key_w c take_item n) s mem = run o (par_sort_by_key c take_item n) s mem.
Proof. exact (λ T S K c o, @par_sort_by_key_word T c S K o). Qed.
Print Assumptions par_sort_by_key_words.

(** Any interleaving of the tasks is one of the model's tasks, with the same memory. *)
Theorem par_sort_by_words_interleave :
  ∀ (T : Type) (c : cfg) (take_item : nat → bool) (ans : T * T → option comparison → Prop)
    (n : nat) (mem mem' : list T) (p : prog T (T * T) (option comparison) unit),
  allowed c n →
  rtc (stepm ans) (par_sort_by_w c take_item n, mem) (p, mem') →
  ∃ q, rtc (stepm ans) (par_sort_by c take_item n, mem) (q, mem') ∧ result p = result q.
Proof. exact @par_sort_by_word_steps. Qed.
Print Assumptions par_sort_by_words_interleave.

(** C27 and C28 for words. *)
Theorem par_sort_words_sorts_stably :
  ∀ (T : Type) (c : cfg) (take_item : nat → bool) (lt : T → T → bool) (l junk : list T),
  allowed c (length l) →
  strict_weak_order lt → (zst c = true → ∀ x y : T, x = y) → length junk = length l →
  every_schedule (ans_lt lt) (par_sort_w c take_item (length l)) (l ++ junk)
    (λ _ m, let l' := take (length l) m in
       Permutation l l' ∧ sorted_wrt lt l' ∧ same_order_of_equals lt l l') (λ _ _, False).
Proof. exact @par_sort_word_sorts. Qed.
Print Assumptions par_sort_words_sorts_stably.

Theorem par_sort_by_words_sorts_stably :
  ∀ (T : Type) (c : cfg) (take_item : nat → bool) (cmp : T → T → comparison) (l junk : list T),
  allowed c (length l) →
  strict_weak_order (is_lt cmp) → (zst c = true → ∀ x y : T, x = y) → length junk = length l →
  every_schedule (ans_cmp cmp) (par_sort_by_w c take_item (length l)) (l ++ junk)
    (λ _ m, let l' := take (length l) m in
       Permutation l l' ∧ sorted_wrt (is_lt cmp) l' ∧ same_order_of_equals (is_lt cmp) l l')
    (λ _ _, False).
Proof. exact @par_sort_by_word_sorts. Qed.
Print Assumptions par_sort_by_words_sorts_stably.

Theorem par_sort_by_key_words_sorts_stably :
  ∀ (T : Type) (c : cfg) (take_item : nat → bool) (K : Type) (f : T → K) (ltk : K → K → bool)
    (l junk : list T),
  allowed c (length l) →
  let lt := λ a b, ltk (f a) (f b) in
  strict_weak_order lt → (zst c = true → ∀ x y : T, x = y) → length junk = length l →
  every_schedule (ans_key f ltk) (par_sort_by_key_w c take_item (length l)) (l ++ junk)
    (λ _ m, let l' := take (length l) m in
       Permutation l l' ∧ sorted_wrt lt l' ∧ same_order_of_equals lt l l') (λ _ _, False).
Proof. exact @par_sort_by_key_word_sorts. Qed.
Print Assumptions par_sort_by_key_words_sorts_stably.

Theorem par_sort_by_words_any_comparator :
  ∀ (T : Type) (c : cfg) (take_item : nat → bool) (ans : T * T → option comparison → Prop)
    (l junk : list T),
  allowed c (length l) →
  (∀ q, ∃ r, ans q r) → length junk = length l →
  every_schedule ans (par_sort_by_w c take_item (length l)) (l ++ junk)
    (λ _ m, Permutation l (take (length l) m))
    (λ e m, e = UserPanic ∧ (∃ a b, a ∈ l ∧ b ∈ l ∧ ans (a, b) None) ∧
       Permutation l (take (length l) m)).
Proof. exact @par_sort_by_word_any. Qed.
Print Assumptions par_sort_by_words_any_comparator.

Example par_sort_words_example :
  allowed cfg_debug32 (N.to_nat 2147483647) ∧
  (let r := run (pure_less Nat.ltb) (par_sort_w cfg_debug32 (λ _, true) 60) tt
              (rev (seq 0 30) ++ seq 15 30 ++ repeat 77 60) in
   r.1.1 = Done tt ∧ take 20 r.2 = [0; 1; 2; 3; 4; 5; 6; 7; 8; 9; 10; 11; 12; 13; 14; 15; 15; 16; 16; 17]).
Proof.
  split; [unfold allowed; rewrite N2Nat.id; by vm_compute|].
  vm_compute. split; reflexivity.
Qed.
