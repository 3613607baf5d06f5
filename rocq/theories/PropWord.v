(** * C66: the algorithms with [usize] arithmetic, which panics or wraps on overflow, do
    exactly what the model with natural numbers does. *)
From Verif Require Import TWordTop Examples.
From Coq Require Import NArith.

Theorem sort_unstable_words :
  ∀ (T S : Type) (c : cfg) (o : S → T * T → option bool * S) (s : S) (l : list T),
  allowed c (length l) →
  run o (quick_sort_w c (length l)) s l = run o (sort_unstable c (length l)) s l.
Proof. exact @quick_sort_word. Qed.
Print Assumptions sort_unstable_words.

Theorem sort_unstable_by_words :
  ∀ (T S : Type) (c : cfg) (o : S → T * T → option comparison * S) (s : S) (l : list T),
  allowed c (length l) →
  run o (by_compare (quick_sort_w c (length l))) s l = run o (sort_unstable_by c (length l)) s l.
Proof. exact @quick_sort_by_word. Qed.
Print Assumptions sort_unstable_by_words.

Theorem sort_unstable_by_key_words :
  ∀ (T S K : Type) (c : cfg) (o : S → key_question K → key_answer K * S) (s : S) (l : list T),
  allowed c (length l) →
  run o (by_key (quick_sort_w c (length l))) s l = run o (sort_unstable_by_key c (length l)) s l.
Proof. exact @quick_sort_by_key_word. Qed.
Print Assumptions sort_unstable_by_key_words.

Theorem sort_words :
  ∀ (T S : Type) (c : cfg) (o : S → T * T → option bool * S) (s : S) (l : list T),
  allowed c (length l) →
  run o (stable_sort_w c (length l)) s l = run o (MApi.sort c (length l)) s l.
Proof. exact @stable_sort_word. Qed.
Print Assumptions sort_words.

Theorem sort_by_words :
  ∀ (T S : Type) (c : cfg) (o : S → T * T → option comparison * S) (s : S) (l : list T),
  allowed c (length l) →
  run o (by_compare (stable_sort_w c (length l))) s l = run o (sort_by c (length l)) s l.
Proof. exact @stable_sort_by_word. Qed.
Print Assumptions sort_by_words.

Theorem sort_by_key_words :
  ∀ (T S K : Type) (c : cfg) (o : S → key_question K → key_answer K * S) (s : S) (l : list T),
  allowed c (length l) →
  run o (by_key (stable_sort_w c (length l))) s l = run o (sort_by_key c (length l)) s l.
Proof. exact @stable_sort_by_key_word. Qed.
Print Assumptions sort_by_key_words.

Theorem select_nth_unstable_words :
  ∀ (T S : Type) (c : cfg) (o : S → T * T → option bool * S) (s : S) (index : nat) (l : list T),
  allowed c (length l) →
  run o (partition_at_index_w c (length l) index) s l =
    run o (select_nth_unstable c (length l) index) s l.
Proof. exact @select_word. Qed.
Print Assumptions select_nth_unstable_words.

Theorem select_nth_unstable_by_words :
  ∀ (T S : Type) (c : cfg) (o : S → T * T → option comparison * S) (s : S) (index : nat) (l : list T),
  allowed c (length l) →
  run o (by_compare (partition_at_index_w c (length l) index)) s l =
    run o (select_nth_unstable_by c (length l) index) s l.
Proof. exact @select_by_word. Qed.
Print Assumptions select_nth_unstable_by_words.

Theorem select_nth_unstable_by_key_words :
  ∀ (T S K : Type) (c : cfg) (o : S → key_question K → key_answer K * S) (s : S) (index : nat) (l : list T),
  allowed c (length l) →
  run o (by_key (partition_at_index_w c (length l) index)) s l =
    run o (select_nth_unstable_by_key c (length l) index) s l.
Proof. exact @select_by_key_word. Qed.
Print Assumptions select_nth_unstable_by_key_words.

(** Without overflow checks for all indices, in any order; with them for indices in order. *)
Theorem select_many_nth_unstable_words :
  ∀ (T S : Type) (c : cfg) (o : S → T * T → option bool * S) (s : S) (inds : list nat) (l : list T),
  allowed c (length l) → ovf c = false ∨ valid_indices 0 (length l) inds →
  run o (select_many_w c (length l) inds) s l =
    run o (select_many_nth_unstable c (length l) inds) s l.
Proof. exact @select_many_word. Qed.
Print Assumptions select_many_nth_unstable_words.

Theorem select_many_nth_unstable_by_words :
  ∀ (T S : Type) (c : cfg) (o : S → T * T → option comparison * S) (s : S) (inds : list nat) (l : list T),
  allowed c (length l) → ovf c = false ∨ valid_indices 0 (length l) inds →
  run o (by_compare (select_many_w c (length l) inds)) s l =
    run o (select_many_nth_unstable_by c (length l) inds) s l.
Proof. exact @select_many_by_word. Qed.
Print Assumptions select_many_nth_unstable_by_words.

Theorem select_many_nth_unstable_by_key_words :
  ∀ (T S K : Type) (c : cfg) (o : S → key_question K → key_answer K * S) (s : S) (inds : list nat) (l : list T),
  allowed c (length l) → ovf c = false ∨ valid_indices 0 (length l) inds →
  run o (by_key (select_many_w c (length l) inds)) s l =
    run o (select_many_nth_unstable_by_key c (length l) inds) s l.
Proof. exact @select_many_by_key_word. Qed.
Print Assumptions select_many_nth_unstable_by_key_words.

Theorem binary_search_by_words :
  ∀ (T S : Type) (c : cfg) (o : S → T → option comparison * S) (s : S) (l : list T),
  allowed c (length l) →
  run o (binary_search_by_w c (length l)) s l = run o (binary_search_by c (length l)) s l.
Proof. exact @binary_search_by_word. Qed.
Print Assumptions binary_search_by_words.

Theorem partition_dedup_by_words :
  ∀ (T S : Type) (c : cfg) (o : S → T * T → dedup_answer T * S) (s : S) (l : list T),
  allowed c (length l) →
  run o (partition_dedup_by_w c (length l)) s l = run o (partition_dedup_by (length l)) s l.
Proof. exact @partition_dedup_by_word. Qed.
Print Assumptions partition_dedup_by_words.

(** A build with overflow checks does what one without them does. *)
Theorem overflow_checks_make_no_difference :
  ∀ (T S : Type) (c : cfg) (o : S → T * T → option bool * S) (s : S) (index : nat) (l : list T),
  allowed c (length l) →
  run o (quick_sort_w (checked c true) (length l)) s l =
    run o (quick_sort_w (checked c false) (length l)) s l ∧
  run o (stable_sort_w (checked c true) (length l)) s l =
    run o (stable_sort_w (checked c false) (length l)) s l ∧
  run o (partition_at_index_w (checked c true) (length l) index) s l =
    run o (partition_at_index_w (checked c false) (length l) index) s l.
Proof. exact @checked_word. Qed.
Print Assumptions overflow_checks_make_no_difference.

(** The arrays allowed: [2^31 - 1] elements on 32 bits, [2^63 - 1] on 64. *)
Example allowed_example :
  allowed cfg_debug32 (N.to_nat 2147483647) ∧ ¬ allowed cfg_debug32 (N.to_nat 2147483648) ∧
  allowed cfg_debug64 (N.to_nat 9223372036854775807) ∧ ¬ allowed cfg_debug64 (N.to_nat 9223372036854775808).
Proof. unfold allowed. rewrite !N2Nat.id. by vm_compute. Qed.
(** Sums and differences that do not fit. *)
Example words_example :
  uadd (T:=nat) (Q:=nat) (R:=nat) cfg_debug32 (N.to_nat 4294967295) 1 = Throw OverflowPanic ∧
  wsub (T:=nat) (Q:=nat) (R:=nat) cfg_debug32 3 5 = Throw OverflowPanic ∧
  uadd (T:=nat) (Q:=nat) (R:=nat) cfg_release64 (N.to_nat 18446744073709551615) 3 = Ret (N.to_nat 2) ∧
  wsub (T:=nat) (Q:=nat) (R:=nat) cfg_release64 3 5 = Ret (N.to_nat 18446744073709551614).
Proof.
  unfold uadd. rewrite !N2Nat.id.
  split; [reflexivity|]. split; [reflexivity|]. split; [reflexivity|].
  change (@Ret nat nat nat nat (N.to_nat (3 + words cfg_release64 - 5)) =
    Ret (N.to_nat 18446744073709551614)).
  do 2 f_equal.
Qed.
Example words_sort_example :
  let l := [31; 4; 15; 9; 26; 5; 35; 8; 97; 93; 23; 84; 62; 64; 33; 83; 27; 95; 2; 88; 41; 97; 16; 93; 99] in
  (run (pure_less Nat.ltb) (quick_sort_w cfg_debug32 25) tt l).2 =
    [2; 4; 5; 8; 9; 15; 16; 23; 26; 27; 31; 33; 35; 41; 62; 64; 83; 84; 88; 93; 93; 95; 97; 97; 99] ∧
  run (pure_less Nat.ltb) (stable_sort_w cfg_debug32 25) tt l =
    run (pure_less Nat.ltb) (MApi.sort cfg_debug32 25) tt l.
Proof. cbv zeta. split; vm_compute; reflexivity. Qed.
(** With overflow checks indices out of order panic in the subtraction [1 - 4]. *)
Example words_indices_example :
  (run (pure_less Nat.ltb) (select_many_w cfg_debug32 5 [0; 3]) tt [5; 1; 4; 2; 3]).1.1 = Done [(0, 0); (3, 3)] ∧
  (run (pure_less Nat.ltb) (select_many_w cfg_debug32 5 [0; 3; 1]) tt [5; 1; 4; 2; 3]).1.1 = Panicked OverflowPanic.
Proof. split; vm_compute; reflexivity. Qed.
