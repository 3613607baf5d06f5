(** * C03, C08, C14, C17, C38: panics of closures, key variants.

    [logged o] is the closure [o] that also records its calls and answers;
    [calm tr]: no recorded call panicked; [ends_in_panic tr]: the last recorded
    call panicked and no other. *)
From Verif Require Import TCompose Examples.

(** C03: the panic that leaves is the closure's, it was the last call, and the
    array is a permutation. *)
Theorem sort_unstable_by_panic_propagates :
  ∀ (T S : Type) (c : cfg) (o : S → T * T → option comparison * S) (s : S) (l : list T),
  ∃ r s' tr l', run (logged o) (sort_unstable_by c (length l)) (s, []) l = (r, (s', tr), l') ∧
    Permutation l l' ∧
    (r = Done tt ∧ calm tr ∨ r = Panicked UserPanic ∧ ends_in_panic tr).
Proof. exact @sort_unstable_by_panics. Qed.
Print Assumptions sort_unstable_by_panic_propagates.

(** C08. *)
Theorem sort_by_panic_propagates :
  ∀ (T S : Type) (c : cfg) (o : S → T * T → option comparison * S) (s : S) (l : list T),
  ∃ r s' tr l', run (logged o) (sort_by c (length l)) (s, []) l = (r, (s', tr), l') ∧
    Permutation l l' ∧
    (r = Done tt ∧ calm tr ∨ r = Panicked UserPanic ∧ ends_in_panic tr).
Proof. exact @sort_by_panics. Qed.
Print Assumptions sort_by_panic_propagates.

(** C14. *)
Theorem select_nth_unstable_by_panic_propagates :
  ∀ (T S : Type) (c : cfg) (o : S → T * T → option comparison * S) (s : S) (index : nat) (l : list T),
  dbg c = false → index < length l →
  ∃ r s' tr l', run (logged o) (select_nth_unstable_by c (length l) index) (s, []) l =
      (r, (s', tr), l') ∧
    Permutation l l' ∧
    (r = Done ((0, index), index, (index + 1, length l - (index + 1))) ∧ calm tr ∨
     r = Panicked UserPanic ∧ ends_in_panic tr).
Proof. exact @select_nth_unstable_by_panics. Qed.
Print Assumptions select_nth_unstable_by_panic_propagates.

(** C17. *)
Theorem select_many_nth_unstable_by_panic_propagates :
  ∀ (T S : Type) (c : cfg) (o : S → T * T → option comparison * S) (s : S) (inds : list nat)
    (l : list T),
  dbg c = false → fits c (length l) → valid_indices 0 (length l) inds →
  ∃ r s' tr l', run (logged o) (select_many_nth_unstable_by c (length l) inds) (s, []) l =
      (r, (s', tr), l') ∧
    Permutation l l' ∧
    (r = Done (map (λ i, (i, i)) inds) ∧ calm tr ∨
     r = Panicked UserPanic ∧ ends_in_panic tr).
Proof. exact @select_many_nth_unstable_by_panics. Qed.
Print Assumptions select_many_nth_unstable_by_panic_propagates.

(** [bomb] answers 40 calls and panics at each later one: 41 calls are made. *)
Example panic_propagates_example :
  dbg cfg_release64 = false ∧ 17 < length (seq 0 60) ∧ fits cfg_release64 (length (seq 0 60)) ∧
  valid_indices 0 (length (seq 0 60)) [3; 17] ∧
  length (run (logged bomb) (sort_unstable_by cfg_release64 60) (0, []) (rev (seq 0 60))).1.2.2 = 41 ∧
  length (run (logged bomb) (sort_by cfg_release64 60) (0, []) (rev (seq 0 60))).1.2.2 = 41 ∧
  length (run (logged bomb) (select_nth_unstable_by cfg_release64 60 17) (0, []) (rev (seq 0 60))).1.2.2 = 41 ∧
  length (run (logged bomb) (select_many_nth_unstable_by cfg_release64 60 [3; 17]) (0, []) (rev (seq 0 60))).1.2.2 = 41.
Proof.
  split; [done|]. split; [simpl; lia|]. split; [done|]. split.
  { split; repeat constructor; unfold Nat.lt; simpl; lia. }
  vm_compute. repeat split.
Qed.

(** C38.  [compare_of_key o] calls the key function on both arguments, then
    compares the keys; [o] is any closure, with state and panics. *)
Theorem sort_by_key_is_sort_by :
  ∀ (T K S : Type) (c : cfg) (o : S → key_question K → key_answer K * S) (n : nat) (s : S) (l : list T),
  run o (sort_by_key c n) s l = run (compare_of_key o) (sort_by c n) s l.
Proof. exact @sort_by_key_by. Qed.
Print Assumptions sort_by_key_is_sort_by.
Theorem sort_unstable_by_key_is_sort_unstable_by :
  ∀ (T K S : Type) (c : cfg) (o : S → key_question K → key_answer K * S) (n : nat) (s : S) (l : list T),
  run o (sort_unstable_by_key c n) s l = run (compare_of_key o) (sort_unstable_by c n) s l.
Proof. exact @sort_unstable_by_key_by. Qed.
Print Assumptions sort_unstable_by_key_is_sort_unstable_by.
Theorem select_nth_unstable_by_key_is_by :
  ∀ (T K S : Type) (c : cfg) (o : S → key_question K → key_answer K * S) (n index : nat) (s : S)
    (l : list T),
  run o (select_nth_unstable_by_key c n index) s l =
  run (compare_of_key o) (select_nth_unstable_by c n index) s l.
Proof. exact @select_nth_by_key_by. Qed.
Print Assumptions select_nth_unstable_by_key_is_by.
Theorem select_many_nth_unstable_by_key_is_by :
  ∀ (T K S : Type) (c : cfg) (o : S → key_question K → key_answer K * S) (n : nat) (inds : list nat)
    (s : S) (l : list T),
  run o (select_many_nth_unstable_by_key c n inds) s l =
  run (compare_of_key o) (select_many_nth_unstable_by c n inds) s l.
Proof. exact @select_many_by_key_by. Qed.
Print Assumptions select_many_nth_unstable_by_key_is_by.
(** For [is_sorted_by_key] the key comparison is [<=], hence the Boolean closure. *)
Theorem is_sorted_by_key_is_by :
  ∀ (T K S : Type) (o : S → key_question K → key_answer K * S) (n : nat) (s : S) (l : list T),
  run o (is_sorted_by_key n) s l = run (less_of_key o) (is_sorted_by n) s l.
Proof. exact @is_sorted_by_key_by. Qed.
Print Assumptions is_sorted_by_key_is_by.
Theorem binary_search_by_key_is_by :
  ∀ (T K S : Type) (c : cfg) (o : S → keyc_question K → keyc_answer K * S) (b : K) (n : nat) (s : S)
    (l : list T),
  run o (binary_search_by_key c n b) s l = run (cmp_of_keyc b o) (binary_search_by c n) s l.
Proof. exact @binary_search_by_key_by. Qed.
Print Assumptions binary_search_by_key_is_by.
(** With a pure key function the comparator is that of the keys. *)
Theorem sort_by_pure_key_is_sort_by :
  ∀ (T K : Type) (c : cfg) (f : T → K) (cmpk : K → K → comparison) (n : nat) (l : list T),
  run (pure_key f (is_lt cmpk)) (sort_by_key c n) tt l =
    run (pure_compare (λ a b, cmpk (f a) (f b))) (sort_by c n) tt l ∧
  run (pure_key f (is_lt cmpk)) (sort_unstable_by_key c n) tt l =
    run (pure_compare (λ a b, cmpk (f a) (f b))) (sort_unstable_by c n) tt l.
Proof. exact @sort_by_pure_key. Qed.
Print Assumptions sort_by_pure_key_is_sort_by.

(** Panics of the key function or of the key comparison. *)
Theorem sort_by_key_panic_propagates :
  ∀ (T S : Type) (c : cfg) (K : Type) (o : S → key_question K → key_answer K * S) (s : S) (l : list T),
  ∃ r s' tr l', run (logged o) (sort_by_key c (length l)) (s, []) l = (r, (s', tr), l') ∧
    Permutation l l' ∧
    (r = Done tt ∧ key_calm tr ∨ r = Panicked UserPanic ∧ ends_in_key_panic tr).
Proof. exact @sort_by_key_panics. Qed.
Print Assumptions sort_by_key_panic_propagates.
Theorem sort_unstable_by_key_panic_propagates :
  ∀ (T S : Type) (c : cfg) (K : Type) (o : S → key_question K → key_answer K * S) (s : S) (l : list T),
  ∃ r s' tr l', run (logged o) (sort_unstable_by_key c (length l)) (s, []) l = (r, (s', tr), l') ∧
    Permutation l l' ∧
    (r = Done tt ∧ key_calm tr ∨ r = Panicked UserPanic ∧ ends_in_key_panic tr).
Proof. exact @sort_unstable_by_key_panics. Qed.
Print Assumptions sort_unstable_by_key_panic_propagates.
Theorem select_nth_unstable_by_key_panic_propagates :
  ∀ (T S : Type) (c : cfg) (K : Type) (o : S → key_question K → key_answer K * S) (s : S)
    (index : nat) (l : list T),
  dbg c = false → index < length l →
  ∃ r s' tr l', run (logged o) (select_nth_unstable_by_key c (length l) index) (s, []) l =
      (r, (s', tr), l') ∧
    Permutation l l' ∧
    (r = Done ((0, index), index, (index + 1, length l - (index + 1))) ∧ key_calm tr ∨
     r = Panicked UserPanic ∧ ends_in_key_panic tr).
Proof. exact @select_nth_unstable_by_key_panics. Qed.
Print Assumptions select_nth_unstable_by_key_panic_propagates.
Theorem select_many_nth_unstable_by_key_panic_propagates :
  ∀ (T S : Type) (c : cfg) (K : Type) (o : S → key_question K → key_answer K * S) (s : S)
    (inds : list nat) (l : list T),
  dbg c = false → fits c (length l) → valid_indices 0 (length l) inds →
  ∃ r s' tr l', run (logged o) (select_many_nth_unstable_by_key c (length l) inds) (s, []) l =
      (r, (s', tr), l') ∧
    Permutation l l' ∧
    (r = Done (map (λ i, (i, i)) inds) ∧ key_calm tr ∨
     r = Panicked UserPanic ∧ ends_in_key_panic tr).
Proof. exact @select_many_nth_unstable_by_key_panics. Qed.
Print Assumptions select_many_nth_unstable_by_key_panic_propagates.

(** A key function with state that panics at its 30th call. *)
Example by_key_example :
  let o := λ (s : nat) (q : key_question (T:=nat) nat),
    match q with
    | KeyOf a => (if s =? 30 then APanic else AKey (a mod 7 + s mod 2), S s)
    | KeyLt k1 k2 => (ABool (k1 <? k2), s)
    end in
  let '(r, (s', tr), l') := run (logged o) (sort_by_key cfg_debug64 24) (0, []) (seq 0 24) in
  r = Panicked UserPanic ∧ s' = 31 ∧ l' ≠ seq 0 24 ∧
  (run (compare_of_key o) (sort_by cfg_debug64 24) 0 (seq 0 24)) = (Panicked UserPanic, 31, l').
Proof. vm_compute. repeat split. discriminate. Qed.
