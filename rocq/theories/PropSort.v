(** * C05-C08: the stable sort. *)
From Verif Require Import TWrap Examples.

(** C05 and C06. *)
Theorem sort_sorts : ∀ (T : Type) (c : cfg) (lt : T → T → bool) (l : list T),
  strict_weak_order lt → (zst c = true → ∀ x y : T, x = y) →
  ∃ l', run (pure_less lt) (MApi.sort c (length l)) tt l = (Done tt, tt, l') ∧
    Permutation l l' ∧ sorted_wrt lt l' ∧ same_order_of_equals lt l l'.
Proof. exact @stable_sort_sorts. Qed.
Print Assumptions sort_sorts.

Theorem sort_by_sorts : ∀ (T : Type) (c : cfg) (cmp : T → T → comparison) (l : list T),
  strict_weak_order (is_lt cmp) → (zst c = true → ∀ x y : T, x = y) →
  ∃ l', run (pure_compare cmp) (sort_by c (length l)) tt l = (Done tt, tt, l') ∧
    Permutation l l' ∧ sorted_wrt (is_lt cmp) l' ∧ same_order_of_equals (is_lt cmp) l l'.
Proof. exact @sort_by_sorts_proof. Qed.
Print Assumptions sort_by_sorts.

(** Three natural runs, one of them descending, and equal elements. *)
Example sort_by_sorts_example :
  let l := [11; 21; 31; 12; 12; 13; 17; 25; 24; 23; 22; 41; 50; 61; 62; 63; 64; 65; 66; 67; 68; 69; 8; 7; 5] in
  strict_weak_order (is_lt digit_cmp) ∧ (zst cfg_debug64 = true → ∀ x y : nat, x = y) ∧
  run (pure_compare digit_cmp) (sort_by cfg_debug64 (length l)) tt l =
    (Done tt, tt,
     [50; 11; 21; 31; 41; 61; 12; 12; 22; 62; 13; 23; 63; 24; 64; 25; 65; 5; 66; 17; 67; 7; 68; 8; 69]).
Proof. split; [exact digit_swo|]. split; [done|]. vm_compute. reflexivity. Qed.

(** C07: any closure that does not panic.  [Undefined] is the outcome of an
    access outside the array or outside the scratch buffer of [len / 2] slots,
    and of reading a slot that was not written. *)
Theorem sort_by_any_comparator :
  ∀ (T S : Type) (c : cfg) (o : S → T * T → option comparison * S) (s : S) (l : list T),
  no_panic o →
  ∃ s' l', run o (sort_by c (length l)) s l = (Done tt, s', l') ∧ Permutation l l'.
Proof. exact @sort_by_any_comparator_proof. Qed.
Print Assumptions sort_by_any_comparator.

Example sort_by_any_comparator_example :
  no_panic silly ∧
  ∃ s' l', run silly (sort_by cfg_debug32 30) 0 (seq 0 30) = (Done tt, s', l') ∧
           l' ≠ seq 0 30.
Proof. split; [done|]. eexists _, _. split; [vm_compute; reflexivity|done]. Qed.

(** C08: any closure at all; [None] answers are panics of the closure. *)
Theorem sort_by_panic_safe :
  ∀ (T S : Type) (c : cfg) (o : S → T * T → option comparison * S) (s : S) (l : list T),
  ∃ r s' l', run o (sort_by c (length l)) s l = (r, s', l') ∧
    (r = Done tt ∨ r = Panicked UserPanic) ∧ Permutation l l'.
Proof. exact @sort_by_panic_safe_proof. Qed.
Print Assumptions sort_by_panic_safe.

(** The panic strikes during a merge, while elements are parked in the buffer. *)
Example sort_by_panic_safe_example :
  ∃ l', run bomb (sort_by cfg_debug32 26) 0 (seq 10 13 ++ seq 5 13) =
          (Panicked UserPanic, 41, l') ∧ l' ≠ seq 10 13 ++ seq 5 13.
Proof. eexists. split; [vm_compute; reflexivity|done]. Qed.
