(** * C01-C04: the unstable sort. *)
From Verif Require Import TWrap Examples.

(** C01. *)
Theorem sort_unstable_sorts : ∀ (T : Type) (c : cfg) (lt : T → T → bool) (l : list T),
  strict_weak_order lt → (zst c = true → ∀ x y : T, x = y) →
  ∃ l', run (pure_less lt) (sort_unstable c (length l)) tt l = (Done tt, tt, l') ∧
    Permutation l l' ∧ sorted_wrt lt l'.
Proof. exact @quick_sort_sorts. Qed.
Print Assumptions sort_unstable_sorts.

Theorem sort_unstable_by_sorts : ∀ (T : Type) (c : cfg) (cmp : T → T → comparison) (l : list T),
  strict_weak_order (is_lt cmp) → (zst c = true → ∀ x y : T, x = y) →
  ∃ l', run (pure_compare cmp) (sort_unstable_by c (length l)) tt l = (Done tt, tt, l') ∧
    Permutation l l' ∧ sorted_wrt (is_lt cmp) l'.
Proof. exact @sort_unstable_by_sorts_proof. Qed.
Print Assumptions sort_unstable_by_sorts.

Example sort_unstable_sorts_example :
  let l := [5; 1; 4; 4; 9; 0; 23; 7; 7; 2; 31; 6; 8; 3; 12; 11; 10; 40; 13; 14; 15; 2; 17; 18; 16] in
  strict_weak_order gtb ∧ (zst cfg_debug32 = true → ∀ x y : nat, x = y) ∧
  run (pure_less gtb) (sort_unstable cfg_debug32 (length l)) tt l =
    (Done tt, tt, [40; 31; 23; 18; 17; 16; 15; 14; 13; 12; 11; 10; 9; 8; 7; 7; 6; 5; 4; 4; 3; 2; 2; 1; 0]).
Proof. split; [exact gtb_swo|]. split; [done|]. vm_compute. reflexivity. Qed.

(** C02: any closure that does not panic, however inconsistent or stateful. *)
Theorem sort_unstable_by_any_comparator :
  ∀ (T S : Type) (c : cfg) (o : S → T * T → option comparison * S) (s : S) (l : list T),
  no_panic o →
  ∃ s' l', run o (sort_unstable_by c (length l)) s l = (Done tt, s', l') ∧ Permutation l l'.
Proof. exact @sort_unstable_by_any_comparator_proof. Qed.
Print Assumptions sort_unstable_by_any_comparator.

Example sort_unstable_by_any_comparator_example :
  no_panic silly ∧
  ∃ s' l', run silly (sort_unstable_by cfg_debug32 30) 0 (seq 0 30) = (Done tt, s', l') ∧
           l' ≠ seq 0 30.
Proof. split; [done|]. eexists _, _. split; [vm_compute; reflexivity|done]. Qed.

(** C03: any closure at all; [None] answers are panics of the closure. *)
Theorem sort_unstable_by_panic_safe :
  ∀ (T S : Type) (c : cfg) (o : S → T * T → option comparison * S) (s : S) (l : list T),
  ∃ r s' l', run o (sort_unstable_by c (length l)) s l = (r, s', l') ∧
    (r = Done tt ∨ r = Panicked UserPanic) ∧ Permutation l l'.
Proof. exact @sort_unstable_by_panic_safe_proof. Qed.
Print Assumptions sort_unstable_by_panic_safe.

Example sort_unstable_by_panic_safe_example :
  ∃ l', run bomb (sort_unstable_by cfg_debug32 25) 0 (rev (seq 0 12) ++ seq 5 13) =
          (Panicked UserPanic, 41, l') ∧ l' ≠ rev (seq 0 12) ++ seq 5 13.
Proof. eexists. split; [vm_compute; reflexivity|done]. Qed.

(** C04: [qs_recurse] receives the permitted recursion depth as its first
    argument and reports [Diverged] if it would be exceeded (or if the loop of
    one level does not end). *)
Theorem sort_unstable_depth :
  ∀ (T S : Type) (c : cfg) (o : S → T * T → option bool * S) (s : S) (l : list T) (depth fuel : nat),
  Nat.log2 (length l) + 2 ≤ depth → length l < fuel →
  (run o (qs_recurse c depth fuel (length l) None (bit_length (length l)) true true) s l).1.1
    ≠ Diverged.
Proof. exact @sort_unstable_depth_proof. Qed.
Print Assumptions sort_unstable_depth.

(** [quick_sort] is [recurse] with exactly this depth and fuel. *)
Theorem sort_unstable_uses_depth :
  ∀ (T : Type) (c : cfg) (n : nat), zst c = false → 0 < n →
  quick_sort (T:=T) c n =
    qs_recurse c (Nat.log2 n + 2) (S n) n None (bit_length n) true true.
Proof. exact @sort_unstable_uses_depth_proof. Qed.
Print Assumptions sort_unstable_uses_depth.

Example sort_unstable_depth_example :
  let l := rev (seq 0 12) ++ seq 5 13 in
  Nat.log2 (length l) + 2 ≤ 6 ∧
  (run (pure_less gtb) (qs_recurse cfg_release64 6 26 25 None 5 true true) tt l).1.1 = Done tt.
Proof. split; [vm_compute; lia|vm_compute; reflexivity]. Qed.
