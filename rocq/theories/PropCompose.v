(** * C43, C44: zero-sized elements, idempotence, order independence. *)
From Verif Require Import TCompose Examples.

(** C43: no call of the closure (its state is unchanged), array unchanged. *)
Theorem sort_by_zero_sized :
  ∀ (T S : Type) (c : cfg) (o : S → T * T → option comparison * S) (s : S) (l : list T),
  zst c = true → run o (sort_by c (length l)) s l = (Done tt, s, l).
Proof. exact @sort_zst. Qed.
Print Assumptions sort_by_zero_sized.
Theorem sort_unstable_by_zero_sized :
  ∀ (T S : Type) (c : cfg) (o : S → T * T → option comparison * S) (s : S) (l : list T),
  zst c = true → run o (sort_unstable_by c (length l)) s l = (Done tt, s, l).
Proof. exact @sort_unstable_zst. Qed.
Print Assumptions sort_unstable_by_zero_sized.
Theorem select_nth_unstable_by_zero_sized :
  ∀ (T S : Type) (c : cfg) (o : S → T * T → option comparison * S) (s : S) (index : nat) (l : list T),
  zst c = true → index < length l →
  run o (select_nth_unstable_by c (length l) index) s l =
    (Done ((0, index), index, (index + 1, length l - (index + 1))), s, l).
Proof. exact @select_nth_zst. Qed.
Print Assumptions select_nth_unstable_by_zero_sized.

Example zero_sized_example :
  let c := Cfg true true true true in
  let o := λ (s : nat) (_ : unit * unit), (@None comparison, S s) in
  zst c = true ∧ 30 < length (replicate 100 tt) ∧
  run o (sort_by c 100) 0 (replicate 100 tt) = (Done tt, 0, replicate 100 tt) ∧
  run o (select_nth_unstable_by c 100 30) 0 (replicate 100 tt) =
    (Done ((0, 30), 30, (31, 69)), 0, replicate 100 tt).
Proof. split; [done|]. split; [simpl; lia|]. vm_compute. repeat split. Qed.

(** C44. *)
Theorem sort_idempotent :
  ∀ (T : Type) (c : cfg) (lt : T → T → bool) (l : list T),
  strict_weak_order lt → (zst c = true → ∀ x y : T, x = y) → sorted_wrt lt l →
  run (pure_less lt) (MApi.sort c (length l)) tt l = (Done tt, tt, l).
Proof. exact @sort_sorted_id. Qed.
Print Assumptions sort_idempotent.
Example sort_idempotent_example :
  strict_weak_order Nat.ltb ∧ sorted_wrt Nat.ltb (seq 0 30) ∧
  run (pure_less Nat.ltb) (MApi.sort cfg_debug64 30) tt (seq 0 30) = (Done tt, tt, seq 0 30).
Proof.
  split; [exact ltb_swo|]. split; [|vm_compute; reflexivity].
  repeat constructor.
Qed.
(** The order is total on the elements of the array. *)
Theorem sort_unstable_input_order_independent :
  ∀ (T : Type) (c : cfg) (lt : T → T → bool) (l1 l2 : list T),
  strict_weak_order lt → (zst c = true → ∀ x y : T, x = y) →
  (∀ x y, x ∈ l1 → y ∈ l1 → equivb lt x y = true → x = y) →
  Permutation l1 l2 →
  run (pure_less lt) (sort_unstable c (length l1)) tt l1 =
  run (pure_less lt) (sort_unstable c (length l2)) tt l2.
Proof. exact @sort_unstable_order_independent. Qed.
Print Assumptions sort_unstable_input_order_independent.
(** Part of C39. *)
Theorem sort_unstable_agrees_with_sort :
  ∀ (T : Type) (c : cfg) (lt : T → T → bool) (l : list T),
  strict_weak_order lt → (zst c = true → ∀ x y : T, x = y) →
  (∀ x y, x ∈ l → y ∈ l → equivb lt x y = true → x = y) →
  run (pure_less lt) (sort_unstable c (length l)) tt l =
  run (pure_less lt) (MApi.sort c (length l)) tt l.
Proof. exact @sort_agrees. Qed.
Print Assumptions sort_unstable_agrees_with_sort.

Example sort_order_independent_example :
  strict_weak_order Nat.ltb ∧ (∀ x y : nat, equivb Nat.ltb x y = true → x = y) ∧
  Permutation (rev (seq 0 40)) (seq 0 40) ∧
  run (pure_less Nat.ltb) (sort_unstable cfg_debug64 40) tt (rev (seq 0 40)) =
    (Done tt, tt, seq 0 40).
Proof.
  split; [exact ltb_swo|]. split.
  { intros x y H. unfold equivb in H. apply andb_true_iff in H as [H1 H2].
    apply negb_true_iff, Nat.ltb_ge in H1. apply negb_true_iff, Nat.ltb_ge in H2. lia. }
  split; [symmetry; apply Permutation_rev|]. vm_compute. reflexivity.
Qed.
