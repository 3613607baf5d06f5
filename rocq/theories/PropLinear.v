(** * C42, C50: sorted and strictly descending input. *)
From Verif Require Import TLinear CBest Examples.

(** The log [tr] holds one entry per call; nothing is assumed about [cmp]. *)
Theorem sort_by_sorted_linear :
  ∀ (T : Type) (c : cfg) (cmp : T → T → comparison) (l : list T),
  zst c = false → sorted_wrt (is_lt cmp) l →
  ∃ tr, run (logged (pure_compare cmp)) (sort_by c (length l)) (tt, []) l = (Done tt, (tt, tr), l) ∧
    length tr = length l - 1.
Proof. exact @sort_by_sorted_short. Qed.
Print Assumptions sort_by_sorted_linear.
Theorem sort_by_descending_linear :
  ∀ (T : Type) (c : cfg) (cmp : T → T → comparison) (l : list T),
  zst c = false → 20 < length l → StronglySorted (λ a b, is_lt cmp b a = true) l →
  ∃ tr, run (logged (pure_compare cmp)) (sort_by c (length l)) (tt, []) l = (Done tt, (tt, tr), rev l) ∧
    length tr = length l - 1.
Proof. exact @sort_by_descending. Qed.
Print Assumptions sort_by_descending_linear.

Example sort_linear_example :
  zst cfg_release64 = false ∧ 20 < length (seq 0 50) ∧
  sorted_wrt (is_lt Nat.compare) (seq 0 50) ∧
  StronglySorted (λ a b, is_lt Nat.compare b a = true) (rev (seq 0 50)) ∧
  (let '(r, (_, tr), l') :=
     run (logged (pure_compare Nat.compare)) (sort_by cfg_release64 50) (tt, []) (rev (seq 0 50)) in
   r = Done tt ∧ length tr = 49 ∧ l' = seq 0 50).
Proof.
  split; [done|]. split; [simpl; lia|].
  split; [repeat constructor|]. split; [repeat constructor|]. vm_compute. auto.
Qed.

(** C50: the best case of the unstable sorts.  For the descending arrays the
    comparator is only assumed to be asymmetric. *)
Theorem sort_unstable_by_sorted_linear :
  ∀ (T : Type) (c : cfg) (cmp : T → T → comparison) (l : list T),
  zst c = false → sorted_wrt (is_lt cmp) l →
  ∃ tr, run (logged (pure_compare cmp)) (sort_unstable_by c (length l)) (tt, []) l
          = (Done tt, (tt, tr), l) ∧ length tr ≤ length l + 11.
Proof. exact @sort_unstable_by_sorted. Qed.
Print Assumptions sort_unstable_by_sorted_linear.
Theorem sort_unstable_by_descending_linear :
  ∀ (T : Type) (c : cfg) (cmp : T → T → comparison) (l : list T),
  zst c = false → 50 ≤ length l → (∀ x y, is_lt cmp x y = true → is_lt cmp y x = false) →
  StronglySorted (λ a b, is_lt cmp b a = true) l →
  ∃ tr, run (logged (pure_compare cmp)) (sort_unstable_by c (length l)) (tt, []) l
          = (Done tt, (tt, tr), rev l) ∧ length tr = length l + 11.
Proof. exact @sort_unstable_by_descending. Qed.
Print Assumptions sort_unstable_by_descending_linear.
Theorem par_sort_unstable_by_sorted_linear :
  ∀ (T : Type) (c : cfg) (cmp : T → T → comparison) (l : list T),
  zst c = false → sorted_wrt (is_lt cmp) l →
  ∃ tr, run (logged (pure_compare cmp)) (par_sort_unstable_by c (length l)) (tt, []) l
          = (Done tt, (tt, tr), l) ∧ length tr ≤ length l + 11.
Proof. exact @par_sort_unstable_by_sorted. Qed.
Print Assumptions par_sort_unstable_by_sorted_linear.
Theorem par_sort_unstable_by_descending_linear :
  ∀ (T : Type) (c : cfg) (cmp : T → T → comparison) (l : list T),
  zst c = false → 50 ≤ length l → (∀ x y, is_lt cmp x y = true → is_lt cmp y x = false) →
  StronglySorted (λ a b, is_lt cmp b a = true) l →
  ∃ tr, run (logged (pure_compare cmp)) (par_sort_unstable_by c (length l)) (tt, []) l
          = (Done tt, (tt, tr), rev l) ∧ length tr = length l + 11.
Proof. exact @par_sort_unstable_by_descending. Qed.
Print Assumptions par_sort_unstable_by_descending_linear.

(** Of 49 descending elements the order is not detected. *)
Example sort_unstable_linear_example :
  zst cfg_release64 = false ∧ 50 ≤ length (rev (seq 0 60)) ∧
  (∀ x y, is_lt Nat.compare x y = true → is_lt Nat.compare y x = false) ∧
  sorted_wrt (is_lt Nat.compare) (seq 0 60) ∧
  StronglySorted (λ a b, is_lt Nat.compare b a = true) (rev (seq 0 60)) ∧
  (let '(r, (_, tr), l') :=
     run (logged (pure_compare Nat.compare)) (sort_unstable_by cfg_release64 60) (tt, []) (rev (seq 0 60)) in
   r = Done tt ∧ length tr = 71 ∧ l' = seq 0 60) ∧
  (let '(r, (_, tr), l') :=
     run (logged (pure_compare Nat.compare)) (sort_unstable_by cfg_release64 49) (tt, []) (rev (seq 0 49)) in
   r = Done tt ∧ length tr = 208 ∧ l' = seq 0 49).
Proof.
  split; [done|]. split; [simpl; lia|].
  split; [intros x y; unfold is_lt; destruct (Nat.compare_spec x y), (Nat.compare_spec y x); done || lia|].
  split; [repeat constructor|]. split; [repeat constructor|]. vm_compute. auto 10.
Qed.
