(** * C61: the bounds on the number of calls hold in every schedule. *)
From Verif Require Import CSched Calls CParSort Examples.

(** C61.  Whatever the comparator answers, also if it panics or is no order, a
    prefix of any schedule of [par_sort_unstable_by] makes at most quadratically
    many calls.  [ans] says which answers are possible; every call is answered. *)
Theorem par_sort_unstable_by_calls_every_schedule :
  ∀ (T : Type) (c : cfg) (ans : T * T → option comparison → Prop) (l : list T) (m : nat)
    (c' : prog T (T * T) (option comparison) unit * list T),
  (∀ q, ∃ r, ans q r) →
  calls_made ans m (par_sort_unstable_by c (length l), l) c' →
  m ≤ 13 * (length l * length l) + 20 * length l.
Proof. exact @par_sort_unstable_by_schedule_quadratic. Qed.
Print Assumptions par_sort_unstable_by_calls_every_schedule.

(** The same for sorting by key: calls of [f], of [<] on the keys and drops of keys. *)
Theorem par_sort_unstable_by_key_calls_every_schedule :
  ∀ (T : Type) (c : cfg) (K : Type) (ans : key_question K → key_answer K → Prop) (l : list T) (m : nat)
    (c' : prog T (key_question K) (key_answer K) unit * list T),
  (∀ q, ∃ r, ans q r) →
  calls_made ans m (par_sort_unstable_by_key c (length l), l) c' →
  m ≤ 3 * (13 * (length l * length l) + 20 * length l).
Proof. exact @par_sort_unstable_by_key_schedule_quadratic. Qed.
Print Assumptions par_sort_unstable_by_key_calls_every_schedule.

(** With an order, of which any call may panic instead, and at most 2001 elements:
    [n log n]. *)
Theorem par_sort_unstable_by_calls_every_schedule_small :
  ∀ (T : Type) (c : cfg) (cmp : T → T → comparison) (ans : T * T → option comparison → Prop)
    (l : list T) (m : nat) (c' : prog T (T * T) (option comparison) unit * list T),
  strict_weak_order (is_lt cmp) →
  (∀ q, ∃ r, ans q r) →
  (∀ x y r, ans (x, y) (Some r) → r = cmp x y) →
  (N.of_nat (length l) <= 2001)%N →
  calls_made ans m (par_sort_unstable_by c (length l), l) c' →
  m ≤ 340 * length l * (Nat.log2 (length l) + 1).
Proof. exact @par_sort_unstable_by_schedule_small. Qed.
Print Assumptions par_sort_unstable_by_calls_every_schedule_small.

(** The selection of many indices with at most [M] elements equivalent to each one:
    [n log m]. *)
Theorem par_select_many_calls_every_schedule :
  ∀ (c : cfg) (M : nat),
  ∃ K, ∀ (T : Type) (cmp : T → T → comparison) (l : list T) (vlen : nat) (indices : list nat) m c',
    strict_weak_order (is_lt cmp) →
    (∀ x, In x l → length (List.filter (λ y, negb (is_lt cmp x y) && negb (is_lt cmp y x)) l) ≤ M) →
    calls_made (ans_cmp cmp) m (par_select_many_nth_unstable_by c (length l) vlen indices, l) c' →
    m ≤ K * length l * (Nat.log2 (length indices) + 1).
Proof. exact par_select_many_schedule. Qed.
Print Assumptions par_select_many_calls_every_schedule.

(** Sixty numbers compared by their last digit: a schedule that ends with the array
    sorted; the number of calls it makes is among those bounded by the theorems. *)
Example calls_every_schedule_example :
  ∃ m p' m', result p' = Some (inl tt) ∧ 100 ≤ m ∧
    calls_made (ans_cmp digit_cmp) m
      (par_sort_unstable_by cfg_debug64 (length (seq 7 60)), seq 7 60) (p', m') ∧
    map (λ x, x mod 10) (take 8 m') = [0; 0; 0; 0; 0; 0; 1; 1].
Proof.
  pose proof (run_calls_made (ans_cmp digit_cmp) (pure_compare digit_cmp)
    (par_sort_unstable_by cfg_debug64 60) ltac:(by intros s [x y]) tt [] (seq 7 60)) as H.
  assert (let '(r, (_, tr), m) := run (logged (pure_compare digit_cmp))
      (par_sort_unstable_by cfg_debug64 60) (tt, []) (seq 7 60) in
    r = Done tt ∧ 100 <= length tr ∧ map (λ x, x mod 10) (take 8 m) = [0; 0; 0; 0; 0; 0; 1; 1]) as H'
    by (vm_compute; repeat split; auto; apply Nat.leb_le; vm_compute; reflexivity).
  destruct (run _ _ _ _) as [[r [s tr]] m']. destruct H as (m & p' & Hm & Hc & Hr).
  destruct H' as (-> & Htr & Ht). exists m, p', m'. simpl in Hm.
  repeat split; [done|lia|done|done].
Qed.
