(** * C51: number of calls of the comparator made by the selection of many indices. *)
From Verif Require Import CMany Examples.

(** C51 (n (log m + 1) calls for m indices) is false even for a single index: for
    every polynomial [K * n ^ d] there are a strict weak order, an array and an
    index such that the selection makes more calls than that. *)
Theorem select_many_nth_unstable_by_calls_n_log_m_refuted :
  ∀ c : cfg, dbg c = false → zst c = false →
  ∀ K d : nat, ∃ (cmp : nat → nat → comparison) (l : list nat) (index : nat),
    strict_weak_order (is_lt cmp) ∧ index < length l ∧
    let '(_, (_, tr), _) :=
      run (logged (pure_compare cmp)) (select_many_nth_unstable_by c (length l) [index]) (tt, []) l in
    K * length l ^ d < length tr.
Proof. exact select_many_refuted. Qed.
Print Assumptions select_many_nth_unstable_by_calls_n_log_m_refuted.

(** What remains: if no element of the array has more than [M] equivalent
    elements (itself included), then the number of calls is at most
    [K * n * (log2 m + 1)], in every build configuration and for every list of [m]
    indices, valid or not.  [K] depends on [M] only.  Missing: arrays with
    unboundedly many equivalent elements, for which the claim is refuted above. *)
Theorem select_many_nth_unstable_by_calls_n_log_m_partial :
  ∀ (c : cfg) (M : nat),
  ∃ K, ∀ (T : Type) (cmp : T → T → comparison) (l : list T) (indices : list nat),
    strict_weak_order (is_lt cmp) →
    (∀ x, In x l → length (List.filter (λ y, negb (is_lt cmp x y) && negb (is_lt cmp y x)) l) ≤ M) →
    let '(_, (_, tr), _) :=
      run (logged (pure_compare cmp)) (select_many_nth_unstable_by c (length l) indices) (tt, []) l in
    length tr ≤ K * length l * (Nat.log2 (length indices) + 1).
Proof. exact select_many_n_log_m. Qed.
Print Assumptions select_many_nth_unstable_by_calls_n_log_m_partial.

(** The same for the parallel version: calls of all tasks together. *)
Theorem par_select_many_nth_unstable_by_calls_n_log_m_partial :
  ∀ (c : cfg) (M : nat),
  ∃ K, ∀ (T : Type) (cmp : T → T → comparison) (l : list T) (vlen : nat) (indices : list nat),
    strict_weak_order (is_lt cmp) →
    (∀ x, In x l → length (List.filter (λ y, negb (is_lt cmp x y) && negb (is_lt cmp y x)) l) ≤ M) →
    let '(_, (_, tr), _) :=
      run (logged (pure_compare cmp)) (par_select_many_nth_unstable_by c (length l) vlen indices) (tt, []) l in
    length tr ≤ K * length l * (Nat.log2 (length indices) + 1).
Proof. exact par_select_many_n_log_m. Qed.
Print Assumptions par_select_many_nth_unstable_by_calls_n_log_m_partial.

(** Thirty numbers compared by their last digit, three of each; four indices. *)
Example calls_n_log_m_example :
  strict_weak_order (is_lt digit_cmp) ∧
  (∀ x, In x (seq 7 30) → length (List.filter
     (λ y, negb (is_lt digit_cmp x y) && negb (is_lt digit_cmp y x)) (seq 7 30)) ≤ 3) ∧
  let '(r, (_, tr), _) :=
    run (logged (pure_compare digit_cmp)) (select_many_nth_unstable_by cfg_release64 30 [2; 11; 12; 29])
      (tt, []) (seq 7 30) in
  let '(r', (_, tr'), _) :=
    run (logged (pure_compare digit_cmp)) (par_select_many_nth_unstable_by cfg_release64 30 4 [2; 11; 12; 29])
      (tt, []) (seq 7 30) in
  r = Done [(2, 2); (11, 11); (12, 12); (29, 29)] ∧ length tr = 87 ∧
  r' = Done [Some 2; Some 11; Some 12; Some 29] ∧ length tr' = 87.
Proof.
  split; [exact digit_swo|]. split.
  - intros x Hx. simpl in Hx. repeat (destruct Hx as [<-|Hx]; [vm_compute; lia|]). done.
  - vm_compute. auto.
Qed.
