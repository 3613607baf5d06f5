(** * C52: number of calls of the comparator made by the parallel stable sort. *)
From Verif Require Import CParSort TPar Examples.

(** C52.  Whatever the comparator answers, also if it panics or is no order, in
    every schedule: a prefix of a run that makes [m] calls has
    [m ≤ 20 * n * (log2 n + 1)].  [ans] says which answers are possible,
    [take_item] which chunks are started before a panic in another one is noticed,
    [junk] is the buffer. *)
Theorem par_sort_by_calls_n_log_n :
  ∀ (T : Type) (c : cfg) (take_item : nat → bool) (ans : T * T → option comparison → Prop)
    (l junk : list T) (m : nat) (c' : prog T (T * T) (option comparison) unit * list T),
  calls_made ans m (par_sort_by c take_item (length l), l ++ junk) c' →
  m ≤ 20 * length l * (Nat.log2 (length l) + 1).
Proof. exact @par_sort_by_calls_schedule. Qed.
Print Assumptions par_sort_by_calls_n_log_n.

(** The same for comparators with a state, if the tasks are executed one after the
    other. *)
Theorem par_sort_by_calls_n_log_n_stateful :
  ∀ (T S : Type) (c : cfg) (take_item : nat → bool) (o : S → T * T → option comparison * S) (s : S)
    (l junk : list T),
  let '(_, (_, tr), _) :=
    run (logged o) (par_sort_by c take_item (length l)) (s, []) (l ++ junk) in
  length tr ≤ 20 * length l * (Nat.log2 (length l) + 1).
Proof. exact @par_sort_by_calls_run. Qed.
Print Assumptions par_sort_by_calls_n_log_n_stateful.

(** Sixty numbers compared by their last digit: a schedule that ends with the array
    sorted and makes 331 of the 7200 calls granted. *)
Example calls_n_log_n_example :
  ∃ p' m', result p' = Some (inl tt) ∧
    calls_made (ans_cmp digit_cmp) 331
      (par_sort_by cfg_debug64 (λ _, true) (length (seq 7 60)), seq 7 60 ++ repeat 0 60) (p', m') ∧
    take 8 m' = [10; 20; 30; 40; 50; 60; 11; 21] ∧
    (N.of_nat (20 * length (seq 7 60) * (Nat.log2 (length (seq 7 60)) + 1)) = 7200)%N.
Proof.
  pose proof (run_calls_made (ans_cmp digit_cmp) (pure_compare digit_cmp)
    (par_sort_by cfg_debug64 (λ _, true) 60) ltac:(by intros s [x y]) tt [] (seq 7 60 ++ repeat 0 60)) as H.
  assert (let '(r, (_, tr), m) := run (logged (pure_compare digit_cmp))
      (par_sort_by cfg_debug64 (λ _, true) 60) (tt, []) (seq 7 60 ++ repeat 0 60) in
    r = Done tt ∧ length tr = 331 ∧ take 8 m = [10; 20; 30; 40; 50; 60; 11; 21]) as H'
    by (vm_compute; auto).
  destruct (run _ _ _ _) as [[r [s tr]] m']. destruct H as (m & p' & Hm & Hc & Hr).
  destruct H' as (-> & Htr & Ht). exists p', m'. replace m with 331 in Hc by (simpl in Hm; lia).
  repeat split; done.
Qed.
