(** * C55: closures are only called with elements of the array, and the array only
    holds its elements, at every moment of every run. *)
From Verif Require Import TOwnsLog Examples ExamplesPar.

(** C55.  [schedule_log ans tr (p, m0) (p', m)]: from the memory [m0] some schedule
    of the tasks of [p] reaches the memory [m]; so far the calls of the closure and
    the answers were [tr].  The answers are arbitrary ([ans]), they may be panics,
    and [p'] need not have ended: the statements hold at every moment, also while a
    panic unwinds.  What follows the array in the memory, [junk], is the fresh
    scratch buffer of the parallel stable sort: it is never passed to the closure
    and never copied into the array. *)
Theorem sort_calls_on_elements :
  ∀ (T : Type) (c : cfg) (ans : T * T → option bool → Prop)
    (l junk : list T) tr p' m,
  schedule_log ans tr (MApi.sort c (length l), l ++ junk) (p', m) →
  compares_only l tr ∧ holds_only l m.
Proof. intros T c. exact (sort_elements c). Qed.
Print Assumptions sort_calls_on_elements.

Theorem sort_by_calls_on_elements :
  ∀ (T : Type) (c : cfg) (ans : T * T → option comparison → Prop)
    (l junk : list T) tr p' m,
  schedule_log ans tr (sort_by c (length l), l ++ junk) (p', m) →
  compares_only l tr ∧ holds_only l m.
Proof. intros T c. exact (sort_by_elements c). Qed.
Print Assumptions sort_by_calls_on_elements.

Theorem sort_by_key_calls_on_elements :
  ∀ (T K : Type) (c : cfg) (ans : key_question (T:=T) K → key_answer K → Prop)
    (l junk : list T) tr p' m,
  schedule_log ans tr (sort_by_key c (length l), l ++ junk) (p', m) →
  key_compares_only l tr ∧ holds_only l m.
Proof. intros T K c. exact (sort_by_key_elements c). Qed.
Print Assumptions sort_by_key_calls_on_elements.

Theorem sort_unstable_calls_on_elements :
  ∀ (T : Type) (c : cfg) (ans : T * T → option bool → Prop)
    (l junk : list T) tr p' m,
  schedule_log ans tr (sort_unstable c (length l), l ++ junk) (p', m) →
  compares_only l tr ∧ holds_only l m.
Proof. intros T c. exact (sort_unstable_elements c). Qed.
Print Assumptions sort_unstable_calls_on_elements.

Theorem sort_unstable_by_calls_on_elements :
  ∀ (T : Type) (c : cfg) (ans : T * T → option comparison → Prop)
    (l junk : list T) tr p' m,
  schedule_log ans tr (sort_unstable_by c (length l), l ++ junk) (p', m) →
  compares_only l tr ∧ holds_only l m.
Proof. intros T c. exact (sort_unstable_by_elements c). Qed.
Print Assumptions sort_unstable_by_calls_on_elements.

Theorem sort_unstable_by_key_calls_on_elements :
  ∀ (T K : Type) (c : cfg) (ans : key_question (T:=T) K → key_answer K → Prop)
    (l junk : list T) tr p' m,
  schedule_log ans tr (sort_unstable_by_key c (length l), l ++ junk) (p', m) →
  key_compares_only l tr ∧ holds_only l m.
Proof. intros T K c. exact (sort_unstable_by_key_elements c). Qed.
Print Assumptions sort_unstable_by_key_calls_on_elements.

Theorem select_nth_unstable_calls_on_elements :
  ∀ (T : Type) (c : cfg) (ans : T * T → option bool → Prop) (index : nat)
    (l junk : list T) tr p' m,
  schedule_log ans tr (select_nth_unstable c (length l) index, l ++ junk) (p', m) →
  compares_only l tr ∧ holds_only l m.
Proof. intros T c. exact (select_nth_unstable_elements c). Qed.
Print Assumptions select_nth_unstable_calls_on_elements.

Theorem select_nth_unstable_by_calls_on_elements :
  ∀ (T : Type) (c : cfg) (ans : T * T → option comparison → Prop) (index : nat)
    (l junk : list T) tr p' m,
  schedule_log ans tr (select_nth_unstable_by c (length l) index, l ++ junk) (p', m) →
  compares_only l tr ∧ holds_only l m.
Proof. intros T c. exact (select_nth_unstable_by_elements c). Qed.
Print Assumptions select_nth_unstable_by_calls_on_elements.

Theorem select_nth_unstable_by_key_calls_on_elements :
  ∀ (T K : Type) (c : cfg) (ans : key_question (T:=T) K → key_answer K → Prop) (index : nat)
    (l junk : list T) tr p' m,
  schedule_log ans tr (select_nth_unstable_by_key c (length l) index, l ++ junk) (p', m) →
  key_compares_only l tr ∧ holds_only l m.
Proof. intros T K c. exact (select_nth_unstable_by_key_elements c). Qed.
Print Assumptions select_nth_unstable_by_key_calls_on_elements.

Theorem select_many_nth_unstable_calls_on_elements :
  ∀ (T : Type) (c : cfg) (ans : T * T → option bool → Prop) (inds : list nat)
    (l junk : list T) tr p' m,
  schedule_log ans tr (select_many_nth_unstable c (length l) inds, l ++ junk) (p', m) →
  compares_only l tr ∧ holds_only l m.
Proof. intros T c. exact (select_many_nth_unstable_elements c). Qed.
Print Assumptions select_many_nth_unstable_calls_on_elements.

Theorem select_many_nth_unstable_by_calls_on_elements :
  ∀ (T : Type) (c : cfg) (ans : T * T → option comparison → Prop) (inds : list nat)
    (l junk : list T) tr p' m,
  schedule_log ans tr (select_many_nth_unstable_by c (length l) inds, l ++ junk) (p', m) →
  compares_only l tr ∧ holds_only l m.
Proof. intros T c. exact (select_many_nth_unstable_by_elements c). Qed.
Print Assumptions select_many_nth_unstable_by_calls_on_elements.

Theorem select_many_nth_unstable_by_key_calls_on_elements :
  ∀ (T K : Type) (c : cfg) (ans : key_question (T:=T) K → key_answer K → Prop) (inds : list nat)
    (l junk : list T) tr p' m,
  schedule_log ans tr (select_many_nth_unstable_by_key c (length l) inds, l ++ junk) (p', m) →
  key_compares_only l tr ∧ holds_only l m.
Proof. intros T K c. exact (select_many_nth_unstable_by_key_elements c). Qed.
Print Assumptions select_many_nth_unstable_by_key_calls_on_elements.

Theorem par_sort_calls_on_elements :
  ∀ (T : Type) (c : cfg) (ans : T * T → option bool → Prop) (take_item : nat → bool)
    (l junk : list T) tr p' m,
  schedule_log ans tr (par_sort c take_item (length l), l ++ junk) (p', m) →
  compares_only l tr ∧ holds_only l m.
Proof. intros T c. exact (par_sort_elements c). Qed.
Print Assumptions par_sort_calls_on_elements.

Theorem par_sort_by_calls_on_elements :
  ∀ (T : Type) (c : cfg) (ans : T * T → option comparison → Prop) (take_item : nat → bool)
    (l junk : list T) tr p' m,
  schedule_log ans tr (par_sort_by c take_item (length l), l ++ junk) (p', m) →
  compares_only l tr ∧ holds_only l m.
Proof. intros T c. exact (par_sort_by_elements c). Qed.
Print Assumptions par_sort_by_calls_on_elements.

Theorem par_sort_by_key_calls_on_elements :
  ∀ (T K : Type) (c : cfg) (ans : key_question (T:=T) K → key_answer K → Prop) (take_item : nat → bool)
    (l junk : list T) tr p' m,
  schedule_log ans tr (par_sort_by_key c take_item (length l), l ++ junk) (p', m) →
  key_compares_only l tr ∧ holds_only l m.
Proof. intros T K c. exact (par_sort_by_key_elements c). Qed.
Print Assumptions par_sort_by_key_calls_on_elements.

Theorem par_sort_unstable_calls_on_elements :
  ∀ (T : Type) (c : cfg) (ans : T * T → option bool → Prop)
    (l junk : list T) tr p' m,
  schedule_log ans tr (par_sort_unstable c (length l), l ++ junk) (p', m) →
  compares_only l tr ∧ holds_only l m.
Proof. intros T c. exact (par_sort_unstable_elements c). Qed.
Print Assumptions par_sort_unstable_calls_on_elements.

Theorem par_sort_unstable_by_calls_on_elements :
  ∀ (T : Type) (c : cfg) (ans : T * T → option comparison → Prop)
    (l junk : list T) tr p' m,
  schedule_log ans tr (par_sort_unstable_by c (length l), l ++ junk) (p', m) →
  compares_only l tr ∧ holds_only l m.
Proof. intros T c. exact (par_sort_unstable_by_elements c). Qed.
Print Assumptions par_sort_unstable_by_calls_on_elements.

Theorem par_sort_unstable_by_key_calls_on_elements :
  ∀ (T K : Type) (c : cfg) (ans : key_question (T:=T) K → key_answer K → Prop)
    (l junk : list T) tr p' m,
  schedule_log ans tr (par_sort_unstable_by_key c (length l), l ++ junk) (p', m) →
  key_compares_only l tr ∧ holds_only l m.
Proof. intros T K c. exact (par_sort_unstable_by_key_elements c). Qed.
Print Assumptions par_sort_unstable_by_key_calls_on_elements.

Theorem par_select_many_nth_unstable_calls_on_elements :
  ∀ (T : Type) (c : cfg) (ans : T * T → option bool → Prop) (vlen : nat) (inds : list nat)
    (l junk : list T) tr p' m,
  schedule_log ans tr (par_select_many_nth_unstable c (length l) vlen inds, l ++ junk) (p', m) →
  compares_only l tr ∧ holds_only l m.
Proof. intros T c. exact (par_select_many_nth_unstable_elements c). Qed.
Print Assumptions par_select_many_nth_unstable_calls_on_elements.

Theorem par_select_many_nth_unstable_by_calls_on_elements :
  ∀ (T : Type) (c : cfg) (ans : T * T → option comparison → Prop) (vlen : nat) (inds : list nat)
    (l junk : list T) tr p' m,
  schedule_log ans tr (par_select_many_nth_unstable_by c (length l) vlen inds, l ++ junk) (p', m) →
  compares_only l tr ∧ holds_only l m.
Proof. intros T c. exact (par_select_many_nth_unstable_by_elements c). Qed.
Print Assumptions par_select_many_nth_unstable_by_calls_on_elements.

Theorem par_select_many_nth_unstable_by_key_calls_on_elements :
  ∀ (T K : Type) (c : cfg) (ans : key_question (T:=T) K → key_answer K → Prop) (vlen : nat) (inds : list nat)
    (l junk : list T) tr p' m,
  schedule_log ans tr (par_select_many_nth_unstable_by_key c (length l) vlen inds, l ++ junk) (p', m) →
  key_compares_only l tr ∧ holds_only l m.
Proof. intros T K c. exact (par_select_many_nth_unstable_by_key_elements c). Qed.
Print Assumptions par_select_many_nth_unstable_by_key_calls_on_elements.

(** Closures with a state ([FnMut]) are covered by arbitrary answers: every run
    with such a closure is one of the schedules above. *)
Theorem stateful_runs_are_schedules :
  ∀ (T Q R S A : Type) (o : S → Q → R * S) (p : prog T Q R A) s l r s' tr m,
  run (logged o) p (s, []) l = (r, (s', tr), m) →
  ∃ p', schedule_log (λ _ _, True) tr (p, l) (p', m).
Proof. intros T Q R S A. exact run_is_schedule. Qed.
Print Assumptions stateful_runs_are_schedules.

(** Runs that meet the hypothesis: 60 elements below 60 in zigzag order, a buffer
    full of 77s, a comparator that answers nonsense and one that panics at its 41st
    call.  Part of the buffer is used. *)
Example calls_on_elements_example :
  let l := map (λ i, i * 7 mod 60) (seq 0 60) in
  let junk := repeat 77 60 in
  let '(r1, (_, tr1), m1) := run (logged silly) (par_sort_by cfg_debug64 (λ _, true) 60) (0, []) (l ++ junk) in
  let '(r2, (_, tr2), m2) := run (logged bomb) (par_sort_by cfg_debug64 (λ _, true) 60) (0, []) (l ++ junk) in
  r1 = Done tt ∧ r2 = Panicked UserPanic ∧ length tr1 = 186 ∧ length tr2 = 41 ∧
  nth 60 m1 0 = 17 ∧ nth 80 m1 0 = 77 ∧ length (take 60 m2) = 60.
Proof. vm_compute. repeat split. Qed.
