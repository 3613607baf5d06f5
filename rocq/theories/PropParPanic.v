(** * C53: a panic of the closure in one of the parallel tasks leaves the call, under
    every schedule.

    [schedule_log ans tr (p, l) (p', m)] (CallSpec.v): a schedule leads from the
    program [p] with the memory [l] to [p'] with [m]; [tr] lists the calls of the
    closure in the order in which they are made and their answers, and [ans] says
    which answers are possible.  [calm tr]: no call panicked; [some_panic tr]: some
    call did (TPanic.v, TParPanic.v).  The closure is arbitrary. *)
From Verif Require Import TParPanic Examples.

Theorem par_sort_unstable_panic_leaves :
  ∀ (T : Type) (c : cfg) (ans : T * T → option bool → Prop)
    (l : list T) (tr : list (T * T * option bool))
    (p' : prog T (T * T) (option bool) unit) (m : list T) (r : unit + exn),
  schedule_log ans tr (par_sort_unstable c (length l), l) (p', m) → result p' = Some r →
  Permutation l m ∧
  (r = inl tt ∧ calm tr ∨ r = inr UserPanic ∧ some_panic tr).
Proof. exact @par_sort_unstable_log. Qed.
Print Assumptions par_sort_unstable_panic_leaves.

Theorem par_sort_unstable_by_panic_leaves :
  ∀ (T : Type) (c : cfg) (ans : T * T → option comparison → Prop)
    (l : list T) (tr : list (T * T * option comparison))
    (p' : prog T (T * T) (option comparison) unit) (m : list T) (r : unit + exn),
  schedule_log ans tr (par_sort_unstable_by c (length l), l) (p', m) → result p' = Some r →
  Permutation l m ∧
  (r = inl tt ∧ calm tr ∨ r = inr UserPanic ∧ some_panic tr).
Proof. exact @par_sort_unstable_by_log. Qed.
Print Assumptions par_sort_unstable_by_panic_leaves.

Theorem par_sort_unstable_by_key_panic_leaves :
  ∀ (T : Type) (c : cfg) (K : Type) (ans : key_question (T:=T) K → key_answer K → Prop)
    (l : list T) (tr : list (key_question (T:=T) K * key_answer K))
    (p' : prog T (key_question (T:=T) K) (key_answer K) unit) (m : list T) (r : unit + exn),
  schedule_log ans tr (par_sort_unstable_by_key c (length l), l) (p', m) → result p' = Some r →
  Permutation l m ∧
  (r = inl tt ∧ key_calm tr ∨ r = inr UserPanic ∧ some_key_panic tr).
Proof. exact @par_sort_unstable_by_key_log. Qed.
Print Assumptions par_sort_unstable_by_key_panic_leaves.

Theorem par_sort_panic_leaves :
  ∀ (T : Type) (c : cfg) (ans : T * T → option bool → Prop)
    (take_item : nat → bool) (l junk : list T) (tr : list (T * T * option bool))
    (p' : prog T (T * T) (option bool) unit) (m : list T) (r : unit + exn),
  length junk = length l →
  schedule_log ans tr (par_sort c take_item (length l), l ++ junk) (p', m) → result p' = Some r →
  Permutation l (take (length l) m) ∧
  (r = inl tt ∧ calm tr ∨ r = inr UserPanic ∧ some_panic tr).
Proof. exact @par_sort_log. Qed.
Print Assumptions par_sort_panic_leaves.

Theorem par_sort_by_panic_leaves :
  ∀ (T : Type) (c : cfg) (ans : T * T → option comparison → Prop)
    (take_item : nat → bool) (l junk : list T) (tr : list (T * T * option comparison))
    (p' : prog T (T * T) (option comparison) unit) (m : list T) (r : unit + exn),
  length junk = length l →
  schedule_log ans tr (par_sort_by c take_item (length l), l ++ junk) (p', m) → result p' = Some r →
  Permutation l (take (length l) m) ∧
  (r = inl tt ∧ calm tr ∨ r = inr UserPanic ∧ some_panic tr).
Proof. exact @par_sort_by_log. Qed.
Print Assumptions par_sort_by_panic_leaves.

Theorem par_sort_by_key_panic_leaves :
  ∀ (T : Type) (c : cfg) (K : Type) (ans : key_question (T:=T) K → key_answer K → Prop)
    (take_item : nat → bool) (l junk : list T) (tr : list (key_question (T:=T) K * key_answer K))
    (p' : prog T (key_question (T:=T) K) (key_answer K) unit) (m : list T) (r : unit + exn),
  length junk = length l →
  schedule_log ans tr (par_sort_by_key c take_item (length l), l ++ junk) (p', m) → result p' = Some r →
  Permutation l (take (length l) m) ∧
  (r = inl tt ∧ key_calm tr ∨ r = inr UserPanic ∧ some_key_panic tr).
Proof. exact @par_sort_by_key_log. Qed.
Print Assumptions par_sort_by_key_panic_leaves.

Theorem par_select_many_nth_unstable_panic_leaves :
  ∀ (T : Type) (c : cfg) (ans : T * T → option bool → Prop)
    (vlen : nat) (inds : list nat) (l : list T) (tr : list (T * T * option bool))
    (p' : prog T (T * T) (option bool) (list (option nat))) (m : list T) (r : list (option nat) + exn),
  dbg c = false → fits c (length l) → valid_indices 0 (length l) inds → length inds ≤ vlen →
  schedule_log ans tr (par_select_many_nth_unstable c (length l) vlen inds, l) (p', m) → result p' = Some r →
  Permutation l m ∧
  (r = inl (map Some inds) ∧ calm tr ∨ r = inr UserPanic ∧ some_panic tr).
Proof. exact @par_select_many_log. Qed.
Print Assumptions par_select_many_nth_unstable_panic_leaves.

Theorem par_select_many_nth_unstable_by_panic_leaves :
  ∀ (T : Type) (c : cfg) (ans : T * T → option comparison → Prop)
    (vlen : nat) (inds : list nat) (l : list T) (tr : list (T * T * option comparison))
    (p' : prog T (T * T) (option comparison) (list (option nat))) (m : list T) (r : list (option nat) + exn),
  dbg c = false → fits c (length l) → valid_indices 0 (length l) inds → length inds ≤ vlen →
  schedule_log ans tr (par_select_many_nth_unstable_by c (length l) vlen inds, l) (p', m) → result p' = Some r →
  Permutation l m ∧
  (r = inl (map Some inds) ∧ calm tr ∨ r = inr UserPanic ∧ some_panic tr).
Proof. exact @par_select_many_by_log. Qed.
Print Assumptions par_select_many_nth_unstable_by_panic_leaves.

Theorem par_select_many_nth_unstable_by_key_panic_leaves :
  ∀ (T : Type) (c : cfg) (K : Type) (ans : key_question (T:=T) K → key_answer K → Prop)
    (vlen : nat) (inds : list nat) (l : list T) (tr : list (key_question (T:=T) K * key_answer K))
    (p' : prog T (key_question (T:=T) K) (key_answer K) (list (option nat))) (m : list T) (r : list (option nat) + exn),
  dbg c = false → fits c (length l) → valid_indices 0 (length l) inds → length inds ≤ vlen →
  schedule_log ans tr (par_select_many_nth_unstable_by_key c (length l) vlen inds, l) (p', m) → result p' = Some r →
  Permutation l m ∧
  (r = inl (map Some inds) ∧ key_calm tr ∨ r = inr UserPanic ∧ some_key_panic tr).
Proof. exact @par_select_many_by_key_log. Qed.
Print Assumptions par_select_many_nth_unstable_by_key_panic_leaves.

(** A closure that always panics.  Two chunks are sorted in parallel: each task makes
    one call before it unwinds, and the panic leaves. *)
Definition always_panics (s : unit) (q : nat * nat) : option comparison * unit := (None, s).
Definition two_tasks : list nat := repeat 7 2002 ++ repeat 0 2002.
Example panic_leaves_example :
  length (repeat 0 2002) = length (repeat 7 2002) ∧
  ∃ tr p' m, schedule_log (λ _ r, r = None) tr
      (par_sort_by cfg_release64 (λ _, true) 2002, two_tasks) (p', m) ∧
    result p' = Some (inr UserPanic) ∧ length tr = 2.
Proof.
  split; [by rewrite !repeat_length|].
  pose proof (run_schedule_log (λ _ r, r = None) always_panics
    (par_sort_by cfg_release64 (λ _, true) 2002) ltac:(done) tt [] two_tasks) as H.
  assert (let '(r, (_, tr), m) := run (logged always_panics) (par_sort_by cfg_release64 (λ _, true) 2002)
            (tt, []) two_tasks in r = Panicked UserPanic ∧ length tr = 2) as Hrun.
  { vm_compute. split; reflexivity. }
  destruct (run _ _ _ _) as [[r [s tr]] m]. destruct Hrun as (-> & Htr).
  destruct H as (tr2 & p' & -> & Hs & Hr). by exists tr2, p', m.
Qed.
