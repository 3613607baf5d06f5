(** * C35, C36: number of calls of the comparator. *)
From Verif Require Import CMerge CQuick CRefute Examples.

(** [tr] is the log of all calls; the comparator is any closure. *)
Theorem sort_by_calls_n_log_n :
  ∀ (T S : Type) (c : cfg) (o : S → T * T → option comparison * S) (s : S) (l : list T),
  let '(_, (_, tr), _) := run (logged o) (sort_by c (length l)) (s, []) l in
  length tr ≤ 20 * length l * (Nat.log2 (length l) + 1).
Proof. exact @sort_by_cost. Qed.
Print Assumptions sort_by_calls_n_log_n.

(** An inconsistent comparator on 200 elements. *)
Example sort_by_calls_example :
  let o := λ (s : nat) (_ : nat * nat), (Some (if s mod 3 =? 0 then Lt else Gt), S s) in
  let '(r, (_, tr), _) := run (logged o) (sort_by cfg_release64 200) (0, []) (seq 0 200) in
  r = Done tt ∧ length tr = 870.
Proof. vm_compute. auto. Qed.

(** C35 is false for arbitrary comparators: [cmp3] is a pure comparator for which
    no constant suffices. *)
Theorem sort_unstable_by_calls_n_log_n_refuted :
  ∀ (c : cfg) (C : nat), zst c = false →
  ∃ l : list nat,
    let '(_, (_, tr), _) :=
      run (logged (pure_compare cmp3)) (sort_unstable_by c (length l)) (tt, []) l in
    C * length l * (Nat.log2 (length l) + 1) < length tr.
Proof. exact sort_unstable_by_superlinear. Qed.
Print Assumptions sort_unstable_by_calls_n_log_n_refuted.

(** 102 elements, 1602 calls. *)
Example sort_unstable_by_refuted_example :
  zst cfg_release64 = false ∧
  let '(r, (_, tr), _) :=
    run (logged (pure_compare cmp3)) (sort_unstable_by cfg_release64 102) (tt, []) (bad_list 25) in
  r = Done tt ∧ length tr = 1602.
Proof. split; [done|]. vm_compute. auto. Qed.

(** C35 for every closure that answers by a strict weak order (or panics). *)
Theorem sort_unstable_by_calls_n_log_n_partial :
  ∀ (T S : Type) (c : cfg) (cmp : T → T → comparison)
    (o : S → T * T → option comparison * S) (s : S) (l : list T),
  strict_weak_order (is_lt cmp) → answers_as cmp o →
  let '(_, (_, tr), _) := run (logged o) (sort_unstable_by c (length l)) (s, []) l in
  length tr ≤ 340 * length l * (Nat.log2 (length l) + 1).
Proof. exact @sort_unstable_by_cost. Qed.
Print Assumptions sort_unstable_by_calls_n_log_n_partial.

(** Every closure makes at most quadratically many calls. *)
Theorem sort_unstable_by_calls_quadratic :
  ∀ (T S : Type) (c : cfg) (o : S → T * T → option comparison * S) (s : S) (l : list T),
  let '(_, (_, tr), _) := run (logged o) (sort_unstable_by c (length l)) (s, []) l in
  length tr ≤ 13 * (length l * length l) + 20 * length l.
Proof. exact @sort_unstable_by_quadratic. Qed.
Print Assumptions sort_unstable_by_calls_quadratic.

(** A closure that panics at its 100th call, on 100 elements. *)
Example sort_unstable_by_calls_example :
  let o := λ (s : nat) (q : nat * nat),
    (if s =? 99 then None else Some (digit_cmp q.1 q.2), S s) in
  strict_weak_order (is_lt digit_cmp) ∧ answers_as digit_cmp o ∧
  let '(r, (_, tr), _) :=
    run (logged o) (sort_unstable_by cfg_release64 100) (0, []) (map (λ i, (i * 37) mod 101) (seq 0 100)) in
  r = Panicked UserPanic ∧ length tr = 100.
Proof.
  split; [exact digit_swo|]. split.
  - intros s q r H. simpl in H. by destruct (s =? 99); [|injection H as <-].
  - vm_compute. auto.
Qed.
