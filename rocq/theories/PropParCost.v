(** * C48, C49: number of calls and nesting of the tasks of the parallel unstable sort. *)
From Verif Require Import CPar CParUp Examples ExamplesPar PropPar.

(** C48 is false: each task of [rayon::join] starts with [was_balanced = true], so
    [limit] is never decremented in a part of more than 2000 elements. *)
Theorem par_sort_unstable_by_calls_n_log_n_refuted :
  ∀ (c : cfg) (C : nat), zst c = false →
  ∃ (cmp : nat → nat → comparison) (l : list nat),
    strict_weak_order (is_lt cmp) ∧
    let '(r, (_, tr), _) :=
      run (logged (pure_compare cmp)) (par_sort_unstable_by c (length l)) (tt, []) l in
    r = Done tt ∧ C * length l * (Nat.log2 (length l) + 1) < length tr.
Proof. exact par_sort_unstable_by_superlinear. Qed.
Print Assumptions par_sort_unstable_by_calls_n_log_n_refuted.

Example par_sort_unstable_by_refuted_example : zst cfg_release64 = false ∧ zst cfg_debug32 = false.
Proof. done. Qed.

(** C48 for arrays that are not sorted in parallel. *)
Theorem par_sort_unstable_by_calls_n_log_n_partial :
  ∀ (T S : Type) (c : cfg) (cmp : T → T → comparison)
    (o : S → T * T → option comparison * S) (s : S) (l : list T),
  strict_weak_order (is_lt cmp) → answers_as cmp o → (N.of_nat (length l) <= 2001)%N →
  let '(_, (_, tr), _) := run (logged o) (par_sort_unstable_by c (length l)) (s, []) l in
  length tr ≤ 340 * length l * (Nat.log2 (length l) + 1).
Proof. exact @par_sort_unstable_by_cost. Qed.
Print Assumptions par_sort_unstable_by_calls_n_log_n_partial.

(** A closure that panics at its 100th call, on 100 elements. *)
Example par_sort_unstable_by_calls_example :
  let o := λ (s : nat) (q : nat * nat),
    (if s =? 99 then None else Some (digit_cmp q.1 q.2), S s) in
  strict_weak_order (is_lt digit_cmp) ∧ answers_as digit_cmp o ∧
  (N.of_nat 100 <= 2001)%N ∧
  let '(r, (_, tr), _) :=
    run (logged o) (par_sort_unstable_by cfg_release64 100) (0, []) (map (λ i, (i * 37) mod 101) (seq 0 100)) in
  r = Panicked UserPanic ∧ length tr = 100.
Proof.
  split; [exact digit_swo|]. split; [|split; [done|vm_compute; auto]].
  intros s q r H. simpl in H. by destruct (s =? 99); [|injection H as <-].
Qed.

(** Every closure is called at most quadratically often. *)
Theorem par_sort_unstable_by_calls_quadratic :
  ∀ (T S : Type) (c : cfg) (o : S → T * T → option comparison * S) (s : S) (l : list T),
  let '(_, (_, tr), _) := run (logged o) (par_sort_unstable_by c (length l)) (s, []) l in
  length tr ≤ 13 * (length l * length l) + 20 * length l.
Proof. exact @par_sort_unstable_by_quadratic. Qed.
Print Assumptions par_sort_unstable_by_calls_quadratic.

(** C49 is false: no multiple of the logarithm bounds the nesting of the joins. *)
Theorem par_sort_unstable_join_depth_refuted :
  ∀ (c : cfg) (C : nat), zst c = false →
  ∃ (lt : nat → nat → bool) (l : list nat),
    strict_weak_order lt ∧
    C * (Nat.log2 (length l) + 1) <
      join_depth (pure_less lt) (par_sort_unstable c (length l)) tt l.
Proof. exact par_sort_unstable_deep. Qed.
Print Assumptions par_sort_unstable_join_depth_refuted.

(** What holds: each join takes at least one element away from its tasks, and up to
    2001 elements there is none. *)
Theorem par_sort_unstable_join_depth_partial :
  ∀ (T S : Type) (c : cfg) (o : S → T * T → option bool * S) (s : S) (l : list T),
  join_depth o (par_sort_unstable c (length l)) s l ≤ length l - N.to_nat 2001.
Proof. exact @par_sort_unstable_join_depth. Qed.
Print Assumptions par_sort_unstable_join_depth_partial.

(** 2040 elements, at least one join and at most 39 around each other. *)
Example par_sort_unstable_join_depth_example :
  1 ≤ join_depth (pure_less Nat.ltb) (par_sort_unstable cfg_release64 2040) tt forking_input ≤ 39.
Proof.
  split.
  - apply forks_join_depth, par_sort_unstable_sorts_example.
  - assert (length forking_input = 2040) as Hl by apply map_length.
    rewrite <-Hl at 1. etrans; [apply par_sort_unstable_join_depth_partial|]. rewrite Hl. lia.
Qed.
