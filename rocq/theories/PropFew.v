(** * Property C63: few values. *)
From Verif Require Import CFewSelect CDepth Calls Examples.
From stdpp Require Import relations.

(** C63.  An order, answered by a closure that may keep a state and may panic, and an
    array with at most [k] values up to equivalence: the unstable sort makes at most
    [680 n k] calls, however large [n] is. *)
Theorem sort_unstable_by_calls_few_values :
  ∀ (T S : Type) (c : cfg) (cmp : T → T → comparison) (o : S → T * T → option comparison * S)
    (s : S) (l : list T) (k : nat),
  strict_weak_order (is_lt cmp) → answers_as cmp o → few_values (is_lt cmp) k l →
  let '(_, (_, tr), _) := run (logged o) (sort_unstable_by c (length l)) (s, []) l in
  length tr ≤ 680 * length l * k.
Proof. exact @sort_unstable_by_few. Qed.
Print Assumptions sort_unstable_by_calls_few_values.

(** The parallel unstable sort, in every schedule.  For arrays of any length there is no
    such bound without an assumption on the number of values (C48). *)
Theorem par_sort_unstable_by_calls_few_values :
  ∀ (T : Type) (c : cfg) (cmp : T → T → comparison) (ans : T * T → option comparison → Prop)
    (l : list T) (k m : nat) (c' : prog T (T * T) (option comparison) unit * list T),
  strict_weak_order (is_lt cmp) → (∀ q, ∃ r, ans q r) →
  (∀ x y r, ans (x, y) (Some r) → r = cmp x y) → few_values (is_lt cmp) k l →
  calls_made ans m (par_sort_unstable_by c (length l), l) c' →
  m ≤ length l * (26 * k + 3 * Nat.log2 (length l) + 20) ∧
  (2 * k ≤ Nat.log2 (length l) → m ≤ 46 * length l * k).
Proof. exact @par_sort_unstable_by_few. Qed.
Print Assumptions par_sort_unstable_by_calls_few_values.

(** The tasks of the parallel unstable sort nest at most [2 k - 1] deep in every reachable
    state, however large the array is (C49: in general they nest linearly deep). *)
Theorem par_sort_unstable_by_nests_few_values :
  ∀ (T : Type) (c : cfg) (cmp : T → T → comparison) (ans : T * T → option comparison → Prop)
    (l : list T) (k : nat) p' (l' : list T),
  strict_weak_order (is_lt cmp) → (∀ q, ∃ r, ans q r) →
  (∀ x y r, ans (x, y) (Some r) → r = cmp x y) → few_values (is_lt cmp) k l →
  rtc (stepm ans) (par_sort_unstable_by c (length l), l) (p', l') →
  active p' ≤ 2 * k - 1.
Proof. exact @par_sort_unstable_active_few. Qed.
Print Assumptions par_sort_unstable_by_nests_few_values.

Theorem par_sort_unstable_join_depth_few_values :
  ∀ (T S : Type) (c : cfg) (o : S → T * T → option bool * S) (lt : T → T → bool) (s : S) (l : list T) (k : nat),
  strict_weak_order lt → (∀ s x y b, (o s (x, y)).1 = Some b → b = lt x y) → few_values lt k l →
  join_depth o (par_sort_unstable c (length l)) s l ≤ 2 * k - 1.
Proof. exact @par_sort_unstable_depth_few. Qed.
Print Assumptions par_sort_unstable_join_depth_few_values.

(** With at most eight values the selection is linear (C37: in general it is not). *)
Theorem select_nth_unstable_by_calls_few_values :
  ∀ (T S : Type) (c : cfg) (cmp : T → T → comparison) (o : S → T * T → option comparison * S),
  strict_weak_order (is_lt cmp) → answers_as cmp o →
  ∀ (s : S) (l : list T) (index k : nat), k ≤ 8 → few_values (is_lt cmp) k l →
  let '(_, (_, tr), _) := run (logged o) (select_nth_unstable_by c (length l) index) (s, []) l in
  length tr ≤ (6 * k + 9) * length l.
Proof. exact @select_nth_unstable_by_few. Qed.
Print Assumptions select_nth_unstable_by_calls_few_values.

Theorem select_many_nth_unstable_by_calls_few_values :
  ∀ (T S : Type) (c : cfg) (cmp : T → T → comparison) (o : S → T * T → option comparison * S),
  strict_weak_order (is_lt cmp) → answers_as cmp o →
  ∀ (s : S) (l : list T) (indices : list nat) (k : nat), k ≤ 8 → few_values (is_lt cmp) k l →
  let '(_, (_, tr), _) :=
    run (logged o) (select_many_nth_unstable_by c (length l) indices) (s, []) l in
  length tr ≤ (6 * k + 9) * length l * (Nat.log2 (length indices) + 1).
Proof. exact @select_many_nth_unstable_by_few. Qed.
Print Assumptions select_many_nth_unstable_by_calls_few_values.

(** In every schedule. *)
Theorem par_select_many_nth_unstable_by_calls_few_values :
  ∀ (T : Type) (c : cfg) (cmp : T → T → comparison) (ans : T * T → option comparison → Prop)
    (l : list T) (vlen : nat) (indices : list nat) (k m : nat)
    (c' : prog T (T * T) (option comparison) (list (option nat)) * list T),
  strict_weak_order (is_lt cmp) → (∀ q, ∃ r, ans q r) →
  (∀ x y r, ans (x, y) (Some r) → r = cmp x y) → k ≤ 8 → few_values (is_lt cmp) k l →
  calls_made ans m (par_select_many_nth_unstable_by c (length l) vlen indices, l) c' →
  m ≤ (6 * k + 9) * length l * (Nat.log2 (length indices) + 1).
Proof. exact @par_select_many_nth_unstable_by_few. Qed.
Print Assumptions par_select_many_nth_unstable_by_calls_few_values.

(** Sixty numbers with three last digits: three values.  Here the sort makes 153 calls and
    the selection 115. *)
Example few_values_example :
  strict_weak_order (is_lt digit_cmp) ∧ answers_as digit_cmp (pure_compare digit_cmp) ∧
  few_values (is_lt digit_cmp) 3 (map (λ i, 10 * i + i mod 3) (seq 0 60)) ∧
  (let '(_, (_, tr), _) := run (logged (pure_compare digit_cmp)) (sort_unstable_by cfg_release64 60)
     (tt, []) (map (λ i, 10 * i + i mod 3) (seq 0 60)) in length tr = 153) ∧
  (let '(_, (_, tr), _) := run (logged (pure_compare digit_cmp)) (select_nth_unstable_by cfg_release64 60 30)
     (tt, []) (map (λ i, 10 * i + i mod 3) (seq 0 60)) in length tr = 115).
Proof.
  split; [exact digit_swo|]. split; [by intros s [x y] r [= <-]|]. split.
  - exists [0; 1; 2]. split; [simpl; lia|]. apply Forall_map, Forall_forall. intros i _.
    exists (i mod 3). assert (i mod 3 < 3) by (by apply Nat.mod_upper_bound).
    split; [destruct (i mod 3) as [|[|[|]]]; [set_solver..|lia]|].
    assert (Hd : (10 * i + i mod 3) mod 10 = i mod 3 mod 10).
    { rewrite Nat.add_comm, Nat.mul_comm. apply Nat.mod_add. lia. }
    unfold is_lt, digit_cmp. rewrite Hd, Nat.compare_refl. done.
  - split; vm_compute; reflexivity.
Qed.

(** Two values and one join. *)
Example few_values_join_example :
  let l := map (λ i, if i mod 100 =? 99 then 0 else 1) (seq 0 2100) in
  strict_weak_order Nat.ltb ∧ few_values Nat.ltb 2 l ∧
  join_depth (pure_less Nat.ltb) (par_sort_unstable cfg_release64 (length l)) tt l = 1.
Proof.
  cbv zeta. split; [exact ltb_swo|]. split; [|vm_compute; reflexivity].
  exists [0; 1]. split; [simpl; lia|]. apply Forall_map, Forall_forall. intros i _.
  destruct (_ =? _); [exists 0|exists 1]; (split; [set_solver|done]).
Qed.
