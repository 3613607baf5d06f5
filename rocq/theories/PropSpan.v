(** * C58: how long the parallel stable sort takes if every task has a processor of
    its own.

    [rounds ans m (p, l) c] (SpanSpec.v): from the program [p] and the memory [l] to
    [c] the tasks make [m] rounds of calls.  In a round every task that is not finished
    calls the closure, all of them at the same time; other steps, reads, writes and
    joins, take no time.  [m] is the number of calls on the longest chain of calls
    that wait for each other. *)
From Verif Require Import TSpan Examples.
From stdpp Require Import relations.

(** C58.  For every closure, also one that panics or is no order: but for one call for
    every 2000 elements, the number of rounds is bounded by a polynomial in the
    logarithm of the length. *)
Theorem par_sort_rounds :
  ∀ (T : Type) (c : cfg) (take_item : nat → bool) (ans : T * T → option bool → Prop)
    (l junk : list T) (m : nat) (c' : prog T (T * T) (option bool) unit * list T),
  rounds ans m (par_sort c take_item (length l), l ++ junk) c' →
  let n := length l in
  (N.of_nat m ≤ N.of_nat n / 2000 + 4 * N.of_nat (Nat.log2 n + 1) ^ 3 +
    5000 * N.of_nat (Nat.log2 n + 1) + 480000)%N.
Proof. exact @par_sort_rounds_bound. Qed.
Print Assumptions par_sort_rounds.

Theorem par_sort_by_rounds :
  ∀ (T : Type) (c : cfg) (take_item : nat → bool) (ans : T * T → option comparison → Prop)
    (l junk : list T) (m : nat) (c' : prog T (T * T) (option comparison) unit * list T),
  rounds ans m (par_sort_by c take_item (length l), l ++ junk) c' →
  let n := length l in
  (N.of_nat m ≤ N.of_nat n / 2000 + 4 * N.of_nat (Nat.log2 n + 1) ^ 3 +
    5000 * N.of_nat (Nat.log2 n + 1) + 480000)%N.
Proof. exact @par_sort_by_rounds_bound. Qed.
Print Assumptions par_sort_by_rounds.

(** A comparison of keys is two calls of the key function and one of the order of
    the keys. *)
Theorem par_sort_by_key_rounds :
  ∀ (T : Type) (c : cfg) (K : Type) (take_item : nat → bool)
    (ans : key_question (T:=T) K → key_answer K → Prop) (l junk : list T) (m : nat)
    (c' : prog T (key_question K) (key_answer K) unit * list T),
  rounds ans m (par_sort_by_key c take_item (length l), l ++ junk) c' →
  let n := length l in
  (N.of_nat m ≤ 3 * (N.of_nat n / 2000 + 4 * N.of_nat (Nat.log2 n + 1) ^ 3 +
    5000 * N.of_nat (Nat.log2 n + 1) + 480000))%N.
Proof. exact @par_sort_by_key_rounds_bound. Qed.
Print Assumptions par_sort_by_key_rounds.

(** With a strict weak order, rounds do lead to the end, where the array is stably
    sorted. *)
Theorem par_sort_by_sorts_in_rounds :
  ∀ (T : Type) (c : cfg) (take_item : nat → bool) (cmp : T → T → comparison) (l junk : list T),
  strict_weak_order (is_lt cmp) → (zst c = true → ∀ x y : T, x = y) → length junk = length l →
  ∃ m mem,
    rounds (ans_cmp cmp) m (par_sort_by c take_item (length l), l ++ junk) (Ret tt, mem) ∧
    (N.of_nat m ≤ N.of_nat (length l) / 2000 + 4 * N.of_nat (Nat.log2 (length l) + 1) ^ 3 +
      5000 * N.of_nat (Nat.log2 (length l) + 1) + 480000)%N ∧
    let l' := take (length l) mem in
    Permutation l l' ∧ sorted_wrt (is_lt cmp) l' ∧ same_order_of_equals (is_lt cmp) l l'.
Proof. exact @par_sort_by_sorts_rounds. Qed.
Print Assumptions par_sort_by_sorts_in_rounds.

(** Any program: one that is right in every schedule gets to its end in rounds. *)
Theorem rounds_lead_to_the_end :
  ∀ (T Q R A : Type) (ans : Q → R → Prop) (p : prog T Q R A) (l : list T)
    (Φ : A → list T → Prop) (E : exn → list T → Prop),
  (∀ q, ∃ r, ans q r) → every_schedule ans p l Φ E →
  ∃ m p' l', rounds ans m (p, l) (p', l') ∧ result p' ≠ None ∧ rtc (stepm ans) (p, l) (p', l').
Proof. exact @rounds_end. Qed.
Print Assumptions rounds_lead_to_the_end.

(** Any program: there is a call in every round. *)
Theorem rounds_at_most_calls :
  ∀ (T Q R A : Type) (ans : Q → R → Prop) (m : nat) (c c' : prog T Q R A * list T),
  rounds ans m c c' → ∃ k, m ≤ k ∧ calls_made ans k c c'.
Proof. exact @rounds_calls_made. Qed.
Print Assumptions rounds_at_most_calls.

(** Two tasks, one with a call and one with two: two rounds.  And the bound for 2^30
    elements: less than one round for 800 elements. *)
Definition asks_once : prog nat nat nat nat := Ask 1 Ret.
Definition asks_twice : prog nat nat nat nat := Ask 2 (λ x, Ask x Ret).
Example rounds_example :
  rounds (λ q r, r = q + 1) 2 (rayon_join asks_once asks_twice, []) (Ret (2, 4), []) ∧
  ¬ (∃ c, rounds (λ q r, r = q + 1) 3 (rayon_join asks_once asks_twice, []) c) ∧
  (2 ^ 30 / 2000 + 4 * 31 ^ 3 + 5000 * 31 + 480000 < 2 ^ 30 / 800)%N.
Proof.
  split; [|split; [|reflexivity]].
  - eapply rounds_call.
    { left. exists (Ret 2), (Ask 3 Ret). repeat split; simpl; eauto. }
    eapply rounds_call.
    { right; right. exists (Ret 4). repeat split; simpl; eauto. }
    eapply rounds_step; [|constructor]. exists Tau. split; [|done].
    right; right. exists (inl 2), (inl 4). auto.
  - intros [c H]. apply (spans_rounds _ _ (λ _, True) 2) in H; [lia|].
    apply (spans_mono _ (λ r, True ∧ True) _ 2 2); [|done|done].
    apply (spans_join asks_once asks_twice (λ _, True) (λ _, True) 2).
    + apply spans_ask; [lia|]. intros r. by apply spans_ret.
    + apply spans_ask; [lia|]. intros r. apply spans_ask; [lia|]. intros r'. by apply spans_ret.
Qed.
