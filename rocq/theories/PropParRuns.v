(** * C72: the parallel stable sort on sorted sequences concatenated one after another. *)
From Verif Require Import TParRuns CKey TPar Examples.

(** The array is the concatenation of the sequences [ls], each of which is
    non-descending or strictly descending; [junk] is the temporary storage.  The closure
    answers as [cmp] does or panics; nothing is assumed about [cmp].  [m] calls have been
    made by all threads together at any time of any schedule. *)
Theorem par_sort_by_concatenated_sequences :
  ∀ (T : Type) (c : cfg) (take_item : nat → bool) (cmp : T → T → comparison)
    (ans : T * T → option comparison → Prop) (ls : list (list T)) (junk : list T) (m : nat)
    (st : prog T (T * T) (option comparison) unit * list T),
  (∀ q, ∃ r, ans q r) →
  (∀ x y r, ans (x, y) (Some r) → r = cmp x y) →
  Forall (λ p, sorted_wrt (is_lt cmp) p ∨ StronglySorted (λ a b, is_lt cmp b a = true) p) ls →
  length junk = length (concat ls) →
  calls_made ans m (par_sort_by c take_item (length (concat ls)), concat ls ++ junk) st →
  m ≤ (2 * Nat.log2 (length ls) + 130) * length (concat ls).
Proof. exact @par_sort_by_schedule_runs. Qed.
Print Assumptions par_sort_by_concatenated_sequences.

(** The same for a key function [f] and the order [ltk] of the keys; calls of either. *)
Theorem par_sort_by_key_concatenated_sequences :
  ∀ (T K : Type) (c : cfg) (take_item : nat → bool) (f : T → K) (ltk : K → K → bool)
    (ans : key_question (T:=T) K → key_answer K → Prop) (ls : list (list T)) (junk : list T)
    (m : nat) (st : prog T (key_question K) (key_answer K) unit * list T),
  (∀ q, ∃ r, ans q r) →
  (∀ a k, ans (KeyOf a) (AKey k) → k = f a) →
  (∀ k1 k2 b, ans (KeyLt k1 k2) (ABool b) → b = ltk k1 k2) →
  Forall (λ p, sorted_wrt (λ a b, ltk (f a) (f b)) p ∨
               StronglySorted (λ a b, ltk (f b) (f a) = true) p) ls →
  length junk = length (concat ls) →
  calls_made ans m (par_sort_by_key c take_item (length (concat ls)), concat ls ++ junk) st →
  m ≤ 3 * ((2 * Nat.log2 (length ls) + 130) * length (concat ls)).
Proof. exact @par_sort_by_key_schedule_runs. Qed.
Print Assumptions par_sort_by_key_concatenated_sequences.

(** A schedule for two sequences of thirty elements. *)
Example par_concatenated_sequences_example :
  let ls := [rev (seq 0 30); seq 10 30] in
  let ans := λ q r, r = (pure_compare Nat.compare tt q).1 in
  (∀ q, ∃ r, ans q r) ∧ (∀ x y r, ans (x, y) (Some r) → r = Nat.compare x y) ∧
  Forall (λ p, sorted_wrt (is_lt Nat.compare) p ∨
               StronglySorted (λ a b, is_lt Nat.compare b a = true) p) ls ∧
  ∃ p' m', result p' = Some (inl tt) ∧
    calls_made ans 108
      (par_sort_by cfg_debug64 (λ _, true) (length (concat ls)), concat ls ++ repeat 0 60) (p', m') ∧
    take 14 m' = [0; 1; 2; 3; 4; 5; 6; 7; 8; 9; 10; 10; 11; 11].
Proof.
  intros ls ans. split; [by eexists|]. split; [unfold ans; simpl; congruence|]. split.
  { apply Forall_cons. split; [right; repeat constructor|].
    apply Forall_cons. split; [left; repeat constructor|constructor]. }
  pose proof (run_calls_made ans (pure_compare Nat.compare)
    (par_sort_by cfg_debug64 (λ _, true) 60) ltac:(by intros [] q) tt [] (concat ls ++ repeat 0 60)) as H.
  assert (let '(r, (_, tr), m) := run (logged (pure_compare Nat.compare))
      (par_sort_by cfg_debug64 (λ _, true) 60) (tt, []) (concat ls ++ repeat 0 60) in
    (r, length tr, take 14 m) = (Done tt, 108, [0; 1; 2; 3; 4; 5; 6; 7; 8; 9; 10; 10; 11; 11])) as H'
    by (vm_compute; auto).
  destruct (run _ _ _ _) as [[r [s tr]] m']. destruct H as (m & p' & Hm & Hc & Hr).
  injection H' as -> Htr Ht. exists p', m'. replace m with 108 in Hc by (simpl in Hm; lia).
  repeat split; done.
Qed.
