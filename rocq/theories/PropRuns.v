(** * C72: the stable sort on sorted sequences concatenated one after another. *)
From Verif Require Import TRuns CKey CQuick Examples.

(** The array is the concatenation of the sequences [ls], each of which is
    non-descending or strictly descending.  [o] answers as [cmp] does or panics;
    nothing is assumed about [cmp].  The log [tr] holds one entry per call. *)
Theorem sort_by_concatenated_sequences :
  ∀ (T S : Type) (c : cfg) (cmp : T → T → comparison) (o : S → T * T → option comparison * S)
    (s : S) (ls : list (list T)),
  answers_as cmp o →
  Forall (λ p, sorted_wrt (is_lt cmp) p ∨ StronglySorted (λ a b, is_lt cmp b a = true) p) ls →
  let '(_, (_, tr), _) := run (logged o) (sort_by c (length (concat ls))) (s, []) (concat ls) in
  length tr ≤ (8 * Nat.log2 (length ls) + 70) * length (concat ls).
Proof. exact @sort_by_runs. Qed.
Print Assumptions sort_by_concatenated_sequences.

(** The same for a key function [f] and the order [ltk] of the keys. *)
Theorem sort_by_key_concatenated_sequences :
  ∀ (T K S : Type) (c : cfg) (f : T → K) (ltk : K → K → bool)
    (o : S → key_question (T:=T) K → key_answer K * S) (s : S) (ls : list (list T)),
  answers_as_key f ltk o →
  Forall (λ p, sorted_wrt (λ a b, ltk (f a) (f b)) p ∨
               StronglySorted (λ a b, ltk (f b) (f a) = true) p) ls →
  let '(_, (_, tr), _) := run (logged o) (sort_by_key c (length (concat ls))) (s, []) (concat ls) in
  key_calls tr ≤ (16 * Nat.log2 (length ls) + 140) * length (concat ls).
Proof. exact @sort_by_key_runs. Qed.
Print Assumptions sort_by_key_concatenated_sequences.

(** Three sequences of fifty elements: 317 calls, while 150 elements in an order without
    long sequences take 1030. *)
Example concatenated_sequences_example :
  let ls := [seq 25 50; rev (seq 0 50); seq 40 50] in
  answers_as Nat.compare (pure_compare Nat.compare) ∧
  answers_as_key (λ x, x * 2) Nat.ltb (pure_key (λ x, x * 2) Nat.ltb) ∧
  Forall (λ p, sorted_wrt (is_lt Nat.compare) p ∨
               StronglySorted (λ a b, is_lt Nat.compare b a = true) p) ls ∧
  Forall (λ p, sorted_wrt (λ a b, a * 2 <? b * 2) p ∨
               StronglySorted (λ a b, (b * 2 <? a * 2) = true) p) ls ∧
  (let '(r, (_, tr), _) :=
     run (logged (pure_compare Nat.compare)) (sort_by cfg_release64 150) (tt, []) (concat ls) in
   r = Done tt ∧ length tr = 317) ∧
  (let '(r, (_, tr), _) :=
     run (logged (pure_compare Nat.compare)) (sort_by cfg_release64 150) (tt, [])
       (map (λ i, (i * 67) mod 151) (seq 1 150)) in
   r = Done tt ∧ length tr = 1030).
Proof.
  split; [intros [] [a b] r; simpl; congruence|].
  split; [split; intros []; simpl; congruence|].
  split; [|split; [|vm_compute; auto]].
  1: assert (∀ x y, x < y → is_lt Nat.compare y x = false ∧ is_lt Nat.compare x y = true) as H
    by (intros x y Hxy; unfold is_lt; destruct (Nat.compare_spec x y), (Nat.compare_spec y x); split; done || lia).
  2: assert (∀ x y, x < y → (y * 2 <? x * 2) = false ∧ (x * 2 <? y * 2) = true) as H
    by (intros x y Hxy; rewrite Nat.ltb_ge, Nat.ltb_lt; lia).
  all: apply Forall_cons; split; [left; apply seq_ascending; apply H|].
  all: apply Forall_cons; split; [right; apply (seq_descending _ 0 50); apply H|].
  all: apply Forall_cons; split; [left; apply seq_ascending; apply H|constructor].
Qed.
