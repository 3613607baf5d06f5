(** * C54: number of calls of the key function made by the key variants. *)
From Verif Require Import CKey TPar Examples.

(** C54.  The stable sort, whatever the closure answers, also if it panics or the
    keys are not ordered.  [key_calls tr] counts the calls of the key function,
    the other entries of [tr] are comparisons of keys. *)
Theorem sort_by_key_calls_n_log_n :
  ∀ (T K S : Type) (o : S → key_question (T:=T) K → key_answer K * S)
    (c : cfg) (s : S) (l : list T),
  let '(_, (_, tr), _) := run (logged o) (sort_by_key c (length l)) (s, []) l in
  key_calls tr ≤ 40 * length l * (Nat.log2 (length l) + 1) ∧
  length tr ≤ 60 * length l * (Nat.log2 (length l) + 1).
Proof. exact @sort_by_key_cost. Qed.
Print Assumptions sort_by_key_calls_n_log_n.

(** The unstable sort, for every closure that answers by a key function [f] and a
    strict weak order [ltk] of the keys, or panics. *)
Theorem sort_unstable_by_key_calls_n_log_n :
  ∀ (T K S : Type) (o : S → key_question (T:=T) K → key_answer K * S)
    (c : cfg) (f : T → K) (ltk : K → K → bool) (s : S) (l : list T),
  strict_weak_order (λ a b, ltk (f a) (f b)) → answers_as_key f ltk o →
  let '(_, (_, tr), _) := run (logged o) (sort_unstable_by_key c (length l)) (s, []) l in
  key_calls tr ≤ 680 * length l * (Nat.log2 (length l) + 1) ∧
  length tr ≤ 1020 * length l * (Nat.log2 (length l) + 1).
Proof. exact @sort_unstable_by_key_cost. Qed.
Print Assumptions sort_unstable_by_key_calls_n_log_n.

(** The parallel stable sort, all tasks together, in every schedule and for all
    answers: [m] counts the calls of the key function and of the comparison. *)
Theorem par_sort_by_key_calls_n_log_n :
  ∀ (T K : Type) (c : cfg) (take_item : nat → bool)
    (ans : key_question (T:=T) K → key_answer K → Prop) (l junk : list T) (m : nat)
    (c' : prog T (key_question K) (key_answer K) unit * list T),
  calls_made ans m (par_sort_by_key c take_item (length l), l ++ junk) c' →
  m ≤ 60 * length l * (Nat.log2 (length l) + 1).
Proof. exact @par_sort_by_key_cost. Qed.
Print Assumptions par_sort_by_key_calls_n_log_n.

(** The selection, if no key occurs more than [M] times (without this the claim is
    refuted, C37). *)
Theorem select_nth_unstable_by_key_calls_linear :
  ∀ (c : cfg) (M : nat),
  ∃ C, ∀ (T K : Type) (f : T → K) (ltk : K → K → bool) (l : list T) (index : nat),
    strict_weak_order (λ a b, ltk (f a) (f b)) →
    (∀ x, In x l → length (List.filter
       (λ y, negb (ltk (f x) (f y)) && negb (ltk (f y) (f x))) l) ≤ M) →
    let '(_, (_, tr), _) :=
      run (logged (pure_key f ltk)) (select_nth_unstable_by_key c (length l) index) (tt, []) l in
    key_calls tr ≤ C * length l ∧ length tr ≤ 2 * C * length l.
Proof. exact select_by_key_cost. Qed.
Print Assumptions select_nth_unstable_by_key_calls_linear.

(** The calls of the key function are two per comparison: whatever the program, the
    closure and its state, the key variant ends like the [_by] variant with the
    comparator [|a, b| f(a).cmp(&f(b))], and makes at most twice as many calls of the
    key function as that variant makes calls of the comparator. *)
Theorem sort_by_key_calls_twice :
  ∀ (T K S : Type) (o : S → key_question (T:=T) K → key_answer K * S)
    (c : cfg) (n : nat) (s : S) (l : list T),
  let '(r, (s', trk), l') := run (logged o) (sort_by_key c n) (s, []) l in
  let '(r2, (s2, trc), l2) := run (logged (compare_of_key o)) (sort_by c n) (s, []) l in
  r = r2 ∧ s' = s2 ∧ l' = l2 ∧
  key_calls trk ≤ 2 * length trc ∧ length trk ≤ 3 * length trc.
Proof. exact @sort_by_key_twice. Qed.
Print Assumptions sort_by_key_calls_twice.
Theorem sort_unstable_by_key_calls_twice :
  ∀ (T K S : Type) (o : S → key_question (T:=T) K → key_answer K * S)
    (c : cfg) (n : nat) (s : S) (l : list T),
  let '(r, (s', trk), l') := run (logged o) (sort_unstable_by_key c n) (s, []) l in
  let '(r2, (s2, trc), l2) := run (logged (compare_of_key o)) (sort_unstable_by c n) (s, []) l in
  r = r2 ∧ s' = s2 ∧ l' = l2 ∧
  key_calls trk ≤ 2 * length trc ∧ length trk ≤ 3 * length trc.
Proof. exact @sort_unstable_by_key_twice. Qed.
Print Assumptions sort_unstable_by_key_calls_twice.
Theorem select_nth_unstable_by_key_calls_twice :
  ∀ (T K S : Type) (o : S → key_question (T:=T) K → key_answer K * S)
    (c : cfg) (n index : nat) (s : S) (l : list T),
  let '(r, (s', trk), l') := run (logged o) (select_nth_unstable_by_key c n index) (s, []) l in
  let '(r2, (s2, trc), l2) :=
    run (logged (compare_of_key o)) (select_nth_unstable_by c n index) (s, []) l in
  r = r2 ∧ s' = s2 ∧ l' = l2 ∧
  key_calls trk ≤ 2 * length trc ∧ length trk ≤ 3 * length trc.
Proof. exact @select_nth_unstable_by_key_twice. Qed.
Print Assumptions select_nth_unstable_by_key_calls_twice.

(** Thirty numbers by their last digit (the key function), keys compared by [<]. *)
Example key_calls_example :
  let f := λ x, x mod 10 in
  strict_weak_order (λ a b, f a <? f b) ∧
  answers_as_key f Nat.ltb (pure_key f Nat.ltb) ∧
  (∀ x, In x (seq 7 30) →
     length (List.filter (λ y, negb (f x <? f y) && negb (f y <? f x)) (seq 7 30)) ≤ 3) ∧
  (let '(r, (_, tr), m) := run (logged (pure_key f Nat.ltb)) (sort_by_key cfg_release64 30) (tt, []) (seq 7 30) in
   r = Done tt ∧ take 4 m = [10; 20; 30; 11] ∧ key_calls tr = 274 ∧ length tr = 411) ∧
  (let '(r, (_, tr), _) := run (logged (pure_key f Nat.ltb)) (sort_unstable_by_key cfg_release64 30) (tt, []) (seq 7 30) in
   r = Done tt ∧ key_calls tr = 316 ∧ length tr = 474) ∧
  (let '(_, (_, tr), _) := run (logged (pure_key f Nat.ltb)) (select_nth_unstable_by_key cfg_release64 30 11) (tt, []) (seq 7 30) in
   key_calls tr = 102 ∧ length tr = 153).
Proof.
  intros f. split.
  { split; intros *; rewrite ?Nat.ltb_lt, ?Nat.ltb_ge; lia. }
  split. { split; simpl; congruence. }
  split. { intros x Hx. simpl in Hx. repeat (destruct Hx as [<-|Hx]; [vm_compute; lia|]). done. }
  vm_compute. auto 10.
Qed.

(** A schedule of the parallel sort of sixty numbers by their last digit. *)
Example par_key_calls_example :
  let f := λ x, x mod 10 in
  ∃ p' m', result p' = Some (inl tt) ∧
    calls_made (λ q r, r = (pure_key f Nat.ltb tt q).1) 993
      (par_sort_by_key cfg_debug64 (λ _, true) (length (seq 7 60)), seq 7 60 ++ repeat 0 60) (p', m') ∧
    take 8 m' = [10; 20; 30; 40; 50; 60; 11; 21].
Proof.
  intros f.
  pose proof (run_calls_made (λ q r, r = (pure_key f Nat.ltb tt q).1) (pure_key f Nat.ltb)
    (par_sort_by_key cfg_debug64 (λ _, true) 60) ltac:(by intros [] q) tt [] (seq 7 60 ++ repeat 0 60)) as H.
  assert (let '(r, (_, tr), m) := run (logged (pure_key f Nat.ltb))
      (par_sort_by_key cfg_debug64 (λ _, true) 60) (tt, []) (seq 7 60 ++ repeat 0 60) in
    r = Done tt ∧ length tr = 993 ∧ take 8 m = [10; 20; 30; 40; 50; 60; 11; 21]) as H'
    by (vm_compute; auto).
  destruct (run _ _ _ _) as [[r [s tr]] m']. destruct H as (m & p' & Hm & Hc & Hr).
  destruct H' as (-> & Htr & Ht). exists p', m'. replace m with 993 in Hc by (simpl in Hm; lia).
  repeat split; done.
Qed.
