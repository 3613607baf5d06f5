(** * C72: the stable sorts on nearly sorted arrays. *)
From Verif Require Import TNearly CKey CQuick TPar Examples.

(** The array [l] is a sorted or strictly descending one, [l0], in which [length changes]
    places have been overwritten.  The closure answers as [cmp] does or panics. *)
Theorem sort_by_nearly_sorted :
  ∀ (T S : Type) (c : cfg) (cmp : T → T → comparison) (o : S → T * T → option comparison * S)
    (s : S) (l0 : list T) (changes : list (nat * T)),
  answers_as cmp o →
  sorted_wrt (is_lt cmp) l0 ∨ StronglySorted (λ a b, is_lt cmp b a = true) l0 →
  let l := fold_right (λ c l, <[c.1 := c.2]> l) l0 changes in
  let '(_, (_, tr), _) := run (logged o) (sort_by c (length l)) (s, []) l in
  length tr ≤ (8 * Nat.log2 (2 * length changes + 1) + 70) * length l.
Proof. exact @sort_by_nearly. Qed.
Print Assumptions sort_by_nearly_sorted.

(** The same for the parallel sort, in every schedule. *)
Theorem par_sort_by_nearly_sorted :
  ∀ (T : Type) (c : cfg) (take_item : nat → bool) (cmp : T → T → comparison)
    (ans : T * T → option comparison → Prop) (l0 : list T) (changes : list (nat * T))
    (junk : list T) (m : nat) (st : prog T (T * T) (option comparison) unit * list T),
  (∀ q, ∃ r, ans q r) →
  (∀ x y r, ans (x, y) (Some r) → r = cmp x y) →
  sorted_wrt (is_lt cmp) l0 ∨ StronglySorted (λ a b, is_lt cmp b a = true) l0 →
  let l := fold_right (λ c l, <[c.1 := c.2]> l) l0 changes in
  length junk = length l →
  calls_made ans m (par_sort_by c take_item (length l), l ++ junk) st →
  m ≤ (2 * Nat.log2 (2 * length changes + 1) + 130) * length l.
Proof. exact @par_sort_by_nearly. Qed.
Print Assumptions par_sort_by_nearly_sorted.

(** The same for a key function [f] and the order [ltk] of the keys. *)
Theorem sort_by_key_nearly_sorted :
  ∀ (T K S : Type) (c : cfg) (f : T → K) (ltk : K → K → bool)
    (o : S → key_question (T:=T) K → key_answer K * S) (s : S) (l0 : list T)
    (changes : list (nat * T)),
  answers_as_key f ltk o →
  sorted_wrt (λ a b, ltk (f a) (f b)) l0 ∨ StronglySorted (λ a b, ltk (f b) (f a) = true) l0 →
  let l := fold_right (λ c l, <[c.1 := c.2]> l) l0 changes in
  let '(_, (_, tr), _) := run (logged o) (sort_by_key c (length l)) (s, []) l in
  key_calls tr ≤ (16 * Nat.log2 (2 * length changes + 1) + 140) * length l.
Proof. exact @sort_by_key_nearly. Qed.
Print Assumptions sort_by_key_nearly_sorted.

Theorem par_sort_by_key_nearly_sorted :
  ∀ (T K : Type) (c : cfg) (take_item : nat → bool) (f : T → K) (ltk : K → K → bool)
    (ans : key_question (T:=T) K → key_answer K → Prop) (l0 : list T)
    (changes : list (nat * T)) (junk : list T) (m : nat)
    (st : prog T (key_question K) (key_answer K) unit * list T),
  (∀ q, ∃ r, ans q r) →
  (∀ a k, ans (KeyOf a) (AKey k) → k = f a) →
  (∀ k1 k2 b, ans (KeyLt k1 k2) (ABool b) → b = ltk k1 k2) →
  sorted_wrt (λ a b, ltk (f a) (f b)) l0 ∨ StronglySorted (λ a b, ltk (f b) (f a) = true) l0 →
  let l := fold_right (λ c l, <[c.1 := c.2]> l) l0 changes in
  length junk = length l →
  calls_made ans m (par_sort_by_key c take_item (length l), l ++ junk) st →
  m ≤ 3 * ((2 * Nat.log2 (2 * length changes + 1) + 130) * length l).
Proof. exact @par_sort_by_key_nearly. Qed.
Print Assumptions par_sort_by_key_nearly_sorted.

(** Sixty elements in order but for two. *)
Example nearly_sorted_example :
  let changes := [(20, 7); (40, 49)] in
  let l := fold_right (λ c l, <[c.1 := c.2]> l) (seq 0 60) changes in
  answers_as Nat.compare (pure_compare Nat.compare) ∧
  sorted_wrt (is_lt Nat.compare) (seq 0 60) ∧
  (∀ q : nat * nat, ∃ r, r = (pure_compare Nat.compare tt q).1) ∧
  (let '(r, (_, tr), m) :=
     run (logged (pure_compare Nat.compare)) (sort_by cfg_release64 60) (tt, []) l in
   r = Done tt ∧ length tr = 100 ∧ take 12 m = [0; 1; 2; 3; 4; 5; 6; 7; 7; 8; 9; 10]).
Proof.
  split; [intros [] [a b] r; simpl; congruence|].
  split; [apply seq_ascending; intros x y Hxy; unfold is_lt; destruct (Nat.compare_spec y x); done || lia|].
  split; [intros q; eexists; reflexivity|]. vm_compute. auto.
Qed.

(** The same with twice the elements as keys. *)
Example nearly_sorted_key_example :
  let f := λ x, x * 2 in
  let l := fold_right (λ c l, <[c.1 := c.2]> l) (seq 0 60) [(20, 7); (40, 49)] in
  answers_as_key f Nat.ltb (pure_key f Nat.ltb) ∧
  sorted_wrt (λ a b, f a <? f b) (seq 0 60) ∧
  (let '(r, (_, tr), m) := run (logged (pure_key f Nat.ltb)) (sort_by_key cfg_release64 60) (tt, []) l in
   r = Done tt ∧ key_calls tr = 200 ∧ take 12 m = [0; 1; 2; 3; 4; 5; 6; 7; 7; 8; 9; 10]).
Proof.
  split; [split; intros []; simpl; congruence|].
  split; [apply seq_ascending; intros x y Hxy; apply Nat.ltb_ge; lia|]. vm_compute. auto.
Qed.

(** A schedule of each parallel sort for the same array. *)
Example par_nearly_sorted_example :
  let l := fold_right (λ c l, <[c.1 := c.2]> l) (seq 0 60) [(20, 7); (40, 49)] in
  let ans := λ q r, r = (pure_compare Nat.compare tt q).1 in
  (∀ q, ∃ r, ans q r) ∧ (∀ x y r, ans (x, y) (Some r) → r = Nat.compare x y) ∧
  ∃ p' m', result p' = Some (inl tt) ∧
    calls_made ans 100
      (par_sort_by cfg_debug64 (λ _, true) (length l), l ++ repeat 0 60) (p', m') ∧
    take 12 m' = [0; 1; 2; 3; 4; 5; 6; 7; 7; 8; 9; 10].
Proof.
  intros l ans. split; [by eexists|]. split; [unfold ans; simpl; congruence|].
  pose proof (run_calls_made ans (pure_compare Nat.compare)
    (par_sort_by cfg_debug64 (λ _, true) 60) ltac:(by intros [] q) tt [] (l ++ repeat 0 60)) as H.
  assert (let '(r, (_, tr), m) := run (logged (pure_compare Nat.compare))
      (par_sort_by cfg_debug64 (λ _, true) 60) (tt, []) (l ++ repeat 0 60) in
    (r, length tr, take 12 m) = (Done tt, 100, [0; 1; 2; 3; 4; 5; 6; 7; 7; 8; 9; 10])) as H'
    by (vm_compute; auto).
  destruct (run _ _ _ _) as [[r [s tr]] m']. destruct H as (m & p' & Hm & Hc & Hr).
  injection H' as -> Htr Ht. exists p', m'. replace m with 100 in Hc by (simpl in Hm; lia).
  repeat split; done.
Qed.
Example par_nearly_sorted_key_example :
  let f := λ x, x * 2 in
  let l := fold_right (λ c l, <[c.1 := c.2]> l) (seq 0 60) [(20, 7); (40, 49)] in
  let ans := λ q r, r = (pure_key f Nat.ltb tt q).1 in
  (∀ q, ∃ r, ans q r) ∧ (∀ a k, ans (KeyOf a) (AKey k) → k = f a) ∧
  (∀ k1 k2 b, ans (KeyLt k1 k2) (ABool b) → b = (k1 <? k2)) ∧
  ∃ p' m', result p' = Some (inl tt) ∧
    calls_made ans 300
      (par_sort_by_key cfg_debug64 (λ _, true) (length l), l ++ repeat 0 60) (p', m') ∧
    take 12 m' = [0; 1; 2; 3; 4; 5; 6; 7; 7; 8; 9; 10].
Proof.
  intros f l ans. split; [by eexists|]. split; [unfold ans; simpl; congruence|].
  split; [unfold ans; simpl; congruence|].
  pose proof (run_calls_made ans (pure_key f Nat.ltb)
    (par_sort_by_key cfg_debug64 (λ _, true) 60) ltac:(by intros [] q) tt [] (l ++ repeat 0 60)) as H.
  assert (let '(r, (_, tr), m) := run (logged (pure_key f Nat.ltb))
      (par_sort_by_key cfg_debug64 (λ _, true) 60) (tt, []) (l ++ repeat 0 60) in
    (r, length tr, take 12 m) = (Done tt, 300, [0; 1; 2; 3; 4; 5; 6; 7; 7; 8; 9; 10])) as H'
    by (vm_compute; auto).
  destruct (run _ _ _ _) as [[r [s tr]] m']. destruct H as (m & p' & Hm & Hc & Hr).
  injection H' as -> Htr Ht. exists p', m'. replace m with 300 in Hc by (simpl in Hm; lia).
  repeat split; done.
Qed.
