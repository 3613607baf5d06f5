(** * C72: the stable sorts on a sorted array with elements appended. *)
From Verif Require Import TNearly CQuick TPar Examples.

(** [l0] is sorted or strictly descending, [new] is arbitrary.  The closure answers as
    [cmp] does or panics. *)
Theorem sort_by_appended :
  ∀ (T S : Type) (c : cfg) (cmp : T → T → comparison) (o : S → T * T → option comparison * S)
    (s : S) (l0 new : list T),
  answers_as cmp o →
  sorted_wrt (is_lt cmp) l0 ∨ StronglySorted (λ a b, is_lt cmp b a = true) l0 →
  let l := l0 ++ new in
  let '(_, (_, tr), _) := run (logged o) (sort_by c (length l)) (s, []) l in
  length tr ≤ (8 * Nat.log2 (length new + 1) + 70) * length l.
Proof. exact @sort_by_append. Qed.
Print Assumptions sort_by_appended.

(** The same for the parallel sort, in every schedule. *)
Theorem par_sort_by_appended :
  ∀ (T : Type) (c : cfg) (take_item : nat → bool) (cmp : T → T → comparison)
    (ans : T * T → option comparison → Prop) (l0 new junk : list T) (m : nat)
    (st : prog T (T * T) (option comparison) unit * list T),
  (∀ q, ∃ r, ans q r) →
  (∀ x y r, ans (x, y) (Some r) → r = cmp x y) →
  sorted_wrt (is_lt cmp) l0 ∨ StronglySorted (λ a b, is_lt cmp b a = true) l0 →
  let l := l0 ++ new in
  length junk = length l →
  calls_made ans m (par_sort_by c take_item (length l), l ++ junk) st →
  m ≤ (2 * Nat.log2 (length new + 1) + 130) * length l.
Proof. exact @par_sort_by_append. Qed.
Print Assumptions par_sort_by_appended.

(** Three elements appended to fifty-seven. *)
Example appended_example :
  let l := seq 0 57 ++ [30; 7; 9] in
  let ans := λ q r, r = (pure_compare Nat.compare tt q).1 in
  answers_as Nat.compare (pure_compare Nat.compare) ∧
  sorted_wrt (is_lt Nat.compare) (seq 0 57) ∧
  (∀ q, ∃ r, ans q r) ∧ (∀ x y r, ans (x, y) (Some r) → r = Nat.compare x y) ∧
  ∃ n p' m', result p' = Some (inl tt) ∧ 0 < n ∧
    calls_made ans n
      (par_sort_by cfg_debug64 (λ _, true) (length l), l ++ repeat 0 60) (p', m') ∧
    take 12 m' = [0; 1; 2; 3; 4; 5; 6; 7; 7; 8; 9; 9].
Proof.
  intros l ans. split; [intros [] [a b] r; simpl; congruence|].
  split; [apply seq_ascending; intros x y Hxy; unfold is_lt; destruct (Nat.compare_spec y x); done || lia|].
  split; [by eexists|]. split; [unfold ans; simpl; congruence|].
  pose proof (run_calls_made ans (pure_compare Nat.compare)
    (par_sort_by cfg_debug64 (λ _, true) 60) ltac:(by intros [] q) tt [] (l ++ repeat 0 60)) as H.
  assert (let '(r, (_, tr), m) := run (logged (pure_compare Nat.compare))
      (par_sort_by cfg_debug64 (λ _, true) 60) (tt, []) (l ++ repeat 0 60) in
    (r, 0 <? length tr, take 12 m) = (Done tt, true, [0; 1; 2; 3; 4; 5; 6; 7; 7; 8; 9; 9])) as H'
    by (vm_compute; auto).
  destruct (run _ _ _ _) as [[r [s tr]] m']. destruct H as (m & p' & Hm & Hc & Hr).
  injection H' as -> Htr Ht. apply Nat.ltb_lt in Htr. exists m, p', m'.
  repeat split; try done. simpl in Hm. lia.
Qed.
