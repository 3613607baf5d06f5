(** * C67: the documented uses of [partition_point] and [binary_search]. *)
From Verif Require Import TRecipe.
From stdpp Require Import list.

(** C67.  The whole range of elements equal to [v] lies between the partition points of
    [x < v] and [x <= v], and the binary search returns an index of this range, or where
    it would be. *)
Theorem partition_points_bound_equal_range :
  ∀ (T : Type) (c : cfg) (cmp : T → T → comparison) (v : T) (l : list T),
  ord_compare cmp → sorted_wrt (is_lt cmp) l →
  ∃ low high r,
    run (pure_fun (λ x, is_lt cmp x v)) (partition_point c (length l)) tt l = (Done low, tt, l) ∧
    run (pure_fun (λ x, is_le cmp x v)) (partition_point c (length l)) tt l = (Done high, tt, l) ∧
    run (pure_compare cmp) (binary_search c (length l) v) tt l = (Done r, tt, l) ∧
    low ≤ high ≤ length l ∧
    Forall (λ x, cmp x v = Lt) (take low l) ∧
    Forall (λ x, cmp x v = Eq) (take (high - low) (drop low l)) ∧
    Forall (λ x, cmp x v = Gt) (drop high l) ∧
    match r with
    | Found i => low ≤ i < high
    | Missing i => low = high ∧ i = low
    end.
Proof. exact @equal_range. Qed.
Print Assumptions partition_points_bound_equal_range.

(** Inserting [v] at one of the partition points or at the index returned by the binary
    search keeps the array sorted.  [insert_at] is [Vec::insert] and [position_of] is
    [unwrap_or_else(|x| x)]. *)
Theorem insertion_maintains_order :
  ∀ (T : Type) (c : cfg) (cmp : T → T → comparison) (v : T) (l : list T),
  ord_compare cmp → sorted_wrt (is_lt cmp) l →
  ∃ low high r,
    run (pure_fun (λ x, is_lt cmp x v)) (partition_point c (length l)) tt l = (Done low, tt, l) ∧
    run (pure_fun (λ x, is_le cmp x v)) (partition_point c (length l)) tt l = (Done high, tt, l) ∧
    run (pure_compare cmp) (binary_search c (length l) v) tt l = (Done r, tt, l) ∧
    sorted_wrt (is_lt cmp) (insert_at low v l) ∧
    sorted_wrt (is_lt cmp) (insert_at high v l) ∧
    sorted_wrt (is_lt cmp) (insert_at (position_of r) v l) ∧
    (match r with Found _ => False | Missing _ => True end → position_of r = low).
Proof. exact @insertion_keeps_sorted. Qed.
Print Assumptions insertion_maintains_order.

(** If only [v] itself compares equal to [v], the two ways give the same array, ... *)
Theorem insertion_points_agree :
  ∀ (T : Type) (c : cfg) (cmp : T → T → comparison) (v : T) (l : list T),
  ord_compare cmp → sorted_wrt (is_lt cmp) l →
  (∀ x, cmp x v = Eq → x = v) →
  ∃ low r,
    run (pure_fun (λ x, is_lt cmp x v)) (partition_point c (length l)) tt l = (Done low, tt, l) ∧
    run (pure_compare cmp) (binary_search c (length l) v) tt l = (Done r, tt, l) ∧
    insert_at low v l = insert_at (position_of r) v l.
Proof. exact @insertions_agree. Qed.
Print Assumptions insertion_points_agree.

(** ... although the indices differ in general. *)
Theorem insertion_indices_differ :
  ∃ (v : nat) (l : list nat) (low i : nat),
  sorted_wrt (is_lt Nat.compare) l ∧
  (∀ c, run (pure_fun (λ x, is_lt Nat.compare x v)) (partition_point c (length l)) tt l =
          (Done low, tt, l) ∧
        run (pure_compare Nat.compare) (binary_search c (length l) v) tt l = (Done (Found i), tt, l)) ∧
  low ≠ i.
Proof. exact indices_differ. Qed.
Print Assumptions insertion_indices_differ.

Example recipes_meet_hypotheses :
  ord_compare Nat.compare ∧
  sorted_wrt (is_lt Nat.compare) [0;1;1;1;1;2;3;5;8;13;21;34;55] ∧
  (∀ x, Nat.compare x 1 = Eq → x = 1) ∧
  run (pure_fun (λ x, is_lt Nat.compare x 1)) (partition_point cfg_release64 13) tt
    [0;1;1;1;1;2;3;5;8;13;21;34;55] = (Done 1, tt, [0;1;1;1;1;2;3;5;8;13;21;34;55]) ∧
  run (pure_fun (λ x, is_le Nat.compare x 1)) (partition_point cfg_release64 13) tt
    [0;1;1;1;1;2;3;5;8;13;21;34;55] = (Done 5, tt, [0;1;1;1;1;2;3;5;8;13;21;34;55]).
Proof. exact recipe_example. Qed.
