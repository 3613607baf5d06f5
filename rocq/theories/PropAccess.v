(** * PropAccess: C57, memory is accessed a bounded number of times per call of the closure. *)
From Verif Require Import TAccessTop TPar Examples.
From stdpp Require Import list relations.

(** The stable sort. *)
Theorem sort_accesses :
  ∀ (T : Type) (c : cfg) (n : nat),
  accesses_bounded 16 (n + 2) (MApi.sort (T:=T) c n).
Proof. exact @sort_few. Qed.
Print Assumptions sort_accesses.
Theorem sort_by_accesses :
  ∀ (T : Type) (c : cfg) (n : nat),
  accesses_bounded 16 (n + 2) (sort_by (T:=T) c n).
Proof. exact @sort_by_few. Qed.
Print Assumptions sort_by_accesses.
Theorem sort_by_key_accesses :
  ∀ (T K : Type) (c : cfg) (n : nat),
  accesses_bounded 16 (n + 2) (sort_by_key (T:=T) (K:=K) c n).
Proof. exact @sort_by_key_few. Qed.
Print Assumptions sort_by_key_accesses.
(** The unstable sort. *)
Theorem sort_unstable_accesses :
  ∀ (T : Type) (c : cfg) (n : nat),
  accesses_bounded 16 (2 * n + 30) (sort_unstable (T:=T) c n).
Proof. exact @sort_unstable_few. Qed.
Print Assumptions sort_unstable_accesses.
Theorem sort_unstable_by_accesses :
  ∀ (T : Type) (c : cfg) (n : nat),
  accesses_bounded 16 (2 * n + 30) (sort_unstable_by (T:=T) c n).
Proof. exact @sort_unstable_by_few. Qed.
Print Assumptions sort_unstable_by_accesses.
Theorem sort_unstable_by_key_accesses :
  ∀ (T K : Type) (c : cfg) (n : nat),
  accesses_bounded 16 (2 * n + 30) (sort_unstable_by_key (T:=T) (K:=K) c n).
Proof. exact @sort_unstable_by_key_few. Qed.
Print Assumptions sort_unstable_by_key_accesses.
(** The selections. *)
Theorem select_nth_unstable_accesses :
  ∀ (T : Type) (c : cfg) (n index : nat),
  accesses_bounded 16 (2 * n + 30) (select_nth_unstable (T:=T) c n index).
Proof. exact @select_nth_unstable_few. Qed.
Print Assumptions select_nth_unstable_accesses.
Theorem select_nth_unstable_by_accesses :
  ∀ (T : Type) (c : cfg) (n index : nat),
  accesses_bounded 16 (2 * n + 30) (select_nth_unstable_by (T:=T) c n index).
Proof. exact @select_nth_unstable_by_few. Qed.
Print Assumptions select_nth_unstable_by_accesses.
Theorem select_nth_unstable_by_key_accesses :
  ∀ (T K : Type) (c : cfg) (n index : nat),
  accesses_bounded 16 (2 * n + 30) (select_nth_unstable_by_key (T:=T) (K:=K) c n index).
Proof. exact @select_nth_unstable_by_key_few. Qed.
Print Assumptions select_nth_unstable_by_key_accesses.
Theorem select_many_nth_unstable_accesses :
  ∀ (T : Type) (c : cfg) (n : nat) (indices : list nat),
  accesses_bounded 16 (2 * n + 30 + 4 * length indices) (select_many_nth_unstable (T:=T) c n indices).
Proof. exact @select_many_nth_unstable_few. Qed.
Print Assumptions select_many_nth_unstable_accesses.
Theorem select_many_nth_unstable_by_accesses :
  ∀ (T : Type) (c : cfg) (n : nat) (indices : list nat),
  accesses_bounded 16 (2 * n + 30 + 4 * length indices) (select_many_nth_unstable_by (T:=T) c n indices).
Proof. exact @select_many_nth_unstable_by_few. Qed.
Print Assumptions select_many_nth_unstable_by_accesses.
Theorem select_many_nth_unstable_by_key_accesses :
  ∀ (T K : Type) (c : cfg) (n : nat) (indices : list nat),
  accesses_bounded 16 (2 * n + 30 + 4 * length indices) (select_many_nth_unstable_by_key (T:=T) (K:=K) c n indices).
Proof. exact @select_many_nth_unstable_by_key_few. Qed.
Print Assumptions select_many_nth_unstable_by_key_accesses.
(** The parallel methods. *)
Theorem par_sort_accesses :
  ∀ (T : Type) (c : cfg) (take_item : nat → bool) (n : nat),
  accesses_bounded 16 (2 * n * (Nat.log2 n + 3) + 2) (par_sort (T:=T) c take_item n).
Proof. exact @par_sort_few. Qed.
Print Assumptions par_sort_accesses.
Theorem par_sort_by_accesses :
  ∀ (T : Type) (c : cfg) (take_item : nat → bool) (n : nat),
  accesses_bounded 16 (2 * n * (Nat.log2 n + 3) + 2) (par_sort_by (T:=T) c take_item n).
Proof. exact @par_sort_by_few. Qed.
Print Assumptions par_sort_by_accesses.
Theorem par_sort_by_key_accesses :
  ∀ (T K : Type) (c : cfg) (take_item : nat → bool) (n : nat),
  accesses_bounded 16 (2 * n * (Nat.log2 n + 3) + 2) (par_sort_by_key (T:=T) (K:=K) c take_item n).
Proof. exact @par_sort_by_key_few. Qed.
Print Assumptions par_sort_by_key_accesses.
Theorem par_sort_unstable_accesses :
  ∀ (T : Type) (c : cfg) (n : nat),
  accesses_bounded 16 (2 * n + 30) (par_sort_unstable (T:=T) c n).
Proof. exact @par_sort_unstable_few. Qed.
Print Assumptions par_sort_unstable_accesses.
Theorem par_sort_unstable_by_accesses :
  ∀ (T : Type) (c : cfg) (n : nat),
  accesses_bounded 16 (2 * n + 30) (par_sort_unstable_by (T:=T) c n).
Proof. exact @par_sort_unstable_by_few. Qed.
Print Assumptions par_sort_unstable_by_accesses.
Theorem par_sort_unstable_by_key_accesses :
  ∀ (T K : Type) (c : cfg) (n : nat),
  accesses_bounded 16 (2 * n + 30) (par_sort_unstable_by_key (T:=T) (K:=K) c n).
Proof. exact @par_sort_unstable_by_key_few. Qed.
Print Assumptions par_sort_unstable_by_key_accesses.
Theorem par_select_many_nth_unstable_accesses :
  ∀ (T : Type) (c : cfg) (n vlen : nat) (indices : list nat),
  accesses_bounded 16 (2 * n + 30 + 34 * length indices) (par_select_many_nth_unstable (T:=T) c n vlen indices).
Proof. exact @par_select_many_nth_unstable_few. Qed.
Print Assumptions par_select_many_nth_unstable_accesses.
Theorem par_select_many_nth_unstable_by_accesses :
  ∀ (T : Type) (c : cfg) (n vlen : nat) (indices : list nat),
  accesses_bounded 16 (2 * n + 30 + 34 * length indices) (par_select_many_nth_unstable_by (T:=T) c n vlen indices).
Proof. exact @par_select_many_nth_unstable_by_few. Qed.
Print Assumptions par_select_many_nth_unstable_by_accesses.
Theorem par_select_many_nth_unstable_by_key_accesses :
  ∀ (T K : Type) (c : cfg) (n vlen : nat) (indices : list nat),
  accesses_bounded 16 (2 * n + 30 + 34 * length indices) (par_select_many_nth_unstable_by_key (T:=T) (K:=K) c n vlen indices).
Proof. exact @par_select_many_nth_unstable_by_key_few. Qed.
Print Assumptions par_select_many_nth_unstable_by_key_accesses.
(** The sorts by a cached key access the array linearly often, whatever the keys. *)
Theorem sort_by_cached_key_accesses :
  ∀ (T K : Type) (c : cfg) (sz : sizes) (n : nat),
  accesses_bounded 0 (5 * n) (sort_by_cached_key (T:=T) (K:=K) c sz n).
Proof. exact @sort_by_cached_key_few. Qed.
Print Assumptions sort_by_cached_key_accesses.
Theorem par_sort_by_cached_key_accesses :
  ∀ (T K : Type) (c : cfg) (sz : sizes) (n : nat),
  accesses_bounded 0 (5 * n) (par_sort_by_cached_key (T:=T) (K:=K) c sz n).
Proof. exact @par_sort_by_cached_key_few. Qed.
Print Assumptions par_sort_by_cached_key_accesses.
(** The scans, and a check that stops early. *)
Theorem is_sorted_accesses :
  ∀ (T : Type) (n : nat),
  accesses_bounded 0 (2 * (n - 1)) (MSearch.is_sorted (T:=T) n).
Proof. exact @is_sorted_few. Qed.
Print Assumptions is_sorted_accesses.
Theorem is_sorted_by_key_accesses :
  ∀ (T K : Type) (n : nat),
  accesses_bounded 0 (2 * (n - 1)) (is_sorted_by_key (T:=T) (K:=K) n).
Proof. exact @is_sorted_by_key_few. Qed.
Print Assumptions is_sorted_by_key_accesses.
Theorem is_sorted_early_accesses :
  ∀ (T : Type) (n : nat),
  accesses_bounded 2 2 (MSearch.is_sorted (T:=T) n).
Proof. exact @is_sorted_early_few. Qed.
Print Assumptions is_sorted_early_accesses.
Theorem contains_accesses :
  ∀ (T : Type) (n : nat) (x : T),
  accesses_bounded 0 n (contains n x).
Proof. exact @contains_few. Qed.
Print Assumptions contains_accesses.
Theorem partition_dedup_by_accesses :
  ∀ (T : Type) (n : nat),
  accesses_bounded 0 (8 * (n - 1)) (partition_dedup_by (T:=T) n).
Proof. exact @partition_dedup_by_few. Qed.
Print Assumptions partition_dedup_by_accesses.
Theorem partition_dedup_accesses :
  ∀ (T : Type) (n : nat),
  accesses_bounded 0 (8 * (n - 1)) (partition_dedup (T:=T) n).
Proof. exact @partition_dedup_few. Qed.
Print Assumptions partition_dedup_accesses.
Theorem partition_dedup_by_key_accesses :
  ∀ (T K : Type) (n : nat),
  accesses_bounded 0 (8 * (n - 1)) (partition_dedup_by_key (T:=T) (K:=K) n).
Proof. exact @partition_dedup_by_key_few. Qed.
Print Assumptions partition_dedup_by_key_accesses.
(** The searches read one element per call. *)
Theorem binary_search_by_accesses :
  ∀ (T : Type) (c : cfg) (n : nat),
  accesses_bounded 1 1 (binary_search_by (T:=T) c n).
Proof. exact @binary_search_by_few. Qed.
Print Assumptions binary_search_by_accesses.
Theorem binary_search_accesses :
  ∀ (T : Type) (c : cfg) (n : nat) (x : T),
  accesses_bounded 1 1 (binary_search c n x).
Proof. exact @binary_search_few. Qed.
Print Assumptions binary_search_accesses.
Theorem binary_search_by_key_accesses :
  ∀ (T K : Type) (c : cfg) (n : nat) (k : K),
  accesses_bounded 1 1 (binary_search_by_key (T:=T) c n k).
Proof. exact @binary_search_by_key_few. Qed.
Print Assumptions binary_search_by_key_accesses.
Theorem partition_point_accesses :
  ∀ (T : Type) (c : cfg) (n : nat),
  accesses_bounded 1 1 (partition_point (T:=T) c n).
Proof. exact @partition_point_few. Qed.
Print Assumptions partition_point_accesses.

(** Every schedule has its counts. *)
Theorem schedules_have_counts :
  ∀ (T Q R A : Type) (ans : Q → R → Prop) (c c' : prog T Q R A * list T),
  rtc (stepm ans) c c' → ∃ a m, schedule_counts ans a m c c'.
Proof. exact @steps_counts. Qed.
Print Assumptions schedules_have_counts.
(** The schedule that a run follows, one task after the other, has the counts of the run. *)
Theorem runs_have_counts :
  ∀ (T Q R S A : Type) (ans : Q → R → Prop) (o : S → Q → R * S) (p : prog T Q R A) (s : S) (l : list T),
  (∀ s q, ans q (o s q).1) →
  let '(r, (s', tr), l') := run (logged o) p (s, []) l in
  run o p s l = (r, s', l') ∧
  ∃ p', schedule_counts ans (accesses o p s l) (length tr) (p, l) (p', l') ∧
    match r with
    | Done a => result p' = Some (inl a)
    | Panicked e => result p' = Some (inr e)
    | _ => True
    end.
Proof. exact @run_counts. Qed.
Print Assumptions runs_have_counts.

(** Sixty numbers: 872 accesses and 333 calls, 954 and 386, 325 and 137. *)
Example accesses_example :
  let l := map (λ i, (i * 37) mod 60) (seq 0 60) in
  let o := pure_compare Nat.compare in
  let calls := λ (A : Type) (p : prog nat (nat * nat) (option comparison) A),
    let '(_, (_, tr), _) := run (logged o) p (tt, []) l in length tr in
  accesses o (sort_by cfg_release64 60) tt l = 872 ∧ calls _ (sort_by cfg_release64 60) = 333 ∧
  accesses o (sort_unstable_by cfg_release64 60) tt l = 954 ∧ calls _ (sort_unstable_by cfg_release64 60) = 386 ∧
  accesses o (select_nth_unstable_by cfg_release64 60 17) tt l = 325 ∧
  calls _ (select_nth_unstable_by cfg_release64 60 17) = 137.
Proof. vm_compute. auto 10. Qed.

(** A closure that panics at its tenth call: the accesses up to then and the clean up. *)
Example accesses_panic_example :
  let o := λ (s : nat) (q : nat * nat), (if s =? 9 then None else Some (Nat.compare q.1 q.2), S s) in
  let l := rev (seq 0 12) in
  (run o (sort_by cfg_release64 12) 0 l).1.1 = Panicked UserPanic ∧
  accesses o (sort_by cfg_release64 12) 0 l = 35.
Proof. vm_compute. auto. Qed.

(** A schedule of the parallel sort with its counts. *)
Example schedule_counts_example :
  ∃ p' l', schedule_counts (ans_cmp Nat.compare) 1097 333
      (par_sort_by cfg_release64 (λ _, true) 60, map (λ i, (i * 37) mod 60) (seq 0 60) ++ repeat 0 60) (p', l') ∧
    result p' = Some (inl tt) ∧ take 5 l' = [0; 1; 2; 3; 4].
Proof.
  apply (run_counts_done _ (pure_compare Nat.compare) _ tt _ _ _ _ (λ l', take 5 l' = [0; 1; 2; 3; 4])).
  - by intros s [x y].
  - vm_compute. auto.
  - vm_compute. auto.
Qed.

(** A repetition every third element, a hit at the fourth and a search in sixty elements. *)
Example linear_accesses_example :
  let eq := λ (_ : unit) (q : nat * nat), (Some (q.1 =? q.2), tt) in
  let l := [1; 1; 2; 3; 3; 3; 4; 5; 5] in
  accesses eq (partition_dedup 9) tt l = 48 ∧ accesses eq (contains 9 3) tt l = 4 ∧
  accesses (λ (_ : unit) (x : nat), (Some (x <? 10), tt)) (partition_point cfg_release64 60) tt (seq 0 60) = 6.
Proof. vm_compute. auto. Qed.

(** With the bounds on the calls: the total work. *)
Theorem sort_by_accesses_n_log_n :
  ∀ (T S : Type) (c : cfg) (o : S → T * T → option comparison * S) (s : S) (l : list T),
  accesses o (sort_by c (length l)) s l ≤
    16 * (20 * length l * (Nat.log2 (length l) + 1)) + (length l + 2).
Proof. exact @sort_by_accesses_total. Qed.
Print Assumptions sort_by_accesses_n_log_n.
Theorem sort_unstable_by_accesses_n_log_n :
  ∀ (T S : Type) (c : cfg) (cmp : T → T → comparison)
    (o : S → T * T → option comparison * S) (s : S) (l : list T),
  strict_weak_order (is_lt cmp) → answers_as cmp o →
  accesses o (sort_unstable_by c (length l)) s l ≤
    16 * (340 * length l * (Nat.log2 (length l) + 1)) + (2 * length l + 30).
Proof. exact @sort_unstable_by_accesses_total. Qed.
Print Assumptions sort_unstable_by_accesses_n_log_n.
Theorem sort_unstable_by_accesses_any :
  ∀ (T S : Type) (c : cfg) (o : S → T * T → option comparison * S) (s : S) (l : list T),
  accesses o (sort_unstable_by c (length l)) s l ≤
    16 * (13 * (length l * length l) + 20 * length l) + (2 * length l + 30).
Proof. exact @sort_unstable_by_accesses_quadratic. Qed.
Print Assumptions sort_unstable_by_accesses_any.
Theorem par_sort_by_accesses_n_log_n :
  ∀ (T : Type) (c : cfg) (take_item : nat → bool) (ans : T * T → option comparison → Prop)
    (l junk : list T) (a m : nat) (c' : prog T (T * T) (option comparison) unit * list T),
  schedule_counts ans a m (par_sort_by c take_item (length l), l ++ junk) c' →
  a ≤ 16 * (20 * length l * (Nat.log2 (length l) + 1)) + (2 * length l * (Nat.log2 (length l) + 3) + 2).
Proof. exact @par_sort_by_accesses_total. Qed.
Print Assumptions par_sort_by_accesses_n_log_n.
Theorem select_nth_unstable_by_accesses_linear :
  ∀ (c : cfg) (M : nat),
  ∃ K, ∀ (T : Type) (cmp : T → T → comparison) (l : list T) (index : nat),
    strict_weak_order (is_lt cmp) →
    (∀ x, In x l → length (List.filter (λ y, negb (is_lt cmp x y) && negb (is_lt cmp y x)) l) ≤ M) →
    accesses (pure_compare cmp) (select_nth_unstable_by c (length l) index) tt l ≤ K * length l + 30.
Proof. exact select_accesses_linear. Qed.
Print Assumptions select_nth_unstable_by_accesses_linear.
