(** * C18-C25: searching, deduplicating, reversing, scanning. *)
From Verif Require Import TSearch.
From stdpp Require Import list.

(** C18.  [pure_fun f] is the closure that computes [f]. *)
Theorem binary_search_by_monotone_correct :
  ∀ (T : Type) (c : cfg) (f : T → comparison) (l1 l2 l3 : list T),
  Forall (λ x, f x = Lt) l1 → Forall (λ x, f x = Eq) l2 → Forall (λ x, f x = Gt) l3 →
  ∃ r, run (pure_fun f) (binary_search_by c (length (l1 ++ l2 ++ l3))) tt (l1 ++ l2 ++ l3) =
         (Done r, tt, l1 ++ l2 ++ l3) ∧
    match r with
    | Found i => length l1 ≤ i < length l1 + length l2
    | Missing i => l2 = [] ∧ i = length l1
    end.
Proof. exact @binary_search_by_exact. Qed.
Print Assumptions binary_search_by_monotone_correct.

(** ... and for the [binary_search] and [binary_search_by_key] entry points on
    sorted arrays. *)
Theorem binary_search_correct :
  ∀ (T : Type) (c : cfg) (cmp : T → T → comparison) (x : T) (l : list T),
  ord_compare cmp → sorted_wrt (is_lt cmp) l →
  ∃ r, run (pure_compare cmp) (binary_search c (length l) x) tt l = (Done r, tt, l) ∧
    match r with
    | Found i => ∃ y, l !! i = Some y ∧ cmp y x = Eq
    | Missing i => i ≤ length l ∧ Forall (λ y, cmp y x = Lt) (take i l) ∧
                   Forall (λ y, cmp y x = Gt) (drop i l)
    end.
Proof. exact @binary_search_sorted. Qed.
Print Assumptions binary_search_correct.

Theorem binary_search_by_key_correct :
  ∀ (T : Type) (c : cfg) (K : Type) (f : T → K) (cmp : K → K → comparison) (b : K) (l : list T),
  ord_compare cmp → sorted_wrt (λ x y, is_lt cmp (f x) (f y)) l →
  ∃ r, run (pure_keyc f cmp) (binary_search_by_key c (length l) b) tt l = (Done r, tt, l) ∧
    match r with
    | Found i => ∃ y, l !! i = Some y ∧ cmp (f y) b = Eq
    | Missing i => i ≤ length l ∧ Forall (λ y, cmp (f y) b = Lt) (take i l) ∧
                   Forall (λ y, cmp (f y) b = Gt) (drop i l)
    end.
Proof. exact @binary_search_by_key_sorted. Qed.
Print Assumptions binary_search_by_key_correct.

Example binary_search_by_example :
  Forall (λ x, Nat.compare x 7 = Lt) [1; 2; 5] ∧ Forall (λ x, Nat.compare x 7 = Eq) [7; 7] ∧
  Forall (λ x, Nat.compare x 7 = Gt) [8] ∧
  run (pure_fun (λ x, Nat.compare x 7)) (binary_search_by cfg_debug64 6) tt [1; 2; 5; 7; 7; 8] =
    (Done (Found 3), tt, [1; 2; 5; 7; 7; 8]) ∧
  run (pure_fun (λ x, Nat.compare x 6)) (binary_search_by cfg_debug64 6) tt [1; 2; 5; 7; 7; 8] =
    (Done (Missing 3), tt, [1; 2; 5; 7; 7; 8]).
Proof. repeat split; repeat constructor. Qed.

Example binary_search_example :
  ord_compare digit_cmp ∧ sorted_wrt (is_lt digit_cmp) [20; 1; 2; 42; 5] ∧
  run (pure_compare digit_cmp) (binary_search cfg_release64 5 12) tt [20; 1; 2; 42; 5] =
    (Done (Found 2), tt, [20; 1; 2; 42; 5]).
Proof. split; [exact digit_ord_compare|]. repeat split; repeat constructor. Qed.

(** Numbers sorted by their last digit (the key); searching for digit 2 and 4. *)
Example binary_search_by_key_example :
  let l := [20; 1; 2; 42; 5] in
  ord_compare Nat.compare ∧ sorted_wrt (λ x y, is_lt Nat.compare (x mod 10) (y mod 10)) l ∧
  run (pure_keyc (λ x, x mod 10) Nat.compare) (binary_search_by_key cfg_release64 5 2) tt l =
    (Done (Found 2), tt, l) ∧
  run (pure_keyc (λ x, x mod 10) Nat.compare) (binary_search_by_key cfg_release64 5 4) tt l =
    (Done (Missing 4), tt, l).
Proof. split; [exact nat_ord_compare|]. repeat split; repeat constructor. Qed.

(** C19: any closure [o], with state and panics; [tr] is the log of its calls and
    answers.  For a [Missing] result the log even contains the two answers that
    justify the position. *)
Theorem binary_search_by_any_comparator :
  ∀ (T : Type) (c : cfg) (S : Type) (o : S → T → option comparison * S) (s : S) (l : list T),
  ∃ r s' tr,
    run (logged o) (binary_search_by c (length l)) (s, []) l = (r, (s', tr), l) ∧
    length tr ≤ bit_length (length l) ∧
    match r with
    | Done (Found i) => ∃ x tr0, l !! i = Some x ∧ tr = tr0 ++ [(x, Some Eq)]
    | Done (Missing i) =>
        i ≤ length l ∧ Forall (λ e, e.2 = Some Lt ∨ e.2 = Some Gt) tr ∧
        (i = 0 ∨ ∃ x, l !! (i - 1) = Some x ∧ (x, Some Lt) ∈ tr) ∧
        (i = length l ∨ ∃ x, l !! i = Some x ∧ (x, Some Gt) ∈ tr)
    | Panicked e => e = UserPanic ∧ ∃ x tr0, tr = tr0 ++ [(x, None)] ∧ x ∈ l
    | _ => False
    end.
Proof. exact @binary_search_by_any. Qed.
Print Assumptions binary_search_by_any_comparator.

(** The bound of the number of calls is [floor(log2(len)) + 1]. *)
Theorem bit_length_is_log2 : ∀ n, 0 < n → bit_length n = Nat.log2 n + 1.
Proof. exact bit_length_log2. Qed.
Print Assumptions bit_length_is_log2.

(** Logging does not change a run. *)
Theorem logged_runs :
  ∀ (T Q R S A : Type) (o : S → Q → R * S) (p : prog T Q R A) (s : S) (tr : list (Q * R)) (l : list T),
  run o p s l = let '(r, (s', _), l') := run (logged o) p (s, tr) l in (r, s', l').
Proof. exact @run_logged. Qed.
Print Assumptions logged_runs.

Example binary_search_by_any_example :
  run (logged (λ s (x : nat), (Some (if Nat.even s then Gt else Lt), S s)))
    (binary_search_by cfg_debug32 7) (0, []) [9; 3; 8; 1; 4; 4; 0] =
  (Done (Missing 2), (3, [(1, Some Gt); (3, Some Lt); (8, Some Gt)]), [9; 3; 8; 1; 4; 4; 0]).
Proof. vm_compute. reflexivity. Qed.

(** C20. *)
Theorem partition_point_correct :
  ∀ (T : Type) (c : cfg) (pred : T → bool) (l1 l2 : list T),
  Forall (λ x, pred x = true) l1 → Forall (λ x, pred x = false) l2 →
  run (pure_fun pred) (partition_point c (length (l1 ++ l2))) tt (l1 ++ l2) =
    (Done (length l1), tt, l1 ++ l2).
Proof. exact @partition_point_prefix. Qed.
Print Assumptions partition_point_correct.

Theorem partition_point_any_predicate :
  ∀ (T : Type) (c : cfg) (S : Type) (o : S → T → option bool * S) (s : S) (l : list T),
  ∃ r s', run o (partition_point c (length l)) s l = (r, s', l) ∧
    ((∃ i, r = Done i ∧ i ≤ length l) ∨ r = Panicked UserPanic).
Proof. exact @partition_point_any. Qed.
Print Assumptions partition_point_any_predicate.

Example partition_point_example :
  Forall (λ x, Nat.even x = true) [4; 2; 8] ∧ Forall (λ x, Nat.even x = false) [7; 1] ∧
  run (pure_fun Nat.even) (partition_point cfg_debug64 5) tt [4; 2; 8; 7; 1] =
    (Done 3, tt, [4; 2; 8; 7; 1]).
Proof. repeat split; repeat constructor. Qed.

(** C21.  [view_elems l v] are the elements that view [v] (start, length) of the
    array [l] shows; [firsts same l] is the scan described in the property. *)
Theorem partition_dedup_by_correct :
  ∀ (T : Type) (same : T → T → bool) (l : list T),
  ∃ v1 v2 l', run (pure_bucket same) (partition_dedup_by (length l)) tt l =
      (Done (v1, v2), tt, l') ∧
    view_elems l' v1 = firsts same l ∧
    view_elems l' v1 ++ view_elems l' v2 = l' ∧
    Permutation l l'.
Proof. exact @partition_dedup_by_pure. Qed.
Print Assumptions partition_dedup_by_correct.

Theorem partition_dedup_correct :
  ∀ (T : Type) (eqf : T → T → bool) (l : list T),
  ∃ v1 v2 l', run (pure_less eqf) (partition_dedup (length l)) tt l =
      (Done (v1, v2), tt, l') ∧
    view_elems l' v1 = firsts eqf l ∧
    view_elems l' v1 ++ view_elems l' v2 = l' ∧
    Permutation l l'.
Proof. exact @partition_dedup_pure. Qed.
Print Assumptions partition_dedup_correct.

Example partition_dedup_by_example :
  run (pure_bucket (λ a b, Nat.eqb (a / 10) (b / 10))) (partition_dedup_by 7) tt
    [11; 12; 20; 25; 13; 14; 31] =
  (Done ((0, 4), (4, 3)), tt, [11; 20; 13; 31; 12; 14; 25]) ∧
  firsts (λ a b, Nat.eqb (a / 10) (b / 10)) [11; 12; 20; 25; 13; 14; 31] = [11; 20; 13; 31].
Proof. split; vm_compute; reflexivity. Qed.

Example partition_dedup_example :
  run (pure_less Nat.eqb) (partition_dedup 7) tt [3; 3; 1; 1; 1; 3; 2] =
  (Done ((0, 4), (4, 3)), tt, [3; 1; 3; 2; 1; 3; 1]) ∧
  firsts Nat.eqb [3; 3; 1; 1; 1; 3; 2] = [3; 1; 3; 2].
Proof. split; vm_compute; reflexivity. Qed.

(** C22: any closure, which may change its arguments and may panic.
    [rewrites l tr l'] says that [l'] is [l], rearranged, after each logged call
    replaced its two arguments by the values the closure left there.  Two mutable
    references to one element would be the outcome [Undefined]. *)
Theorem partition_dedup_by_any_closure :
  ∀ (T S : Type) (o : S → T * T → dedup_answer T * S) (s : S) (l : list T),
  ∃ r s' tr l', run (logged o) (partition_dedup_by (length l)) (s, []) l = (r, (s', tr), l') ∧
    rewrites l tr l' ∧
    match r with
    | Done (v1, v2) =>
        Forall (λ e, answered e.2) tr ∧ length tr = length l - 1 ∧
        v1.1 = 0 ∧ v1.2 ≤ length l ∧ v2.2 = length l - v1.2 ∧ (v2.1 = v1.2 ∨ v2.2 = 0)
    | Panicked e =>
        e = UserPanic ∧ ∃ tr0 q x y, tr = tr0 ++ [(q, BucketPanic x y)] ∧
          Forall (λ e, answered e.2) tr0
    | _ => False
    end.
Proof. exact @partition_dedup_by_any. Qed.
Print Assumptions partition_dedup_by_any_closure.

(** The key variant is the closure variant with the closure
    [|a, b| key(a) == key(b)], so the theorem above applies to it. *)
Theorem partition_dedup_by_key_is_by :
  ∀ (T S K : Type) (o : S → dkey_question T K → dkey_answer T K * S) (n : nat) (s : S) (l : list T),
  run o (partition_dedup_by_key n) s l = run (bucket_of_key o) (partition_dedup_by n) s l.
Proof. exact @run_partition_dedup_by_key. Qed.
Print Assumptions partition_dedup_by_key_is_by.

(** The closure increments its first argument and panics at the third call. *)
Example partition_dedup_by_any_example :
  run (logged (λ s '(a, b), (if Nat.eqb s 2 then BucketPanic (S a) b
                             else Bucket (Nat.eqb a b) (S a) b, S s)))
    (partition_dedup_by 5) (0, []) [4; 4; 6; 6; 6] =
  (Panicked UserPanic,
   (3, [((4, 4), Bucket true 5 4); ((6, 4), Bucket false 7 4); ((6, 7), BucketPanic 7 7)]),
   [4; 7; 5; 7; 6]).
Proof. vm_compute. reflexivity. Qed.

(** The key function adds 100 to its argument; the key is the last digit. *)
Example partition_dedup_by_key_example :
  let o := λ (s : nat) (q : dkey_question nat nat),
    match q with
    | DKeyOf x => (DKey (x mod 10) (x + 100), S s)
    | DKeyEq a b => (DBool (a =? b), s)
    end in
  run o (partition_dedup_by_key 4) 0 [1; 21; 2; 31] =
  run (bucket_of_key o) (partition_dedup_by 4) 0 [1; 21; 2; 31] ∧
  (run o (partition_dedup_by_key 4) 0 [1; 21; 2; 31]).2 = [201; 202; 131; 121].
Proof. vm_compute. repeat split. Qed.

(** C23. *)
Theorem reverse_correct :
  ∀ (T Q R S : Type) (o : S → Q → R * S) (s : S) (l : list T),
  ∃ s', run o (MPartition.reverse (length l)) s l = (Done tt, s', rev l).
Proof. exact @reverse_reverses. Qed.
Print Assumptions reverse_correct.

Example reverse_example :
  run (pure_less Nat.ltb) (MPartition.reverse 5) tt [1; 2; 3; 4; 5] = (Done tt, tt, [5; 4; 3; 2; 1]).
Proof. vm_compute. reflexivity. Qed.

(** C24. *)
Theorem is_sorted_by_correct :
  ∀ (T : Type) (cmp : T → T → bool) (l : list T),
  ∃ b, run (pure_less cmp) (is_sorted_by (length l)) tt l = (Done b, tt, l) ∧
    (b = true ↔ ∀ i x y, l !! i = Some x → l !! S i = Some y → cmp x y = true).
Proof. exact @is_sorted_pure. Qed.
Print Assumptions is_sorted_by_correct.

Theorem is_sorted_by_transitive :
  ∀ (T : Type) (cmp : T → T → bool) (l : list T),
  (∀ x y z, cmp x y = true → cmp y z = true → cmp x z = true) →
  ∃ b, run (pure_less cmp) (is_sorted_by (length l)) tt l = (Done b, tt, l) ∧
    (b = true ↔ ∀ i j x y, i < j → l !! i = Some x → l !! j = Some y → cmp x y = true).
Proof. exact @is_sorted_pure_transitive. Qed.
Print Assumptions is_sorted_by_transitive.

(** Any closure: the calls are the adjacent pairs in order, up to the first
    answer that is not [true] (or the panic). *)
Theorem is_sorted_by_calls :
  ∀ (T S : Type) (o : S → T * T → option bool * S) (s : S) (l : list T),
  ∃ r s' tr, run (logged o) (is_sorted_by (length l)) (s, []) l = (r, (s', tr), l) ∧
    match r with
    | Done true => tr = (λ q, (q, Some true)) <$> neighbours l
    | Done false =>
        ∃ qs1 q qs2, neighbours l = qs1 ++ q :: qs2 ∧
          tr = ((λ q, (q, Some true)) <$> qs1) ++ [(q, Some false)]
    | Panicked e =>
        e = UserPanic ∧ ∃ qs1 q qs2, neighbours l = qs1 ++ q :: qs2 ∧
          tr = ((λ q, (q, Some true)) <$> qs1) ++ [(q, None)]
    | _ => False
    end.
Proof. exact @is_sorted_calls. Qed.
Print Assumptions is_sorted_by_calls.

Example is_sorted_by_example :
  run (logged (pure_less Nat.leb)) (is_sorted_by 4) (tt, []) [1; 1; 0; 5] =
    (Done false, (tt, [((1, 1), Some true); ((1, 0), Some false)]), [1; 1; 0; 5]).
Proof. vm_compute. reflexivity. Qed.

Example is_sorted_by_transitive_example :
  (∀ x y z, (x <=? y) = true → (y <=? z) = true → (x <=? z) = true) ∧
  run (pure_less Nat.leb) (is_sorted_by 4) tt [1; 1; 3; 5] = (Done true, tt, [1; 1; 3; 5]).
Proof. split; [intros x y z; rewrite !Nat.leb_le; lia|]. vm_compute. reflexivity. Qed.

(** C25.  [eqf a x] is the call [a == x]. *)
Theorem contains_correct :
  ∀ (T : Type) (eqf : T → T → bool) (x : T) (l : list T),
  ∃ b, run (pure_less eqf) (contains (length l) x) tt l = (Done b, tt, l) ∧
    (b = true ↔ ∃ a, a ∈ l ∧ eqf a x = true).
Proof. exact @contains_pure. Qed.
Print Assumptions contains_correct.

Theorem contains_calls :
  ∀ (T S : Type) (o : S → T * T → option bool * S) (s : S) (x : T) (l : list T),
  ∃ r s' tr, run (logged o) (contains (length l) x) (s, []) l = (r, (s', tr), l) ∧
    match r with
    | Done false => tr = (λ a, ((a, x), Some false)) <$> l
    | Done true =>
        ∃ l1 a l2, l = l1 ++ a :: l2 ∧
          tr = ((λ a, ((a, x), Some false)) <$> l1) ++ [((a, x), Some true)]
    | Panicked e =>
        e = UserPanic ∧ ∃ l1 a l2, l = l1 ++ a :: l2 ∧
          tr = ((λ a, ((a, x), Some false)) <$> l1) ++ [((a, x), None)]
    | _ => False
    end.
Proof. exact @contains_scan_calls. Qed.
Print Assumptions contains_calls.

Example contains_example :
  run (logged (pure_less Nat.eqb)) (contains 4 7) (tt, []) [1; 7; 0; 7] =
    (Done true, (tt, [((1, 7), Some false); ((7, 7), Some true)]), [1; 7; 0; 7]).
Proof. vm_compute. reflexivity. Qed.
