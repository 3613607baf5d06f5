(** * C37: number of calls of the comparator made by the selection. *)
From Verif Require Import CAdv CSelect Examples.

(** C37 is false: for every polynomial [K * n ^ d] there are a strict weak order,
    an array and an index such that the selection makes more calls than that.
    Almost all elements of the array are equal. *)
Theorem select_nth_unstable_by_calls_linear_refuted :
  ∀ c : cfg, dbg c = false → zst c = false →
  ∀ K d : nat, ∃ (cmp : nat → nat → comparison) (l : list nat) (index : nat),
    strict_weak_order (is_lt cmp) ∧ index < length l ∧
    let '(_, (_, tr), _) :=
      run (logged (pure_compare cmp)) (select_nth_unstable_by c (length l) index) (tt, []) l in
    K * length l ^ d < length tr.
Proof. exact select_superpolynomial. Qed.
Print Assumptions select_nth_unstable_by_calls_linear_refuted.

(** The fallback on 50 equal elements: 1833 calls. *)
Example median_of_medians_calls_example :
  dbg cfg_release64 = false ∧ zst cfg_release64 = false ∧
  let calls n :=
    let '(_, (_, tr), _) :=
      run (logged (pure_less (λ _ _ : nat, false)))
        (median_of_medians cfg_release64 (S (bit_length n)) n (n / 2)) (tt, []) (repeat 0 n) in
    length tr in
  calls 50 = 1833.
Proof. vm_compute. auto. Qed.

(** What remains of C37: if no element of the array has more than [M] equivalent
    elements (itself included), then the number of calls is linear, in every
    build configuration and for every index.  The constant depends on [M] only.
    Missing: arrays with unboundedly many equivalent elements, for which the claim
    is refuted above. *)
Theorem select_nth_unstable_by_calls_linear_partial :
  ∀ (c : cfg) (M : nat),
  ∃ K, ∀ (T : Type) (cmp : T → T → comparison) (l : list T) (index : nat),
    strict_weak_order (is_lt cmp) →
    (∀ x, In x l → length (List.filter (λ y, negb (is_lt cmp x y) && negb (is_lt cmp y x)) l) ≤ M) →
    let '(_, (_, tr), _) :=
      run (logged (pure_compare cmp)) (select_nth_unstable_by c (length l) index) (tt, []) l in
    length tr ≤ K * length l.
Proof. exact select_linear. Qed.
Print Assumptions select_nth_unstable_by_calls_linear_partial.

(** Thirty numbers compared by their last digit: three of each; 51 calls. *)
Example calls_linear_example :
  strict_weak_order (is_lt digit_cmp) ∧
  (∀ x, In x (seq 7 30) → length (List.filter
     (λ y, negb (is_lt digit_cmp x y) && negb (is_lt digit_cmp y x)) (seq 7 30)) ≤ 3) ∧
  let '(_, (_, tr), _) :=
    run (logged (pure_compare digit_cmp)) (select_nth_unstable_by cfg_release64 30 11) (tt, []) (seq 7 30) in
  length tr = 51.
Proof.
  split; [exact digit_swo|]. split.
  - intros x Hx. simpl in Hx. repeat (destruct Hx as [<-|Hx]; [vm_compute; lia|]). done.
  - vm_compute. reflexivity.
Qed.
