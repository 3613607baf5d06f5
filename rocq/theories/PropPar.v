(** * C29-C32 and C34 (in part): the parallel unstable sort and selection, under
    every schedule.

    [every_schedule ans p l Φ E] (Interleave.v): every interleaving of the tasks
    of [p] started on the array [l], with a closure that answers [r] to [q] only
    if [ans q r], is finite, never accesses memory out of bounds, never races,
    is never stuck, and ends in [Φ] if it returns and in [E] if it panics. *)
From Verif Require Import TPar Examples.

(** C29. *)
Theorem par_sort_unstable_sorts :
  ∀ (T : Type) (c : cfg) (lt : T → T → bool) (l : list T),
  strict_weak_order lt → (zst c = true → ∀ x y : T, x = y) →
  every_schedule (ans_lt lt) (par_sort_unstable c (length l)) l
    (λ _ l', Permutation l l' ∧ sorted_wrt lt l') (λ _ _, False).
Proof. exact @par_sort_unstable_schedules. Qed.
Print Assumptions par_sort_unstable_sorts.

Theorem par_sort_unstable_by_sorts :
  ∀ (T : Type) (c : cfg) (cmp : T → T → comparison) (l : list T),
  strict_weak_order (is_lt cmp) → (zst c = true → ∀ x y : T, x = y) →
  every_schedule (ans_cmp cmp) (par_sort_unstable_by c (length l)) l
    (λ _ l', Permutation l l' ∧ sorted_wrt (is_lt cmp) l') (λ _ _, False).
Proof. exact @par_sort_unstable_by_schedules. Qed.
Print Assumptions par_sort_unstable_by_sorts.

Theorem par_sort_unstable_by_key_sorts :
  ∀ (T : Type) (c : cfg) (K : Type) (f : T → K) (ltk : K → K → bool) (l : list T),
  strict_weak_order (λ a b, ltk (f a) (f b)) → (zst c = true → ∀ x y : T, x = y) →
  every_schedule (ans_key f ltk) (par_sort_unstable_by_key c (length l)) l
    (λ _ l', Permutation l l' ∧ sorted_wrt (λ a b, ltk (f a) (f b)) l') (λ _ _, False).
Proof. exact @par_sort_unstable_by_key_schedules. Qed.
Print Assumptions par_sort_unstable_by_key_sorts.

(** An array of 2040 elements whose first pivot is small: the right part has more
    than 2000 elements and is sorted in parallel to the left one.  And sixty
    elements that are not sorted in parallel. *)
Definition forking_input : list nat :=
  map (λ i, if (509 <=? i) && (i <=? 511) || (1019 <=? i) && (i <=? 1021) ||
               (1529 <=? i) && (i <=? 1531) then 11 - i / 128 else i) (seq 0 2040).
Example par_sort_unstable_sorts_example :
  strict_weak_order Nat.ltb ∧ (zst cfg_release64 = true → ∀ x y : nat, x = y) ∧
  forks (pure_less Nat.ltb) (par_sort_unstable cfg_release64 2040) tt forking_input = true ∧
  let r := run (pure_less Nat.ltb) (par_sort_unstable cfg_release64 60) tt
             (map (λ i, i * 37 mod 50) (seq 0 60)) in
  r.1.1 = Done tt ∧ take 8 r.2 = [0; 0; 1; 2; 3; 4; 5; 6] ∧ last r.2 = Some 49.
Proof.
  split; [exact ltb_swo|]. split; [done|]. split; [vm_compute; reflexivity|].
  vm_compute. auto.
Qed.

(** C30: [ans] is any relation that has an answer to every question; the answer
    [None] is a panic of the closure. *)
Theorem par_sort_unstable_by_any_comparator :
  ∀ (T : Type) (c : cfg) (ans : T * T → option comparison → Prop) (l : list T),
  (∀ q, ∃ r, ans q r) →
  every_schedule ans (par_sort_unstable_by c (length l)) l
    (λ _ l', Permutation l l')
    (λ e l', e = UserPanic ∧ (∃ q, ans q None) ∧ Permutation l l').
Proof. exact @par_sort_unstable_by_any_schedules. Qed.
Print Assumptions par_sort_unstable_by_any_comparator.

Theorem par_sort_unstable_by_key_any_closure :
  ∀ (T : Type) (c : cfg) (K : Type) (ans : key_question K → key_answer K → Prop) (l : list T),
  (∀ q, ∃ r, ans q r) →
  every_schedule ans (par_sort_unstable_by_key c (length l)) l
    (λ _ l', Permutation l l') (λ e l', e = UserPanic ∧ Permutation l l').
Proof. exact @par_sort_unstable_by_key_any_schedules. Qed.
Print Assumptions par_sort_unstable_by_key_any_closure.

Example par_sort_unstable_by_any_comparator_example :
  (∀ q : nat * nat, ∃ r : option comparison, (λ _ _, True) q r) ∧
  (run bomb (par_sort_unstable_by cfg_debug32 25) 0 (rev (seq 0 12) ++ seq 5 13)).1.1 =
    Panicked UserPanic ∧
  (run silly (par_sort_unstable_by cfg_debug32 25) 0 (rev (seq 0 12) ++ seq 5 13)).1.1 = Done tt.
Proof. split; [by exists None|]. vm_compute. split; reflexivity. Qed.

(** C31.  The result is the list of appended slots: [Some i] is a slot holding a
    reference to the element at position [i], [None] would be an uninitialised
    one.  [vlen] is the spare capacity of the collection. *)
Theorem par_select_many_nth_unstable_selects :
  ∀ (T : Type) (c : cfg) (lt : T → T → bool) (vlen : nat) (inds : list nat) (l : list T),
  dbg c = false → fits c (length l) → valid_indices 0 (length l) inds → length inds ≤ vlen →
  strict_weak_order lt → (zst c = true → ∀ x y : T, x = y) →
  every_schedule (ans_lt lt) (par_select_many_nth_unstable c (length l) vlen inds) l
    (λ r l', r = map Some inds ∧ Permutation l l' ∧
       Forall (λ i, ∃ x, placed lt l' i x ∧ order_statistic lt l i x) inds)
    (λ _ _, False).
Proof. exact @par_select_many_schedules. Qed.
Print Assumptions par_select_many_nth_unstable_selects.

Theorem par_select_many_nth_unstable_by_selects :
  ∀ (T : Type) (c : cfg) (cmp : T → T → comparison) (vlen : nat) (inds : list nat) (l : list T),
  dbg c = false → fits c (length l) → valid_indices 0 (length l) inds → length inds ≤ vlen →
  strict_weak_order (is_lt cmp) → (zst c = true → ∀ x y : T, x = y) →
  every_schedule (ans_cmp cmp) (par_select_many_nth_unstable_by c (length l) vlen inds) l
    (λ r l', r = map Some inds ∧ Permutation l l' ∧
       Forall (λ i, ∃ x, placed (is_lt cmp) l' i x ∧ order_statistic (is_lt cmp) l i x) inds)
    (λ _ _, False).
Proof. exact @par_select_many_by_schedules. Qed.
Print Assumptions par_select_many_nth_unstable_by_selects.

Theorem par_select_many_nth_unstable_by_key_selects :
  ∀ (T : Type) (c : cfg) (K : Type) (f : T → K) (ltk : K → K → bool) (vlen : nat)
    (inds : list nat) (l : list T),
  let lt := λ a b, ltk (f a) (f b) in
  dbg c = false → fits c (length l) → valid_indices 0 (length l) inds → length inds ≤ vlen →
  strict_weak_order lt → (zst c = true → ∀ x y : T, x = y) →
  every_schedule (ans_key f ltk) (par_select_many_nth_unstable_by_key c (length l) vlen inds) l
    (λ r l', r = map Some inds ∧ Permutation l l' ∧
       Forall (λ i, ∃ x, placed lt l' i x ∧ order_statistic lt l i x) inds)
    (λ _ _, False).
Proof. exact @par_select_many_by_key_schedules. Qed.
Print Assumptions par_select_many_nth_unstable_by_key_selects.

Example par_select_many_nth_unstable_selects_example :
  let l := [5; 1; 4; 4; 9; 0; 23; 7; 7; 2; 31; 6; 8; 3; 12] in
  let many := map (λ i, 2060 - i) (seq 0 2060) in
  dbg cfg_release64 = false ∧ fits cfg_release64 (length l) ∧
  valid_indices 0 (length l) [0; 4; 5; 14] ∧ length [0; 4; 5; 14] ≤ 9 ∧ strict_weak_order Nat.ltb ∧
  (let r := run (pure_less Nat.ltb) (par_select_many_nth_unstable cfg_release64 (length l) 9 [0; 4; 5; 14]) tt l in
   r.1.1 = Done [Some 0; Some 4; Some 5; Some 14] ∧ r.2 !! 4 = Some 4) ∧
  forks (pure_less Nat.ltb) (par_select_many_nth_unstable cfg_release64 2060 3 [7; 2050; 2055])
    tt many = true.
Proof.
  split; [done|]. split; [done|]. split.
  { split; repeat constructor; unfold Nat.lt; simpl; lia. }
  split; [simpl; lia|]. split; [exact ltb_swo|]. vm_compute. repeat split.
Qed.

(** C32.  If the call returns, the indices were valid; so invalid indices panic. *)
Theorem par_select_many_nth_unstable_any_comparator :
  ∀ (T : Type) (c : cfg) (ans : T * T → option comparison → Prop) (vlen : nat)
    (inds : list nat) (l : list T),
  (∀ q, ∃ r, ans q r) → fits c (length l) → length inds ≤ vlen →
  every_schedule ans (par_select_many_nth_unstable_by c (length l) vlen inds) l
    (λ r l', valid_indices 0 (length l) inds ∧ r = map Some inds ∧ Permutation l l')
    (λ e l', Permutation l l' ∧
       (e = UserPanic ∧ (∃ q, ans q None) ∨ e = DebugPanic ∧ dbg c = true ∨
        ¬ valid_indices 0 (length l) inds ∧ (e = AssertPanic ∨ e = OverflowPanic ∧ ovf c = true))).
Proof. exact @par_select_many_by_all_schedules. Qed.
Print Assumptions par_select_many_nth_unstable_any_comparator.

Example par_select_many_nth_unstable_any_comparator_example :
  fits cfg_debug32 60 ∧ ¬ valid_indices 0 60 [9; 7] ∧
  (run silly (par_select_many_nth_unstable_by cfg_debug32 60 4 [9; 7]) 0 (seq 0 60)).1.1 =
    Panicked AssertPanic ∧
  (run bomb (par_select_many_nth_unstable_by cfg_debug32 60 4 [1; 17; 40]) 0 (seq 0 60)).1.1 =
    Panicked UserPanic.
Proof.
  split; [done|]. split; [|vm_compute; split; reflexivity].
  intros [Hs _]. apply StronglySorted_inv in Hs as [_ Hs]. apply Forall_cons in Hs as [Hs _].
  unfold Nat.lt in Hs. lia.
Qed.

(** C34: [fp F p] (Interleave.v): in every run [p] touches only addresses in [F],
    and tasks running at the same time touch disjoint addresses. *)
Theorem par_sort_unstable_tasks_disjoint :
  ∀ (T : Type) (c : cfg) (n : nat), fp (λ i, i < n) (par_sort_unstable_by (T:=T) c n).
Proof. exact @par_sort_unstable_by_disjoint. Qed.
Print Assumptions par_sort_unstable_tasks_disjoint.

Theorem par_select_many_tasks_disjoint :
  ∀ (T : Type) (c : cfg) (n vlen : nat) (inds : list nat),
  fp (λ i, i < n) (par_select_many_nth_unstable_by (T:=T) c n vlen inds).
Proof. exact @par_select_many_by_disjoint. Qed.
Print Assumptions par_select_many_tasks_disjoint.

(** Every schedule ends as some sequential execution of the tasks does. *)
Theorem par_sort_unstable_schedules_sequential :
  ∀ (T : Type) (c : cfg) (ans : T * T → option comparison → Prop) (l : list T),
  (∀ q, ∃ r, ans q r) →
  let p := par_sort_unstable_by c (length l) in
  every_schedule ans p l
    (λ a l', seq_result ans p l (inl a) l') (λ e l', seq_result ans p l (inr e) l').
Proof. exact @par_sort_unstable_by_sequential. Qed.
Print Assumptions par_sort_unstable_schedules_sequential.

Theorem par_select_many_schedules_sequential :
  ∀ (T : Type) (c : cfg) (ans : T * T → option comparison → Prop) (vlen : nat)
    (inds : list nat) (l : list T),
  (∀ q, ∃ r, ans q r) → fits c (length l) → length inds ≤ vlen →
  let p := par_select_many_nth_unstable_by c (length l) vlen inds in
  every_schedule ans p l
    (λ a l', seq_result ans p l (inl a) l') (λ e l', seq_result ans p l (inr e) l').
Proof. exact @par_select_many_by_sequential. Qed.
Print Assumptions par_select_many_schedules_sequential.

(** [race] is not vacuous: two tasks writing the same cell race. *)
Example race_example :
  race (λ (_ : unit) (_ : unit), True)
    (rayon_join (Write 0 1 (Ret tt)) (Write 0 2 (Ret tt)) : prog nat unit unit (unit * unit)) ∧
  ¬ (∃ F, fp F (rayon_join (Write 0 1 (Ret tt)) (Write 0 2 (Ret tt)) : prog nat unit unit (unit * unit))).
Proof.
  assert (Hr : race (λ (_ : unit) (_ : unit), True)
    (rayon_join (Write 0 1 (Ret tt)) (Write 0 2 (Ret tt)) : prog nat unit unit (unit * unit))).
  { right. right. exists (Wr 0 1), (Ret tt), (Wr 0 2), (Ret tt). split; [done|]. split; [done|].
    exists 0. simpl. auto. }
  split; [exact Hr|]. intros [F HF]. exact (fp_no_race _ F _ HF Hr).
Qed.
