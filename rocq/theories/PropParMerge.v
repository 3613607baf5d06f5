(** * C27, C28 and C34: the parallel stable sort, under every schedule.

    The memory consists of the array [l] and of the buffer [junk] the sort
    allocates, whose contents are arbitrary; [take (length l) m] is the array in
    the memory [m].  [take_item] says which chunks are started before a panic in
    another one is noticed (MParMerge.v). *)
From Verif Require Import TParMerge Examples.

(** C27. *)
Theorem par_sort_sorts_stably :
  ∀ (T : Type) (c : cfg) (take_item : nat → bool) (lt : T → T → bool) (l junk : list T),
  strict_weak_order lt → (zst c = true → ∀ x y : T, x = y) → length junk = length l →
  every_schedule (ans_lt lt) (par_sort c take_item (length l)) (l ++ junk)
    (λ _ m, let l' := take (length l) m in
       Permutation l l' ∧ sorted_wrt lt l' ∧ same_order_of_equals lt l l') (λ _ _, False).
Proof. exact @par_sort_schedules. Qed.
Print Assumptions par_sort_sorts_stably.

Theorem par_sort_by_sorts_stably :
  ∀ (T : Type) (c : cfg) (take_item : nat → bool) (cmp : T → T → comparison) (l junk : list T),
  strict_weak_order (is_lt cmp) → (zst c = true → ∀ x y : T, x = y) → length junk = length l →
  every_schedule (ans_cmp cmp) (par_sort_by c take_item (length l)) (l ++ junk)
    (λ _ m, let l' := take (length l) m in
       Permutation l l' ∧ sorted_wrt (is_lt cmp) l' ∧ same_order_of_equals (is_lt cmp) l l')
    (λ _ _, False).
Proof. exact @par_sort_by_schedules. Qed.
Print Assumptions par_sort_by_sorts_stably.

Theorem par_sort_by_key_sorts_stably :
  ∀ (T : Type) (c : cfg) (take_item : nat → bool) (K : Type) (f : T → K) (ltk : K → K → bool)
    (l junk : list T),
  let lt := λ a b, ltk (f a) (f b) in
  strict_weak_order lt → (zst c = true → ∀ x y : T, x = y) → length junk = length l →
  every_schedule (ans_key f ltk) (par_sort_by_key c take_item (length l)) (l ++ junk)
    (λ _ m, let l' := take (length l) m in
       Permutation l l' ∧ sorted_wrt lt l' ∧ same_order_of_equals lt l l') (λ _ _, False).
Proof. exact @par_sort_by_key_schedules. Qed.
Print Assumptions par_sort_by_key_sorts_stably.

(** 2100 elements: two chunks, sorted and then merged in parallel tasks. *)
Definition two_chunks : list nat := map (λ i, if i <? 2000 then i mod 700 else 2100 - i) (seq 0 2100).
Example par_sort_sorts_stably_example :
  strict_weak_order (is_lt digit_cmp) ∧ (zst cfg_debug64 = true → ∀ x y : nat, x = y) ∧
  length (repeat 77 2100) = length two_chunks ∧
  forks (pure_compare digit_cmp) (par_sort_by cfg_debug64 (λ _, true) 2100) tt
    (two_chunks ++ repeat 77 2100) = true ∧
  let r := run (pure_compare digit_cmp) (par_sort_by cfg_debug64 (λ _, true) 60) tt
             (rev (seq 0 30) ++ seq 15 30 ++ repeat 77 60) in
  r.1.1 = Done tt ∧ take 12 r.2 = [20; 10; 0; 20; 30; 40; 21; 11; 1; 21; 31; 41].
Proof.
  split; [exact digit_swo|]. split; [done|]. split; [reflexivity|].
  split; [vm_compute; reflexivity|]. vm_compute. repeat split.
Qed.

(** C28: [ans] is any relation that has an answer to every question; the answer
    [None] is a panic of the closure.  A panic comes from the closure, called on
    two elements of the array. *)
Theorem par_sort_by_any_comparator :
  ∀ (T : Type) (c : cfg) (take_item : nat → bool) (ans : T * T → option comparison → Prop)
    (l junk : list T),
  (∀ q, ∃ r, ans q r) → length junk = length l →
  every_schedule ans (par_sort_by c take_item (length l)) (l ++ junk)
    (λ _ m, Permutation l (take (length l) m))
    (λ e m, e = UserPanic ∧ (∃ a b, a ∈ l ∧ b ∈ l ∧ ans (a, b) None) ∧
       Permutation l (take (length l) m)).
Proof. exact @par_sort_by_any_schedules. Qed.
Print Assumptions par_sort_by_any_comparator.

Theorem par_sort_by_key_any_closure :
  ∀ (T : Type) (c : cfg) (take_item : nat → bool) (K : Type)
    (ans : key_question K → key_answer K → Prop) (l junk : list T),
  (∀ q, ∃ r, ans q r) → length junk = length l →
  every_schedule ans (par_sort_by_key c take_item (length l)) (l ++ junk)
    (λ _ m, Permutation l (take (length l) m))
    (λ e m, e = UserPanic ∧ Permutation l (take (length l) m)).
Proof. exact @par_sort_by_key_any_schedules. Qed.
Print Assumptions par_sort_by_key_any_closure.

(** The cells of the array hold [Some x] and those of the buffer are [None]:
    whatever the comparator does with [None], it does not matter, as it never
    sees one; nor does the array ever end up with one. *)
Theorem par_sort_by_never_reads_uninitialised :
  ∀ (X : Type) (c : cfg) (take_item : nat → bool)
    (ans : option X * option X → option comparison → Prop) (xs : list X),
  (∀ q, ∃ r, ans q r) → (∀ x y, ¬ ans (Some x, Some y) None) →
  every_schedule ans (par_sort_by c take_item (length xs)) (map Some xs ++ map (λ _, None) xs)
    (λ _ m, ∃ xs', take (length xs) m = map Some xs' ∧ Permutation xs xs') (λ _ _, False).
Proof. exact @par_sort_by_uninit. Qed.
Print Assumptions par_sort_by_never_reads_uninitialised.

Example par_sort_by_any_comparator_example :
  (∀ q : nat * nat, ∃ r : option comparison, (λ _ _, True) q r) ∧
  (let r := run bomb (par_sort_by cfg_debug64 (λ i, i =? 1) 2100) 0 (two_chunks ++ repeat 77 2100) in
   r.1.1 = Panicked UserPanic) ∧
  (run silly (par_sort_by cfg_debug64 (λ _, true) 60) 0 (seq 0 60 ++ repeat 77 60)).1.1 = Done tt.
Proof. split; [by exists None|]. vm_compute. repeat split. Qed.

Definition cmp_init (q : option nat * option nat) (r : option comparison) : Prop :=
  r = match q with (Some a, Some b) => Some (Nat.compare a b) | _ => None end.
Example par_sort_by_never_reads_uninitialised_example :
  (∀ q, ∃ r, cmp_init q r) ∧ (∀ x y, ¬ cmp_init (Some x, Some y) None) ∧
  cmp_init (Some 1, None) None.
Proof. split; [intros q; by eexists|]. split; [done|reflexivity]. Qed.

(** C34: [fp F p] (Interleave.v): in every run [p] touches only addresses in [F],
    and tasks running at the same time touch disjoint addresses.  The array is
    at [0, n), the buffer at [n, n + n). *)
Theorem par_sort_tasks_disjoint :
  ∀ (T : Type) (c : cfg) (take_item : nat → bool) (n : nat),
  fp (λ i, i < n + n) (par_sort_by (T:=T) c take_item n).
Proof. exact @par_sort_by_disjoint. Qed.
Print Assumptions par_sort_tasks_disjoint.

(** Every schedule ends as some sequential execution of the tasks does. *)
Theorem par_sort_schedules_sequential :
  ∀ (T : Type) (c : cfg) (take_item : nat → bool) (ans : T * T → option comparison → Prop)
    (l junk : list T),
  (∀ q, ∃ r, ans q r) → length junk = length l →
  let p := par_sort_by c take_item (length l) in
  every_schedule ans p (l ++ junk)
    (λ a m, seq_result ans p (l ++ junk) (inl a) m) (λ e m, seq_result ans p (l ++ junk) (inr e) m).
Proof. exact @par_sort_by_sequential. Qed.
Print Assumptions par_sort_schedules_sequential.
