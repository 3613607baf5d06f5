(** * C12-C17: selection of one and of many positions. *)
From Verif Require Import TWrap Examples.

(** C12.  The returned triple is: left part (start, length), position of the
    selected element, right part (start, length). *)
Theorem select_nth_unstable_selects :
  ∀ (T : Type) (c : cfg) (lt : T → T → bool) (index : nat) (l : list T),
  dbg c = false → index < length l →
  strict_weak_order lt → (zst c = true → ∀ x y : T, x = y) →
  ∃ l' x, run (pure_less lt) (select_nth_unstable c (length l) index) tt l =
      (Done ((0, index), index, (index + 1, length l - (index + 1))), tt, l') ∧
    Permutation l l' ∧ placed lt l' index x ∧ order_statistic lt l index x.
Proof. exact @select_nth_selects. Qed.
Print Assumptions select_nth_unstable_selects.

Theorem select_nth_unstable_by_selects :
  ∀ (T : Type) (c : cfg) (cmp : T → T → comparison) (index : nat) (l : list T),
  dbg c = false → index < length l →
  strict_weak_order (is_lt cmp) → (zst c = true → ∀ x y : T, x = y) →
  ∃ l' x, run (pure_compare cmp) (select_nth_unstable_by c (length l) index) tt l =
      (Done ((0, index), index, (index + 1, length l - (index + 1))), tt, l') ∧
    Permutation l l' ∧ placed (is_lt cmp) l' index x ∧ order_statistic (is_lt cmp) l index x.
Proof. exact @select_nth_unstable_by_selects_proof. Qed.
Print Assumptions select_nth_unstable_by_selects.

Example select_nth_unstable_selects_example :
  let l := [5; 1; 4; 4; 9; 0; 23; 7; 7; 2; 31; 6; 8; 3; 12] in
  dbg cfg_release64 = false ∧ 8 < length l ∧ strict_weak_order Nat.ltb ∧
  (run (pure_less Nat.ltb) (select_nth_unstable cfg_release64 (length l) 8) tt l).2 !! 8 = Some 7.
Proof.
  split; [done|]. split; [simpl; lia|]. split; [exact ltb_swo|]. vm_compute. reflexivity.
Qed.

(** The same claim is false in builds with debug assertions: the
    [debug_assert!(k < v.len())] of [median_of_medians] (src/partition.rs:189) is
    violated by [median_of_ninthers] (src/partition.rs:270), which passes an empty
    slice when the length is 11 ([frac = 11 / 12 = 0]).  The witnesses are arrays of
    38 numbers with repetitions (39 if [usize] has 32 bits) and of 46 distinct numbers,
    each with a valid index, and 28 elements with a closure that is no order. *)
Theorem select_nth_unstable_debug_refuted :
  ∀ w : bool, ∃ (l : list nat) (index : nat),
    index < length l ∧ strict_weak_order Nat.ltb ∧ length l = (if w then 38 else 39) ∧
    (run (pure_less Nat.ltb)
      (select_nth_unstable (if w then cfg_debug64 else cfg_debug32) (length l) index) tt l).1.1
      = Panicked DebugPanic.
Proof.
  intros w. exists (if w then
    [13; 15; 13; 3; 10; 15; 4; 15; 14; 0; 11; 2; 12; 4; 17; 6; 15; 8; 1; 17; 2; 5; 15; 15; 15; 10;
     6; 15; 14; 12; 16; 7; 8; 15; 15; 13; 9; 16] else
    [9; 14; 3; 9; 3; 2; 10; 12; 10; 10; 7; 4; 12; 11; 5; 7; 6; 10; 1; 10; 15; 13; 10; 11; 8; 10;
     9; 0; 6; 2; 15; 10; 5; 10; 14; 6; 13; 2; 5]), (if w then 28 else 22).
  split; [destruct w; vm_compute; lia|]. split; [exact ltb_swo|].
  split; destruct w; vm_compute; reflexivity.
Qed.
Print Assumptions select_nth_unstable_debug_refuted.

Definition debug_witness : list nat :=
  [14; 37; 38; 25; 9; 17; 20; 24; 18; 32; 22; 0; 35; 2; 5; 30; 3; 8; 28; 10; 15; 36; 1; 12; 6;
   4; 7; 16; 11; 33; 13; 43; 27; 29; 42; 26; 19; 39; 31; 41; 40; 34; 23; 21; 44; 45].
Definition debug_witness32 : list nat :=
  [23; 45; 40; 15; 18; 13; 5; 27; 11; 24; 21; 0; 7; 2; 4; 29; 6; 8; 12; 10; 33; 19; 1; 38; 16;
   20; 44; 22; 28; 25; 35; 14; 26; 43; 31; 37; 32; 42; 39; 30; 9; 41; 34; 36; 3; 17].
Theorem select_nth_unstable_debug_distinct_refuted :
  ∀ w : bool, ∃ (l : list nat) (index : nat),
    index < length l ∧ strict_weak_order Nat.ltb ∧ length l = 46 ∧ NoDup l ∧
    (run (pure_less Nat.ltb)
      (select_nth_unstable (if w then cfg_debug64 else cfg_debug32) (length l) index) tt l).1.1
      = Panicked DebugPanic.
Proof.
  intros w. exists (if w then debug_witness else debug_witness32), 40.
  split; [destruct w; vm_compute; lia|]. split; [exact ltb_swo|].
  split; [by destruct w|]. split.
  - destruct w; apply (bool_decide_unpack _); vm_compute; exact I.
  - destruct w; vm_compute; reflexivity.
Qed.
Print Assumptions select_nth_unstable_debug_distinct_refuted.

(** A closure that answers by the number of the call. *)
Definition contrary (k : nat) (_ : nat * nat) : option comparison * nat :=
  (Some (if (k <? 312) || existsb (Nat.eqb k) [333; 351; 368] then Lt else Gt), S k).
Theorem select_nth_unstable_by_debug_refuted :
  ∃ (l : list nat) (index : nat), index < length l ∧ no_panic contrary ∧ length l = 28 ∧
    (run contrary (select_nth_unstable_by cfg_debug64 (length l) index) 0 l).1.1
      = Panicked DebugPanic.
Proof.
  exists (seq 0 28), 7. split; [vm_compute; lia|]. split; [done|]. split; vm_compute; reflexivity.
Qed.
Print Assumptions select_nth_unstable_by_debug_refuted.

(** C45, the part that holds: on at most 37 elements, on at most 45 of which no two
    are equal, and for the first and the last index, also builds with debug
    assertions return normally.  Whatever the closure answers, the same holds for at
    most 27 elements.  By the witnesses above, 37, 45 and 27 are the best
    numbers; open are 38 elements if [usize] has 32 bits. *)
Theorem select_nth_unstable_debug_partial :
  ∀ (T : Type) (c : cfg) (lt : T → T → bool) (index : nat) (l : list T),
  index < length l →
  length l ≤ 37 ∨
  (length l ≤ 45 ∧
    ∀ i j x y, i ≠ j → l !! i = Some x → l !! j = Some y → lt x y = true ∨ lt y x = true) ∨
  index = 0 ∨ index = length l - 1 →
  strict_weak_order lt → (zst c = true → ∀ x y : T, x = y) →
  ∃ l' x, run (pure_less lt) (select_nth_unstable c (length l) index) tt l =
      (Done ((0, index), index, (index + 1, length l - (index + 1))), tt, l') ∧
    Permutation l l' ∧ placed lt l' index x ∧ order_statistic lt l index x.
Proof. exact @select_nth_small_selects. Qed.
Print Assumptions select_nth_unstable_debug_partial.

Theorem select_nth_unstable_by_debug_partial :
  ∀ (T S : Type) (c : cfg) (o : S → T * T → option comparison * S) (s : S) (index : nat) (l : list T),
  index < length l → length l ≤ 27 ∨ index = 0 ∨ index = length l - 1 →
  ∃ r s' l', run o (select_nth_unstable_by c (length l) index) s l = (r, s', l') ∧
    Permutation l l' ∧
    (r = Done ((0, index), index, (index + 1, length l - (index + 1))) ∨ r = Panicked UserPanic).
Proof. exact @select_nth_unstable_by_debug_partial_proof. Qed.
Print Assumptions select_nth_unstable_by_debug_partial.

Example select_nth_unstable_debug_example :
  let l := drop 1 debug_witness in
  39 < length l ∧ length l = 45 ∧
  (∀ i j x y, i ≠ j → l !! i = Some x → l !! j = Some y → (x <? y) = true ∨ (y <? x) = true) ∧
  strict_weak_order Nat.ltb ∧
  (run (pure_less Nat.ltb) (select_nth_unstable cfg_debug64 45 39) tt l).1.1
    = Done ((0, 39), 39, (40, 5)) ∧
  (run contrary (select_nth_unstable_by cfg_debug64 27 7) 0 (seq 0 27)).1.1
    = Done ((0, 7), 7, (8, 19)).
Proof.
  intros l. split; [vm_compute; lia|]. split; [done|]. split.
  - assert (Hl : NoDup l) by (apply (bool_decide_unpack _); vm_compute; exact I).
    intros i j x y Hij Hx Hy. rewrite !Nat.ltb_lt.
    enough (x ≠ y) by lia. intros ->. by destruct Hij, (NoDup_lookup _ _ _ _ Hl Hx Hy).
  - split; [exact ltb_swo|]. split; vm_compute; reflexivity.
Qed.

(** C13. *)
Theorem select_nth_unstable_index_out_of_range :
  ∀ (T S : Type) (c : cfg) (o : S → T * T → option comparison * S) (s : S) (index : nat) (l : list T),
  length l ≤ index →
  run o (select_nth_unstable_by c (length l) index) s l = (Panicked AssertPanic, s, l).
Proof. exact @select_nth_unstable_index_out_of_range_proof. Qed.
Print Assumptions select_nth_unstable_index_out_of_range.

Theorem select_nth_unstable_index_in_range :
  ∀ (T S : Type) (c : cfg) (o : S → T * T → option comparison * S) (s : S) (index : nat) (l : list T),
  dbg c = false → index < length l → no_panic o →
  ∃ s' l', run o (select_nth_unstable_by c (length l) index) s l =
      (Done ((0, index), index, (index + 1, length l - (index + 1))), s', l') ∧
    Permutation l l'.
Proof. exact @select_nth_unstable_index_in_range_proof. Qed.
Print Assumptions select_nth_unstable_index_in_range.

Example select_nth_unstable_index_example :
  length (seq 0 30) ≤ 30 ∧ 17 < length (seq 0 30) ∧ no_panic silly ∧
  run silly (select_nth_unstable_by cfg_release64 30 30) 0 (seq 0 30) =
    (Panicked AssertPanic, 0, seq 0 30) ∧
  (run silly (select_nth_unstable_by cfg_release64 30 17) 0 (seq 0 30)).1.1 =
    Done ((0, 17), 17, (18, 12)).
Proof.
  split; [simpl; lia|]. split; [simpl; lia|]. split; [exact silly_no_panic|].
  split; vm_compute; reflexivity.
Qed.

(** C14: any closure, also one that panics; [DebugPanic] is the failed
    [debug_assert!] of the refutation above and impossible in release builds. *)
Theorem select_nth_unstable_any_comparator :
  ∀ (T S : Type) (c : cfg) (o : S → T * T → option comparison * S) (s : S) (index : nat) (l : list T),
  index < length l →
  ∃ r s' l', run o (select_nth_unstable_by c (length l) index) s l = (r, s', l') ∧
    Permutation l l' ∧
    (r = Done ((0, index), index, (index + 1, length l - (index + 1))) ∨
     r = Panicked UserPanic ∨ r = Panicked DebugPanic ∧ dbg c = true).
Proof. exact @select_nth_unstable_any_comparator_proof. Qed.
Print Assumptions select_nth_unstable_any_comparator.

Example select_nth_unstable_any_comparator_example :
  17 < length (seq 0 60) ∧
  (run bomb (select_nth_unstable_by cfg_release64 60 17) 0 (seq 0 60)).1.1 = Panicked UserPanic.
Proof. split; [simpl; lia|]. vm_compute. reflexivity. Qed.

(** C15.  The result lists (index, position of the element referred to). *)
Theorem select_many_nth_unstable_selects :
  ∀ (T : Type) (c : cfg) (lt : T → T → bool) (inds : list nat) (l : list T),
  dbg c = false → fits c (length l) → valid_indices 0 (length l) inds →
  strict_weak_order lt → (zst c = true → ∀ x y : T, x = y) →
  ∃ l', run (pure_less lt) (select_many_nth_unstable c (length l) inds) tt l =
      (Done (map (λ i, (i, i)) inds), tt, l') ∧
    Permutation l l' ∧
    Forall (λ i, ∃ x, placed lt l' i x ∧ order_statistic lt l i x) inds.
Proof. exact @select_many_selects. Qed.
Print Assumptions select_many_nth_unstable_selects.

Theorem select_many_nth_unstable_by_selects :
  ∀ (T : Type) (c : cfg) (cmp : T → T → comparison) (inds : list nat) (l : list T),
  dbg c = false → fits c (length l) → valid_indices 0 (length l) inds →
  strict_weak_order (is_lt cmp) → (zst c = true → ∀ x y : T, x = y) →
  ∃ l', run (pure_compare cmp) (select_many_nth_unstable_by c (length l) inds) tt l =
      (Done (map (λ i, (i, i)) inds), tt, l') ∧
    Permutation l l' ∧
    Forall (λ i, ∃ x, placed (is_lt cmp) l' i x ∧ order_statistic (is_lt cmp) l i x) inds.
Proof. exact @select_many_nth_unstable_by_selects_proof. Qed.
Print Assumptions select_many_nth_unstable_by_selects.

Example select_many_nth_unstable_selects_example :
  let l := [5; 1; 4; 4; 9; 0; 23; 7; 7; 2; 31; 6; 8; 3; 12] in
  dbg cfg_release64 = false ∧ fits cfg_release64 (length l) ∧
  valid_indices 0 (length l) [0; 4; 5; 14] ∧ strict_weak_order Nat.ltb ∧
  let r := run (pure_less Nat.ltb) (select_many_nth_unstable cfg_release64 (length l) [0; 4; 5; 14]) tt l in
  r.1.1 = Done [(0, 0); (4, 4); (5, 5); (14, 14)] ∧
  r.2 !! 0 = Some 0 ∧ r.2 !! 4 = Some 4 ∧ r.2 !! 5 = Some 4 ∧ r.2 !! 14 = Some 31.
Proof.
  split; [done|]. split; [done|]. split.
  { split; repeat constructor; unfold Nat.lt; simpl; lia. }
  split; [exact ltb_swo|]. vm_compute. repeat split.
Qed.

(** C16. *)
Theorem select_many_nth_unstable_rejects :
  ∀ (T S : Type) (c : cfg) (o : S → T * T → option comparison * S) (s : S)
    (inds : list nat) (l : list T),
  fits c (length l) → ¬ valid_indices 0 (length l) inds →
  ∃ e s' l', run o (select_many_nth_unstable_by c (length l) inds) s l = (Panicked e, s', l') ∧
    Permutation l l'.
Proof. exact @select_many_nth_unstable_rejects_proof. Qed.
Print Assumptions select_many_nth_unstable_rejects.

Theorem select_many_nth_unstable_accepts :
  ∀ (T S : Type) (c : cfg) (o : S → T * T → option comparison * S) (s : S)
    (inds : list nat) (l : list T),
  dbg c = false → fits c (length l) → valid_indices 0 (length l) inds → no_panic o →
  ∃ s' l', run o (select_many_nth_unstable_by c (length l) inds) s l =
      (Done (map (λ i, (i, i)) inds), s', l') ∧ Permutation l l'.
Proof. exact @select_many_nth_unstable_accepts_proof. Qed.
Print Assumptions select_many_nth_unstable_accepts.

Example select_many_nth_unstable_rejects_example :
  ¬ valid_indices 0 30 [3; 9; 7; 20] ∧ ¬ valid_indices 0 30 [3; 5; 1] ∧ ¬ valid_indices 0 30 [5; 30] ∧
  valid_indices 0 30 [3; 9; 20] ∧
  (run silly (select_many_nth_unstable_by cfg_release64 30 [3; 9; 7; 20]) 0 (seq 0 30)).1.1 =
    Panicked AssertPanic ∧
  (run silly (select_many_nth_unstable_by (Cfg false true true false) 30 [3; 5; 1]) 0 (seq 0 30)).1.1 =
    Panicked OverflowPanic ∧
  (run silly (select_many_nth_unstable_by cfg_release64 30 [5; 30]) 0 (seq 0 30)).1.1 =
    Panicked AssertPanic ∧
  (run silly (select_many_nth_unstable_by cfg_release64 30 [3; 9; 20]) 0 (seq 0 30)).1.1 =
    Done [(3, 3); (9, 9); (20, 20)].
Proof.
  split; [|split; [|split; [|split]]].
  1-3: intros [Hs Hb];
       repeat match goal with
       | H : StronglySorted _ (_ :: _) |- _ => apply StronglySorted_inv in H as [? ?]
       | H : Forall _ (_ :: _) |- _ => apply Forall_cons in H as [? ?]
       end; unfold Nat.lt in *; lia.
  - split; repeat constructor; unfold Nat.lt; simpl; lia.
  - vm_compute. repeat split.
Qed.

(** C17. *)
Theorem select_many_nth_unstable_any_comparator :
  ∀ (T S : Type) (c : cfg) (o : S → T * T → option comparison * S) (s : S)
    (inds : list nat) (l : list T),
  fits c (length l) →
  ∃ r s' l', run o (select_many_nth_unstable_by c (length l) inds) s l = (r, s', l') ∧
    Permutation l l' ∧
    match r with
    | Done refs => refs = map (λ i, (i, i)) inds ∧ NoDup (map snd refs) ∧
                   Forall (λ '(_, p), p < length l) refs
    | Panicked e => e = UserPanic ∨ e = DebugPanic ∧ dbg c = true ∨
                    ¬ valid_indices 0 (length l) inds ∧ (e = AssertPanic ∨ e = OverflowPanic)
    | _ => False
    end.
Proof. exact @select_many_nth_unstable_any_comparator_proof. Qed.
Print Assumptions select_many_nth_unstable_any_comparator.

Example select_many_nth_unstable_any_comparator_example :
  fits cfg_debug32 60 ∧
  (run bomb (select_many_nth_unstable_by cfg_debug32 60 [1; 17; 40]) 0 (seq 0 60)).1.1 =
    Panicked UserPanic ∧
  (run silly (select_many_nth_unstable_by cfg_debug32 60 [1; 17; 40]) 0 (seq 0 60)).1.1 =
    Done [(1, 1); (17, 17); (40, 40)].
Proof. split; [done|]. split; vm_compute; reflexivity. Qed.
