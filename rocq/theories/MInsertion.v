(** * Model of src/insertion_sort.rs (and of the identical code in
    src/par/insertion_sort.rs, where [is_less] is [&F] with [F: Fn]). *)
From Verif Require Export Ops.

Section insertion.
  Context {T : Type} (c : cfg).
  Notation P A := (cmp_prog T A).

  (** src/insertion_sort.rs:83-92 — the loop of [insert_tail]; [h] is the
      position of the hole ([hole.dest = v[h]], [j = h - 1]).  The
      [InsertionHole] drop (lines 31-40) writes [tmp] into the hole, on the
      normal exit and when [is_less] unwinds. *)
  Fixpoint insert_tail_loop (n : nat) (tmp : T) (h : nat) : P unit :=
    match h with
    | 0 => uput n 0 tmp
    | S j =>
        y ← uget n j;
        r ← on_unwind (uput n (S j) tmp) (is_less tmp y);
        if r : bool then
          uput n (S j) y ;;
          insert_tail_loop n tmp j
        else uput n (S j) tmp
    end.

  (** src/insertion_sort.rs:45-95 [insert_tail]. *)
  Definition insert_tail (n : nat) : P unit :=
    dassert c (2 <=? n) ;;
    i ← usub n 1;
    i1 ← usub i 1;
    a ← uget n i;
    b ← uget n i1;
    r ← is_less a b;
    if r : bool then
      tmp ← uget n i;
      x ← uget n i1;
      uput n i x ;;
      insert_tail_loop n tmp i1
    else Ret tt.

  (** src/insertion_sort.rs:148-156 — the loop of [insert_head]: [i] runs over
      [2..len], [cnt] iterations are left, the hole is at [i - 1]. *)
  Fixpoint insert_head_loop (n : nat) (tmp : T) (i cnt : nat) : P unit :=
    match cnt with
    | 0 => uput n (i - 1) tmp
    | S k =>
        y ← uget n i;
        r ← on_unwind (uput n (i - 1) tmp) (is_less y tmp);
        if r : bool then
          uput n (i - 1) y ;;
          insert_head_loop n tmp (S i) k
        else uput n (i - 1) tmp
    end.

  (** src/insertion_sort.rs:101-159 [insert_head]. *)
  Definition insert_head (n : nat) : P unit :=
    dassert c (2 <=? n) ;;
    a ← uget n 1;
    b ← uget n 0;
    r ← is_less a b;
    if r : bool then
      tmp ← uget n 0;
      x ← uget n 1;
      uput n 0 x ;;
      insert_head_loop n tmp 2 (n - 2)
    else Ret tt.

  (** src/insertion_sort.rs:166-187 [insertion_sort_shift_left]. *)
  Definition insertion_sort_shift_left (n offset : nat) : P unit :=
    assert (negb (offset =? 0) && (offset <=? n)) ;;
    for_up offset (n - offset) (λ i, slice n 0 (S i) insert_tail).

  (** src/insertion_sort.rs:194-216 [insertion_sort_shift_right]. *)
  Definition insertion_sort_shift_right (n offset : nat) : P unit :=
    assert (negb (offset =? 0) && (offset <=? n) && (2 <=? n)) ;;
    for_down 0 offset (λ i, slice n i n insert_head).

  (** src/insertion_sort.rs:240-242 — [while i < len && !is_less(v[i], v[i-1])]. *)
  Fixpoint find_unsorted (fuel n i : nat) : P nat :=
    match fuel with
    | 0 => NoFuel
    | S f =>
        if i <? n then
          i1 ← usub i 1;
          a ← uget n i;
          b ← uget n i1;
          r ← is_less a b;
          if r : bool then Ret i else find_unsorted f n (S i)
        else Ret i
    end.

  (** src/insertion_sort.rs:229. *)
  Definition SHORTEST_SHIFTING : nat := 50.
  (** src/insertion_sort.rs:227. *)
  Definition MAX_STEPS : nat := 5.

  (** src/insertion_sort.rs:234-268 — the outer loop of
      [partial_insertion_sort]. *)
  Fixpoint partial_insertion_steps (steps n i : nat) : P bool :=
    match steps with
    | 0 => Ret false
    | S st =>
        i ← find_unsorted (S n) n i;
        if i =? n then Ret true
        else if n <? SHORTEST_SHIFTING then Ret false
        else
          i1 ← usub i 1;
          swap n i1 i ;;
          (if 2 <=? i then
             slice n 0 i (λ m, insertion_sort_shift_left m i1) ;;
             slice n 0 i (λ m, insertion_sort_shift_right m 1)
           else Ret tt) ;;
          partial_insertion_steps st n i
    end.

  (** src/insertion_sort.rs:222-269 [partial_insertion_sort]. *)
  Definition partial_insertion_sort (n : nat) : P bool :=
    partial_insertion_steps MAX_STEPS n 1.
End insertion.
