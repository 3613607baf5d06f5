(** * Model of src/merge_sort.rs and src/stable_sort.rs. *)
From Verif Require Export MInsertion MPartition.

(** src/merge_sort.rs:498-501 [TimSortRun]. *)
Record run_t := Run { r_start : nat; r_len : nat }.
Global Instance run_inhabited : Inhabited run_t := populate (Run 0 0).

(** src/merge_sort.rs:308-324 [collapse]. *)
Definition collapse (runs : list run_t) (stop : nat) : option nat :=
  let n := length runs in
  let len k := r_len (runs !!! k) in
  if (2 <=? n)
     && ((r_start (runs !!! (n - 1)) + len (n - 1) =? stop)
         || (len (n - 2) <=? len (n - 1))
         || ((3 <=? n) && (len (n - 3) <=? len (n - 2) + len (n - 1)))
         || ((4 <=? n) && (len (n - 4) <=? len (n - 3) + len (n - 2))))
  then
    if (3 <=? n) && (len (n - 3) <? len (n - 1)) then Some (n - 3) else Some (n - 2)
  else None.

Section merge.
  Context {T : Type} (c : cfg).
  Notation P A := (cmp_prog T A).

  (** The scratch buffer is modelled by the list of its initialised elements
      together with its capacity [cap]; an access outside of the capacity (write)
      or of the initialised part (read) is undefined behaviour. *)
  Definition buf_get (buf : list T) (i : nat) : P T :=
    match buf !! i with Some x => Ret x | None => Undef end.

  (** src/merge_sort.rs:55-57 and 99-101 — copy [v[base..base+cnt]] to [buf]. *)
  Fixpoint copy_out (cap n base i cnt : nat) (buf : list T) : P (list T) :=
    match cnt with
    | 0 => Ret buf
    | S k =>
        x ← get n (base + i);
        (if i <? cap then Ret tt else Undef) ;;
        copy_out cap n base (S i) k (buf ++ [x])
    end.

  (** src/merge_sort.rs:181-193 — drop of [MergeHole]: copy [buf[start..end]] to
      [v[dest..]]. *)
  Definition merge_hole_drop (n : nat) (buf : list T) (start end_ dest : nat) : P unit :=
    len ← usub end_ start;
    for_up 0 len (λ i,
      x ← buf_get buf (start + i);
      put n (dest + i) x).

  (** src/merge_sort.rs:72-93 — forward merge; [hole.start = left],
      [hole.end = mid], [hole.dest = out]. *)
  Fixpoint merge_fwd (fuel n mid : nat) (buf : list T) (left right out : nat) : P unit :=
    match fuel with
    | 0 => NoFuel
    | S f =>
        let drop_hole := merge_hole_drop n buf left mid out in
        if (left <? mid) && (right <? n) then
          x ← uget n right;
          y ← buf_get buf left;
          is_l ← on_unwind drop_hole (is_less x y);
          (if is_l : bool then nonoverlapping right out else Ret tt) ;;
          on_unwind drop_hole (put n out (if is_l : bool then x else y)) ;;
          (if is_l : bool
           then merge_fwd f n mid buf left (S right) (S out)
           else merge_fwd f n mid buf (S left) right (S out))
        else drop_hole
    end.

  (** src/merge_sort.rs:116-137 — backward merge; [hole.start = 0],
      [hole.end = right], [hole.dest = left]. *)
  Fixpoint merge_bwd (fuel n : nat) (buf : list T) (left right out : nat) : P unit :=
    match fuel with
    | 0 => NoFuel
    | S f =>
        let drop_hole left right := merge_hole_drop n buf 0 right left in
        if (0 <? left) && (0 <? right) then
          x ← buf_get buf (right - 1);
          y ← uget n (left - 1);
          is_l ← on_unwind (drop_hole left right) (is_less x y);
          let left := if is_l : bool then left - 1 else left in
          let right := if is_l : bool then right else right - 1 in
          out ← on_unwind (drop_hole left right) (usub out 1);
          (if is_l : bool then nonoverlapping left out else Ret tt) ;;
          on_unwind (drop_hole left right) (put n out (if is_l : bool then y else x)) ;;
          merge_bwd f n buf left right out
        else drop_hole left right
    end.

  (** src/merge_sort.rs:20-194 [merge] with a buffer of capacity [cap]. *)
  Definition merge (cap n mid : nat) : P unit :=
    rest ← usub n mid;
    if mid <=? rest then
      buf ← copy_out cap n 0 0 mid [];
      merge_fwd (S n) n mid buf 0 mid 0
    else
      buf ← copy_out cap n mid 0 rest [];
      merge_bwd (S n) n buf mid rest n.

  (** src/merge_sort.rs:561-563 / 567-569 — extend a streak whose [is_less]
      answers are all [want]. *)
  Fixpoint streak_loop (want : bool) (fuel n end_ : nat) : P nat :=
    match fuel with
    | 0 => NoFuel
    | S f =>
        if end_ <? n then
          a ← uget n end_;
          b ← uget n (end_ - 1);
          r ← is_less a b;
          if Bool.eqb r want then streak_loop want f n (S end_) else Ret end_
        else Ret end_
    end.

  (** src/merge_sort.rs:541-573 [find_streak]. *)
  Definition find_streak (n : nat) : P (nat * bool) :=
    if n <? 2 then Ret (n, false)
    else
      a ← uget n 1;
      b ← uget n 0;
      r ← is_less a b;
      e ← streak_loop r (S n) n 2;
      Ret (e, r).

  (** src/merge_sort.rs:519. *)
  Definition MIN_INSERTION_RUN : nat := 10.

  (** src/merge_sort.rs:505-536 [provide_sorted_batch]. *)
  Definition provide_sorted_batch (n start end_ : nat) : P nat :=
    assert ((start <=? end_) && (end_ <=? n)) ;;
    let diff := end_ - start in
    if (diff <? MIN_INSERTION_RUN) && (end_ <? n) then
      let end_ := Nat.min (start + MIN_INSERTION_RUN) n in
      slice n start end_ (λ m, insertion_sort_shift_left c m (Nat.max diff 1)) ;;
      Ret end_
    else Ret end_.

  (** [runs[r]] (src/merge_sort.rs:454-463, bounds-checked). *)
  Definition run_get (runs : list run_t) (r : nat) : P run_t :=
    match runs !! r with Some x => Ret x | None => Throw IndexPanic end.

  (** src/merge_sort.rs:273-287 — merge while [collapse] demands it.  Lines
      282-286 ([runs[r + 1] = ..; runs.remove(r)]) update the stack.  The
      allocation of the run stack ([RunVec], 367-493) is modelled by a list. *)
  Fixpoint collapse_loop (fuel cap n : nat) (runs : list run_t) : P (list run_t) :=
    match fuel with
    | 0 => NoFuel
    | S f =>
        match collapse runs n with
        | None => Ret runs
        | Some r =>
            left ← run_get runs r;
            right ← run_get runs (r + 1);
            slice n (r_start left) (r_start right + r_len right)
              (λ m, merge cap m (r_len left)) ;;
            collapse_loop f cap n
              (delete r (<[r + 1 := Run (r_start left) (r_len left + r_len right)]> runs))
        end
    end.

  (** src/merge_sort.rs:254-288 — the main loop. *)
  Fixpoint merge_sort_loop (fuel cap n start end_ : nat) (runs : list run_t) : P (list run_t) :=
    match fuel with
    | 0 => NoFuel
    | S f =>
        if end_ <? n then
          '(streak_end, was_reversed) ← slice n start n find_streak;
          let end_ := end_ + streak_end in
          (if was_reversed : bool then slice n start end_ reverse else Ret tt) ;;
          end_ ← provide_sorted_batch n start end_;
          len ← usub end_ start;
          runs ← collapse_loop (S (S (length runs))) cap n (runs ++ [Run start len]);
          merge_sort_loop f cap n end_ end_ runs
        else Ret runs
    end.

  (** src/merge_sort.rs:224. *)
  Definition MS_MAX_INSERTION : nat := 20.

  (** src/merge_sort.rs:209-291 [merge_sort]; the buffer has capacity [len / 2]
      (line 243). *)
  Definition merge_sort (n : nat) : P unit :=
    dassert c (negb (zst c)) ;;
    if n <=? MS_MAX_INSERTION then
      if 2 <=? n then insertion_sort_shift_left c n 1 else Ret tt
    else
      runs ← merge_sort_loop (S n) (n / 2) n 0 0 [];
      dassert c ((length runs =? 1) && (r_start (runs !!! 0) =? 0) && (r_len (runs !!! 0) =? n)).

  (** src/stable_sort.rs:19-72 [stable_sort]. *)
  Definition stable_sort (n : nat) : P unit :=
    if zst c then Ret tt else merge_sort n.
End merge.
