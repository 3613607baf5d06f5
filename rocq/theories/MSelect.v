(** * Model of the selection part of src/partition.rs. *)
From Verif Require Export MInsertion MPartition.
From Coq Require Import NArith.

(** src/partition.rs:18. *)
Definition SEL_MAX_INSERTION : nat := 10.

Section select.
  Context {T : Type} (c : cfg).
  Notation P A := (cmp_prog T A).

  (** [v.iter().enumerate().max_by(from_is_less(is_less))], src/partition.rs:66
      and 84-94.  core's [max_by] folds from the first element and replaces the
      accumulator unless [compare(acc, x)] is [Greater]; [from_is_less] returns
      [Less] or [Greater]. *)
  Fixpoint max_by_loop (n acc : nat) (i cnt : nat) : P nat :=
    match cnt with
    | 0 => Ret acc
    | S k =>
        a ← get n acc;
        x ← get n i;
        r ← is_less a x;
        max_by_loop n (if r : bool then i else acc) (S i) k
    end.
  (** [min_by], src/partition.rs:71: replaces the accumulator iff
      [compare(acc, x)] is [Greater]. *)
  Fixpoint min_by_loop (n acc : nat) (i cnt : nat) : P nat :=
    match cnt with
    | 0 => Ret acc
    | S k =>
        a ← get n acc;
        x ← get n i;
        r ← is_less a x;
        min_by_loop n (if r : bool then acc else i) (S i) k
    end.
  (** [.unwrap()] on an empty iterator panics. *)
  Definition max_index (n : nat) : P nat :=
    if n =? 0 then Throw AssertPanic else max_by_loop n 0 1 (n - 1).
  Definition min_index (n : nat) : P nat :=
    if n =? 0 then Throw AssertPanic else min_by_loop n 0 1 (n - 1).

  (** src/partition.rs:314-331 [median_idx]. *)
  Definition median_idx (n a b d : nat) : P nat :=
    vd ← get n d;
    va ← get n a;
    r ← is_less vd va;
    let '(a, d) := if r : bool then (d, a) else (a, d) in
    vd ← get n d;
    vb ← get n b;
    r ← is_less vd vb;
    if r : bool then Ret d
    else
      vb ← get n b;
      va ← get n a;
      r ← is_less vb va;
      if r : bool then Ret a else Ret b.

  (** [is_less(&v[i], &v[j])]. *)
  Definition less_at (n i j : nat) : P bool :=
    x ← get n i;
    y ← get n j;
    is_less x y.

  (** src/partition.rs:277-310 [ninther] (the array [n] of the source is the nine
      indices [a b d0 d e f g h i]; [d0] is the source's [c]). *)
  Definition ninther (n a b d0 d e f g h i : nat) : P unit :=
    b ← median_idx n a b d0;
    h ← median_idx n g h i;
    r ← less_at n h b;
    let '(b, h) := if r : bool then (h, b) else (b, h) in
    r ← less_at n f d;
    let '(d, f) := if r : bool then (f, d) else (d, f) in
    r1 ← less_at n e d;
    (* [inl d']: fall through to line 303 with [d = d']; [inr ()]: returned. *)
    k ← (if r1 : bool then Ret (inl d)
         else
           r2 ← less_at n f e;
           if r2 : bool then Ret (inl f)
           else
             r3 ← less_at n e b;
             (if r3 : bool then swap n e b
              else
                r4 ← less_at n h e;
                if r4 : bool then swap n e h else Ret tt) ;;
             Ret (inr tt));
    match k with
    | inr _ => Ret tt
    | inl d =>
        r ← less_at n d b;
        d ← (if r : bool then Ret b
             else
               r ← less_at n h d;
               Ret (if r : bool then h else d));
        swap n d e
    end.

  (** src/partition.rs:246-252. *)
  Definition ninther_frac (n : nat) : nat :=
    if n <=? 1024 then n / 12
    else if (N.of_nat n <=? 131072)%N then n / 64
    else n / 1024.

  (** src/partition.rs:260-268. *)
  Fixpoint ninthers_loop (n frac i cnt a b : nat) : P unit :=
    match cnt with
    | 0 => Ret tt
    | S k =>
        im ← usub i frac;
        ninther n a im b (a + 1) i (b + 1) (a + 2) (i + frac) (b + 2) ;;
        ninthers_loop n frac (S i) k (a + 3) (b + 3)
    end.

  (** src/partition.rs:241-272 [median_of_ninthers]; [rec] is the recursive
      [median_of_medians]. *)
  Definition median_of_ninthers (rec : nat → nat → P unit) (n : nat) : P nat :=
    let frac := ninther_frac n in
    let pivot := frac / 2 in
    lo ← usub (n / 2) pivot;
    let hi := frac + lo in
    g ← usub n (9 * frac);
    let gap := g / 4 in
    a ← usub lo (4 * frac);
    a ← usub a gap;
    let b := hi + gap in
    ninthers_loop n frac lo (hi - lo) a b ;;
    slice n lo (lo + frac) (λ m, rec m pivot) ;;
    '(p, _) ← partition c n (lo + pivot);
    Ret p.

  (** src/partition.rs:183-236 [median_of_medians]: outer fuel for the recursion
      through [median_of_ninthers], inner fuel for the loop. *)
  Fixpoint median_of_medians (depth : nat) : ∀ (n k : nat), P unit :=
    match depth with
    | 0 => λ _ _, NoFuel
    | S depth' => λ n k,
        dassert c (k <? n) ;;
        dassert c (negb (zst c)) ;;
        (fix loop (fuel n k : nat) : P unit :=
           match fuel with
           | 0 => NoFuel
           | S f =>
               if n <=? SEL_MAX_INSERTION then
                 if 1 <? n then insertion_sort_shift_left c n 1 else Ret tt
               else if k =? n - 1 then
                 m ← max_index n; swap n m k
               else if k =? 0 then
                 m ← min_index n; swap n m k
               else
                 p ← median_of_ninthers (median_of_medians depth') n;
                 match Nat.compare p k with
                 | Eq => Ret tt
                 | Gt => slice n 0 p (λ m, loop f m k)
                 | Lt =>
                     k' ← usub k (p + 1);
                     slice n (p + 1) n (λ m, loop f m k')
                 end
           end) (S n) n k
    end.

  (** src/partition.rs:110. *)
  Definition SEL_LIMIT : nat := 16.

  (** src/partition.rs:115-178 — the loop of [partition_at_index_loop]. *)
  Fixpoint pai_loop (fuel n index : nat) (pred : option T) (limit : nat) (wb : bool) : P unit :=
    match fuel with
    | 0 => NoFuel
    | S f =>
        if n <=? SEL_MAX_INSERTION then
          if negb (n =? 0) then insertion_sort_shift_left c n 1 else Ret tt
        else if limit =? 0 then median_of_medians (S (bit_length n)) n index
        else
          limit ← (if wb then Ret limit
                   else break_patterns c n ;; usub limit 1);
          '(pivot, _) ← choose_pivot n;
          eq ← match pred with
               | Some p =>
                   x ← get n pivot;
                   r ← is_less p x;
                   Ret (negb r)
               | None => Ret false
               end;
          if eq : bool then
            mid ← partition_equal n pivot;
            if index <? mid then Ret tt
            else
              index' ← usub index mid;
              slice n mid n (λ m, pai_loop f m index' None limit wb)
          else
            '(mid, _) ← partition c n pivot;
            nmid ← usub n mid;
            let wb := n / 8 <=? Nat.min mid nmid in
            slice n mid n (λ m, slice m 0 1 (λ _, Ret tt)) ;;
            p ← get n mid;
            match Nat.compare mid index with
            | Lt =>
                index' ← usub index (mid + 1);
                slice n (mid + 1) n (λ m, pai_loop f m index' (Some p) limit wb)
            | Gt => slice n 0 mid (λ m, pai_loop f m index pred limit wb)
            | Eq => Ret tt
            end
    end.

  (** src/partition.rs:96-179 [partition_at_index_loop]. *)
  Definition partition_at_index_loop (n index : nat) (pred : option T) : P unit :=
    pai_loop (S n) n index pred SEL_LIMIT true.

  (** [split_at(Axis(0), at)] of a subview given by its start and length. *)
  Definition split_at (v : nat * nat) (at_ : nat) : P ((nat * nat) * (nat * nat)) :=
    if at_ <=? v.2 then Ret ((v.1, at_), (v.1 + at_, v.2 - at_)) else Throw IndexPanic.
  (** [.index(0)] of a subview: the position of its first element. *)
  Definition index0 (v : nat * nat) : P nat :=
    if v.2 =? 0 then Throw IndexPanic else Ret v.1.

  (** src/partition.rs:45-80 [partition_at_index].  Returns the three parts: left
      subview (start and length), position of the selected element, right
      subview. *)
  Definition partition_at_index (n index : nat) : P ((nat * nat) * nat * (nat * nat)) :=
    if n <=? index then Throw AssertPanic
    else
      (if zst c then Ret tt
       else if index =? n - 1 then
         m ← max_index n; swap n m index
       else if index =? 0 then
         m ← min_index n; swap n m index
       else partition_at_index_loop n index None) ;;
      '(lv, rv) ← split_at (0, n) index;
      '(pivot, rv) ← split_at rv 1;
      value ← index0 pivot;
      Ret (lv, value, rv).

  (** [pivot - offset] on src/partition.rs:35.  With overflow checks an underflow
      panics.  Without, it wraps modulo [2^BITS]; wrapped values [>= n] are
      represented by [n], because [partition_at_index] panics alike for every
      index [>= n]. *)
  Definition rel_index (n pivot offset : nat) : P nat :=
    if offset <=? pivot then Ret (pivot - offset)
    else if ovf c then Throw OverflowPanic
    else
      let w := (N.of_nat pivot + (if wide c then 2 ^ 64 else 2 ^ 32) - N.of_nat offset)%N in
      Ret (if (w <? N.of_nat n)%N then N.to_nat w else n).

  (** src/partition.rs:20-42 [partition_at_indices].  The view [v] is the
      subview of length [n] starting at position [base] of the caller's array.
      The collection is modelled by the list of extended pairs: the index and
      the position (in the caller's array) of the element whose [&mut] is stored.
      Outer fuel: recursion depth; the inner loop decreases [inds]. *)
  Fixpoint partition_at_indices (depth : nat) :
      ∀ (fuel n base offset : nat) (inds : list nat), P (list (nat * nat)) :=
    match depth with
    | 0 => λ _ _ _ _ _, NoFuel
    | S depth' =>
        fix loop (fuel n base offset : nat) (inds : list nat) : P (list (nat * nat)) :=
          match fuel with
          | 0 => NoFuel
          | S f =>
              match inds with
              | [] => Ret []
              | _ =>
                  let at_ := length inds / 2 in
                  let left_inds := take at_ inds in
                  match drop at_ inds with
                  | [] => Throw IndexPanic          (* split_at(Axis(0), 1) *)
                  | pivot :: right_inds =>
                      i ← rel_index n pivot offset;
                      '(lv, value, rv) ← partition_at_index n i;
                      ls ← slice n lv.1 (lv.1 + lv.2) (λ m,
                             partition_at_indices depth' (S (length left_inds)) m
                               (base + lv.1) offset left_inds);
                      rs ← slice n rv.1 (rv.1 + rv.2) (λ m,
                             loop f m (base + rv.1) (pivot + 1) right_inds);
                      Ret (ls ++ (pivot, base + value) :: rs)
                  end
              end
          end
    end.
End select.
