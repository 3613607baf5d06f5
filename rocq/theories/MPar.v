(** * Model of the parallel quicksort and selection (src/par/quick_sort.rs and
    src/par/partition.rs).

    The other functions of src/par/insertion_sort.rs, src/par/heap_sort.rs and
    src/par/partition.rs are the sequential ones with [is_less: &F], [F: Fn]
    instead of [&mut F], [F: FnMut]; their models are shared. *)
From Verif Require Export Subst MQuick MSelect.
From Coq Require Import NArith.

Section join.
  Context {T Q R : Type}.
  Notation P A := (prog T Q R A).
  (** [rayon::join]: both arms always run; if the left one panicked its panic is
      propagated, else that of the right one. *)
  Definition rayon_join {B C} (p1 : P B) (p2 : P C) : P (B * C) :=
    Par p1 p2 (λ b c,
      match b, c with
      | inl b, inl c => Ret (b, c)
      | inr e, _ => Throw e
      | inl _, inr e => Throw e
      end).
End join.

Section par.
  Context {T : Type} (c : cfg).
  Notation P A := (cmp_prog T A).

  (** [len <= MAX_SEQUENTIAL], src/par/quick_sort.rs:53 and src/par/partition.rs:37. *)
  Definition sequential (len : nat) : bool := (N.of_nat len <=? 2000)%N.

  (** src/par/quick_sort.rs:40-142 [recurse].  One fuel bounds both the iterations
      of the loop and the recursive calls: the length decreases in each.  As in
      [qs_recurse], [pred] is modelled by the value it refers to; it is an
      exclusive borrow of an element outside of [v], so no task can change it
      while it is borrowed. *)
  Fixpoint par_qs_recurse (fuel n : nat) (pred : option T) (limit : nat) (wb wp : bool) : P unit :=
    match fuel with
    | 0 => NoFuel
    | S f =>
        if n <=? QS_MAX_INSERTION then
          if 2 <=? n then insertion_sort_shift_left c n 1 else Ret tt
        else if limit =? 0 then heap_sort n
        else
          limit ← (if wb then Ret limit
                   else break_patterns c n ;; usub limit 1);
          '(pivot, likely_sorted) ← choose_pivot n;
          done ← (if wb && wp && likely_sorted
                  then partial_insertion_sort c n else Ret false);
          if done : bool then Ret tt
          else
            eq ← match pred with
                 | Some p =>
                     x ← get n pivot;
                     r ← is_less p x;
                     Ret (negb r)
                 | None => Ret false
                 end;
            if eq : bool then
              mid ← partition_equal n pivot;
              slice n mid n (λ m, par_qs_recurse f m pred limit wb wp)
            else
              '(mid, was_p) ← partition c n pivot;
              nmid ← usub n mid;
              let wb := n / 8 <=? Nat.min mid nmid in
              let wp := was_p in
              slice n mid n (λ m, slice m 0 1 (λ _, Ret tt)) ;;   (* the two split_at *)
              p ← get n mid;
              let right := n - (mid + 1) in
              if sequential (Nat.max mid right) then
                if mid <? right then
                  slice n 0 mid (λ m, par_qs_recurse f m pred limit true true) ;;
                  slice n (mid + 1) n (λ m, par_qs_recurse f m (Some p) limit wb wp)
                else
                  slice n (mid + 1) n (λ m, par_qs_recurse f m (Some p) limit true true) ;;
                  slice n 0 mid (λ m, par_qs_recurse f m pred limit wb wp)
              else
                rayon_join (slice n 0 mid (λ m, par_qs_recurse f m pred limit true true))
                           (slice n (mid + 1) n (λ m, par_qs_recurse f m (Some p) limit true true)) ;;
                Ret tt
    end.

  (** src/par/quick_sort.rs:18-32 [par_quick_sort]. *)
  Definition par_quick_sort (n : nat) : P unit :=
    if zst c then Ret tt
    else par_qs_recurse (S n) n None (bit_length n) true true.

  (** src/par/partition.rs:25-81 [par_partition_at_indices].  The view [v] is the
      subview of length [n] starting at position [base] of the caller's array.
      The slots [values] (of length [vlen]) are modelled by the returned list:
      [Some p] is a slot written with the [&mut] of the element at position [p] of
      the caller's array, [None] is a slot that was not written.  The pieces of
      [values] given to the two tasks are disjoint by [split_at_mut].  [i] is
      [pivot - offset] (line 45 and, once more, line 51). *)
  Fixpoint par_partition_at_indices (fuel n base offset vlen : nat) (inds : list nat) :
      P (list (option nat)) :=
    match fuel with
    | 0 => NoFuel
    | S f =>
        match inds with
        | [] => Ret (replicate vlen None)
        | _ =>
            let at_ := length inds / 2 in
            let left_inds := take at_ inds in
            match drop at_ inds with
            | [] => Throw IndexPanic          (* split_at(Axis(0), 1) *)
            | pivot :: right_inds =>
                i ← rel_index c n pivot offset;
                '(lv, value, rv) ← partition_at_index c n i;
                if vlen <=? at_ then Throw IndexPanic          (* values[at] *)
                else
                  let left := slice n lv.1 (lv.1 + lv.2) (λ m,
                    par_partition_at_indices f m (base + lv.1) offset at_ left_inds) in
                  let right := slice n rv.1 (rv.1 + rv.2) (λ m,
                    par_partition_at_indices f m (base + rv.1) (pivot + 1)
                      (vlen - at_ - 1) right_inds) in
                  '(ls, rs) ←
                    (if (at_ =? 0) || sequential i then
                       ls ← left;
                       rs ← right;
                       Ret (ls, rs)
                     else rayon_join left right);
                  Ret (ls ++ Some (base + value) :: rs)
            end
        end
    end.

  (** src/lib.rs:1893-1900 [par_sort_unstable]. *)
  Definition par_sort_unstable (n : nat) : P unit := par_quick_sort n.
  (** src/lib.rs:1901-1910 [par_sort_unstable_by]. *)
  Definition par_sort_unstable_by (n : nat) : prog T (T * T) (option comparison) unit :=
    by_compare (par_quick_sort n).
  (** src/lib.rs:1911-1921 [par_sort_unstable_by_key]. *)
  Definition par_sort_unstable_by_key {K} (n : nat) : prog T (key_question K) (key_answer K) unit :=
    by_key (par_quick_sort n).

  (** src/lib.rs:1973-1987 [par_select_many_nth_unstable] on a collection [coll]
      (the positions its references point to) whose capacity after
      [reserve_exact] leaves room for [vlen >= indices.len()] elements.  Returns
      the new collection; [set_len] makes the first [indices.len()] slots part of
      it, [None] is an uninitialised one.  If the call panics the collection is
      unchanged because [set_len] is not reached. *)
  Definition par_select_many (n vlen : nat) (inds : list nat) : P (list (option nat)) :=
    slots ← par_partition_at_indices (S (length inds)) n 0 0 vlen inds;
    Ret (take (length inds) slots).
  Definition par_select_many_nth_unstable (n vlen : nat) (inds : list nat) :
      P (list (option nat)) := par_select_many n vlen inds.
  (** src/lib.rs:1988-2010 [par_select_many_nth_unstable_by]. *)
  Definition par_select_many_nth_unstable_by (n vlen : nat) (inds : list nat) :
      prog T (T * T) (option comparison) (list (option nat)) := by_compare (par_select_many n vlen inds).
  (** src/lib.rs:2011-2036 [par_select_many_nth_unstable_by_key]. *)
  Definition par_select_many_nth_unstable_by_key {K} (n vlen : nat) (inds : list nat) :
      prog T (key_question K) (key_answer K) (list (option nat)) := by_key (par_select_many n vlen inds).
End par.
