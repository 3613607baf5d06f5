(** * MWordQuick: the parallel unstable sort and selection with [usize] words.

    This is the model of MPar once more, now with every sum and difference of
    src/par/quick_sort.rs and src/par/partition.rs computed by [uadd] and [wsub] of the
    build.  As in MPar the functions shared with the sequential algorithms are those of
    MWord; addresses and lengths of views, which ndarray computes, are natural numbers. *)
From Verif Require Export MWord MPar.
From Coq Require Import NArith.

Section par.
  Context {T : Type} (c : cfg).
  Notation P A := (cmp_prog T A).

  (** src/par/quick_sort.rs:40-142 [recurse]. *)
  Fixpoint par_qs_recurse_w (fuel n : nat) (pred : option T) (limit : nat) (wb wp : bool) : P unit :=
    match fuel with
    | 0 => NoFuel
    | S f =>
        if n <=? QS_MAX_INSERTION then
          if 2 <=? n then insertion_sort_shift_left_w c n 1 else Ret tt
        else if limit =? 0 then heap_sort_w c n
        else
          limit ← (if wb then Ret limit
                   else break_patterns_w c n ;; wsub c limit 1);          (* line 83 *)
          '(pivot, likely_sorted) ← choose_pivot_w c n;
          done ← (if wb && wp && likely_sorted
                  then partial_insertion_sort_w c n else Ret false);
          if done : bool then Ret tt
          else
            eq ← match pred with
                 | Some p =>
                     x ← get n pivot;
                     r ← is_less p x;
                     Ret (negb r)
                 | None => Ret false
                 end;
            if eq : bool then
              mid ← partition_equal_w c n pivot;
              slice n mid n (λ m, par_qs_recurse_w f m pred limit wb wp)
            else
              '(mid, was_p) ← partition_w c n pivot;
              nmid ← wsub c n mid;                                        (* line 113 *)
              let wb := n / 8 <=? Nat.min mid nmid in
              let wp := was_p in
              slice n mid n (λ m, slice m 0 1 (λ _, Ret tt)) ;;
              p ← get n mid;
              let right := n - (mid + 1) in
              if sequential (Nat.max mid right) then
                if mid <? right then
                  slice n 0 mid (λ m, par_qs_recurse_w f m pred limit true true) ;;
                  slice n (mid + 1) n (λ m, par_qs_recurse_w f m (Some p) limit wb wp)
                else
                  slice n (mid + 1) n (λ m, par_qs_recurse_w f m (Some p) limit true true) ;;
                  slice n 0 mid (λ m, par_qs_recurse_w f m pred limit wb wp)
              else
                rayon_join (slice n 0 mid (λ m, par_qs_recurse_w f m pred limit true true))
                           (slice n (mid + 1) n (λ m, par_qs_recurse_w f m (Some p) limit true true)) ;;
                Ret tt
    end.

  (** src/par/quick_sort.rs:18-32 [par_quick_sort]; [usize::BITS - leading_zeros] is a
      difference of [u32]s and never negative. *)
  Definition par_quick_sort_w (n : nat) : P unit :=
    if zst c then Ret tt
    else par_qs_recurse_w (S n) n None (bit_length n) true true.

  (** src/par/partition.rs:25-81 [par_partition_at_indices]. *)
  Fixpoint par_partition_at_indices_w (fuel n base offset vlen : nat) (inds : list nat) :
      P (list (option nat)) :=
    match fuel with
    | 0 => NoFuel
    | S f =>
        match inds with
        | [] => Ret (replicate vlen None)
        | _ =>
            let at_ := length inds / 2 in
            let left_inds := take at_ inds in
            match drop at_ inds with
            | [] => Throw IndexPanic
            | pivot :: right_inds =>
                i ← wsub c pivot offset;                                  (* line 45 *)
                '(lv, value, rv) ← partition_at_index_w c n i;
                if vlen <=? at_ then Throw IndexPanic
                else
                  let left := slice n lv.1 (lv.1 + lv.2) (λ m,
                    par_partition_at_indices_w f m (base + lv.1) offset at_ left_inds) in
                  let right :=
                    offset' ← uadd c pivot 1;                             (* lines 56 and 72 *)
                    slice n rv.1 (rv.1 + rv.2) (λ m,
                      par_partition_at_indices_w f m (base + rv.1) offset'
                        (vlen - at_ - 1) right_inds) in
                  small ← (if at_ =? 0 then Ret true                      (* line 51 *)
                           else i' ← wsub c pivot offset; Ret (sequential i'));
                  '(ls, rs) ←
                    (if small : bool then
                       ls ← left;
                       rs ← right;
                       Ret (ls, rs)
                     else rayon_join left right);
                  Ret (ls ++ Some (base + value) :: rs)
            end
        end
    end.

  (** src/lib.rs:1893-1921, 1973-2036. *)
  Definition par_sort_unstable_w (n : nat) : P unit := par_quick_sort_w n.
  Definition par_sort_unstable_by_w (n : nat) : prog T (T * T) (option comparison) unit :=
    by_compare (par_quick_sort_w n).
  Definition par_sort_unstable_by_key_w {K} (n : nat) : prog T (key_question K) (key_answer K) unit :=
    by_key (par_quick_sort_w n).
  Definition par_select_many_w (n vlen : nat) (inds : list nat) : P (list (option nat)) :=
    slots ← par_partition_at_indices_w (S (length inds)) n 0 0 vlen inds;
    Ret (take (length inds) slots).
  Definition par_select_many_by_w (n vlen : nat) (inds : list nat) :
      prog T (T * T) (option comparison) (list (option nat)) := by_compare (par_select_many_w n vlen inds).
  Definition par_select_many_by_key_w {K} (n vlen : nat) (inds : list nat) :
      prog T (key_question K) (key_answer K) (list (option nat)) := by_key (par_select_many_w n vlen inds).
End par.
