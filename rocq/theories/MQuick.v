(** * Model of src/quick_sort.rs. *)
From Verif Require Export MInsertion MHeap MPartition.

Section quick.
  Context {T : Type} (c : cfg).
  Notation P A := (cmp_prog T A).

  (** src/quick_sort.rs:46. *)
  Definition QS_MAX_INSERTION : nat := 20.

  (** src/quick_sort.rs:37-127 [recurse].  The outer fuel bounds the depth of the
      recursive calls ([maybe_grow(|| recurse(..))]), the inner fuel the
      iterations of the [loop]; [wb]/[wp] are [was_balanced]/[was_partitioned].
      [pred] is modelled by the value of the element it refers to (it is a shared
      borrow of an element outside of [v]). *)
  Fixpoint qs_recurse (depth : nat) :
      ∀ (fuel n : nat) (pred : option T) (limit : nat) (wb wp : bool), P unit :=
    match depth with
    | 0 => λ _ _ _ _ _ _, NoFuel
    | S depth' =>
        fix loop (fuel n : nat) (pred : option T) (limit : nat) (wb wp : bool) : P unit :=
          match fuel with
          | 0 => NoFuel
          | S f =>
              if n <=? QS_MAX_INSERTION then
                if 2 <=? n then insertion_sort_shift_left c n 1 else Ret tt
              else if limit =? 0 then heap_sort n
              else
                limit ← (if wb then Ret limit
                         else break_patterns c n ;; usub limit 1);
                '(pivot, likely_sorted) ← choose_pivot n;
                done ← (if wb && wp && likely_sorted
                        then partial_insertion_sort c n else Ret false);
                if done : bool then Ret tt
                else
                  eq ← match pred with
                       | Some p =>
                           x ← get n pivot;
                           r ← is_less p x;
                           Ret (negb r)
                       | None => Ret false
                       end;
                  if eq : bool then
                    mid ← partition_equal n pivot;
                    slice n mid n (λ m, loop f m pred limit wb wp)
                  else
                    '(mid, was_p) ← partition c n pivot;
                    nmid ← usub n mid;
                    let wb := n / 8 <=? Nat.min mid nmid in
                    let wp := was_p in
                    slice n mid n (λ m, slice m 0 1 (λ _, Ret tt)) ;;   (* the two split_at *)
                    p ← get n mid;
                    let right := n - (mid + 1) in
                    if mid <? right then
                      slice n 0 mid (λ m, qs_recurse depth' (S m) m pred limit true true) ;;
                      slice n (mid + 1) n (λ m, loop f m (Some p) limit wb wp)
                    else
                      slice n (mid + 1) n (λ m, qs_recurse depth' (S m) m (Some p) limit true true) ;;
                      slice n 0 mid (λ m, loop f m pred limit wb wp)
          end
    end.

  (** src/quick_sort.rs:16-29 [quick_sort].  The recursion-depth fuel is the bit
      length of [n] plus one: that it suffices is a theorem. *)
  Definition quick_sort (n : nat) : P unit :=
    if zst c then Ret tt
    else qs_recurse (S (bit_length n)) (S n) n None (bit_length n) true true.
End quick.
