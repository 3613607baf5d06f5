(** * MLend: [select_many_nth_unstable] with the caller's collection.

    MSelect.v returns the list of references that [partition_at_indices] passes to the
    collection.  Here the collection is code of the caller like the comparator: it is called
    in the midst of the selection, it may panic, and from then on it owns the reference
    [&'a mut T], so it and anyone it shares the reference with may change the element. *)
From Verif Require Export Subst MSelect.

(** The caller's code is asked whether [a < b], or to take the reference to the element at
    position [pos] of the caller's array ([collection.extend([(index, value)])]).
    The answer is [None] for a panic. *)
Inductive lend_question (T : Type) :=
| IsLess (q : T * T)
| Extend (index pos : nat).
Global Arguments IsLess {T} q.
Global Arguments Extend {T} index pos.

Section lend.
  Context {T : Type} (c : cfg).
  Notation P A := (prog T (lend_question T) (option bool) A).

  (** Code that calls the comparator only. *)
  Definition lend_less {A} (p : cmp_prog T A) : P A := with_asks (λ q, Ask (IsLess q) Ret) p.
  (** src/partition.rs:37. *)
  Definition extend (index pos : nat) : P unit :=
    Ask (Extend index pos) (λ r, match r with Some _ => Ret tt | None => Throw UserPanic end).

  (** src/partition.rs:20-42 [partition_at_indices]; [base], fuel and depth as in MSelect.v. *)
  Fixpoint lend_at_indices (depth : nat) :
      ∀ (fuel n base offset : nat) (inds : list nat), P unit :=
    match depth with
    | 0 => λ _ _ _ _ _, NoFuel
    | S depth' =>
        fix loop (fuel n base offset : nat) (inds : list nat) : P unit :=
          match fuel with
          | 0 => NoFuel
          | S f =>
              match inds with
              | [] => Ret tt
              | _ =>
                  let at_ := length inds / 2 in
                  let left_inds := take at_ inds in
                  match drop at_ inds with
                  | [] => Throw IndexPanic
                  | pivot :: right_inds =>
                      i ← lend_less (rel_index c n pivot offset);
                      '(lv, value, rv) ← lend_less (partition_at_index c n i);
                      slice n lv.1 (lv.1 + lv.2) (λ m,
                        lend_at_indices depth' (S (length left_inds)) m (base + lv.1) offset left_inds) ;;
                      extend pivot (base + value) ;;
                      slice n rv.1 (rv.1 + rv.2) (λ m,
                        loop f m (base + rv.1) (pivot + 1) right_inds)
                  end
              end
          end
    end.

  (** src/lib.rs:2038-2051 [select_many_nth_unstable]. *)
  Definition select_many_lend (n : nat) (inds : list nat) : P unit :=
    lend_at_indices (S (bit_length (length inds))) (S (length inds)) n 0 0 inds.
End lend.
