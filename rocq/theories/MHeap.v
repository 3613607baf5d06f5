(** * Model of src/heap_sort.rs (and the identical src/par/heap_sort.rs). *)
From Verif Require Export Ops.

Section heap.
  Context {T : Type}.
  Notation P A := (cmp_prog T A).

  (** src/heap_sort.rs:14-39 — the [sift_down] closure on a view of length [n]. *)
  Fixpoint sift_down (fuel n node : nat) : P unit :=
    match fuel with
    | 0 => NoFuel
    | S f =>
        let child := 2 * node + 1 in
        if n <=? child then Ret tt
        else
          child ← (if child + 1 <? n then
                     a ← get n child;
                     b ← get n (child + 1);
                     r ← is_less a b;
                     Ret (if r : bool then child + 1 else child)
                   else Ret child);
          a ← get n node;
          b ← get n child;
          r ← is_less a b;
          if r : bool then
            swap n node child ;;
            sift_down f n child
          else Ret tt
    end.

  (** src/heap_sort.rs:9-51 [heap_sort]. *)
  Definition heap_sort (n : nat) : P unit :=
    for_down 0 (n / 2) (λ i, sift_down (S n) n i) ;;
    for_down 1 (n - 1) (λ i,
      swap n 0 i ;;
      slice n 0 i (λ m, sift_down (S m) m 0)).
End heap.
