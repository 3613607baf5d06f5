(** * Model of the partitioning part of src/partition.rs (and the identical
    functions of src/par/partition.rs). *)
From Verif Require Export Ops.
From Coq Require Import NArith.

(** src/partition.rs:483. *)
Definition BLOCK : nat := 128.

(** [width] of src/partition.rs:530-532. *)
Definition width {T Q R} (l r : nat) : prog T Q R nat := usub r l.

Section partition.
  Context {T : Type} (c : cfg).
  Notation P A := (cmp_prog T A).

  (** src/partition.rs:371-373 — [while l < r && !is_less(pivot, v[l]) { l += 1 }]. *)
  Fixpoint pe_scan_l (fuel n : nat) (pivot : T) (l r : nat) : P nat :=
    match fuel with
    | 0 => NoFuel
    | S f =>
        if l <? r then
          x ← uget n l;
          b ← is_less pivot x;
          if b : bool then Ret l else pe_scan_l f n pivot (S l) r
        else Ret l
    end.

  (** src/partition.rs:376-381 — [loop { r -= 1; if l >= r || !is_less(pivot, v[r]) { break } }]. *)
  Fixpoint pe_scan_r (fuel n : nat) (pivot : T) (l r : nat) : P nat :=
    match fuel with
    | 0 => NoFuel
    | S f =>
        r ← usub r 1;
        if r <=? l then Ret r
        else
          x ← uget n r;
          b ← is_less pivot x;
          if b : bool then pe_scan_r f n pivot l r else Ret r
    end.

  (** src/partition.rs:364-392 — main loop of [partition_equal] on the view
      without the pivot; returns [l]. *)
  Fixpoint pe_loop (fuel n : nat) (pivot : T) (l r : nat) : P nat :=
    match fuel with
    | 0 => NoFuel
    | S f =>
        l ← pe_scan_l (S n) n pivot l r;
        r ← pe_scan_r (S n) n pivot l r;
        if r <=? l then Ret l
        else
          uswap n l r ;;
          pe_loop f n pivot (S l) r
    end.

  (** src/partition.rs:337-398 [partition_equal].  [tmp] is the stack copy of the
      pivot; the [InsertionHole] guard (lines 350-353, 921-930) writes it back to
      [v[0]] on every exit. *)
  Definition partition_equal (n pivot : nat) : P nat :=
    swap n 0 pivot ;;
    slice n 0 1 (λ _, Ret tt) ;;          (* v.split_at(Axis(0), 1) *)
    tmp ← get n 0;
    res ← on_unwind (uput n 0 tmp)
            (let len := n - 1 in
             if len =? 0 then Ret 0
             else
               l ← slice n 1 n (λ m, pe_loop (S m) m tmp 0 m);
               Ret (l + 1));
    uput n 0 tmp ;;
    Ret res.

  (** src/partition.rs:576-593 — trace a block from the left; [acc] holds
      [start_l..end_l].  The store [*end_l = i as u8] is an unchecked write at
      position [length acc] of an array of [BLOCK] bytes. *)
  Fixpoint trace_l (n : nat) (pivot : T) (elem i cnt : nat) (acc : list nat) : P (list nat) :=
    match cnt with
    | 0 => Ret acc
    | S k =>
        (if length acc <? BLOCK then Ret tt else Undef) ;;
        x ← get n elem;
        b ← is_less x pivot;
        trace_l n pivot (S elem) (S i) k
          (if b : bool then acc else acc ++ [i mod 256])
    end.

  (** src/partition.rs:609-627 — trace a block from the right. *)
  Fixpoint trace_r (n : nat) (pivot : T) (elem i cnt : nat) (acc : list nat) : P (list nat) :=
    match cnt with
    | 0 => Ret acc
    | S k =>
        elem ← usub elem 1;
        (if length acc <? BLOCK then Ret tt else Undef) ;;
        x ← get n elem;
        b ← is_less x pivot;
        trace_r n pivot elem (S i) k
          (if b : bool then acc ++ [i mod 256] else acc)
    end.

  (** src/partition.rs:668-678 — the cyclic permutation after the first copy:
      [cnt = count - 1] rounds, [ol]/[orr] are [*start_l]/[*start_r]; returns the
      offsets left in [start_l..end_l] and [start_r..end_r].  Running off the
      pending offsets would read uninitialised memory. *)
  Fixpoint cycle (n l r cnt : nat) (tmp : T) (ol : nat) (ls : list nat)
    (orr : nat) (rs : list nat) : P (list nat * list nat) :=
    match cnt with
    | 0 =>
        right ← usub r (orr + 1);
        put n right tmp ;;
        Ret (ls, rs)
    | S k =>
        match ls, rs with
        | ol' :: ls', or' :: rs' =>
            x ← get n (l + ol');
            right ← usub r (orr + 1);
            nonoverlapping (l + ol') right ;;
            put n right x ;;
            right' ← usub r (or' + 1);
            y ← get n right';
            nonoverlapping right' (l + ol') ;;
            put n (l + ol') y ;;
            cycle n l r k tmp ol' ls' or' rs'
        | _, _ => Undef
        end
    end.

  (** src/partition.rs:630-680 — exchange [min(|offsets_l|, |offsets_r|)] elements. *)
  Definition exchange (n l r : nat) (offl offr : list nat) : P (list nat * list nat) :=
    let count := Nat.min (length offl) (length offr) in
    if 0 <? count then
      match offl, offr with
      | ol :: ls, orr :: rs =>
          tmp ← get n (l + ol);
          right ← usub r (orr + 1);
          x ← get n right;
          nonoverlapping right (l + ol) ;;
          put n (l + ol) x ;;
          cycle n l r (count - 1) tmp ol ls orr rs
      | _, _ => Undef
      end
    else Ret (offl, offr).

  (** src/partition.rs:715-732 — shift the remaining left offsets to the far
      right, from the last offset to the first ([offs] is reversed). *)
  Fixpoint finish_l (n l r : nat) (offs : list nat) : P nat :=
    match offs with
    | [] => Ret r
    | o :: os =>
        r1 ← usub r 1;
        uswap n (l + o) r1 ;;
        finish_l n l r1 os
    end.

  (** src/partition.rs:738-745 — shift the remaining right offsets to the far left. *)
  Fixpoint finish_r (n l r : nat) (offs : list nat) : P nat :=
    match offs with
    | [] => Ret l
    | o :: os =>
        ri ← usub r (o + 1);
        uswap n l ri ;;
        finish_r n (S l) r os
    end.

  (** src/partition.rs:534-705 (loop) and 707-750 (the rest). *)
  Fixpoint pib_loop (fuel n : nat) (pivot : T) (l r block_l block_r : nat)
    (offl offr : list nat) : P nat :=
    match fuel with
    | 0 => NoFuel
    | S f =>
        w ← width l r;
        let is_done := w <=? 2 * BLOCK in
        '(block_l, block_r) ←
          (if is_done then
             let pend_l := 0 <? length offl in
             let pend_r := 0 <? length offr in
             rem ← (if pend_l || pend_r then usub w BLOCK else Ret w);
             let '(bl, br) :=
               if pend_l then (block_l, rem)
               else if pend_r then (rem, block_r)
               else (rem / 2, rem - rem / 2) in
             dassert c ((bl <=? BLOCK) && (br <=? BLOCK)) ;;
             dassert c (w =? bl + br) ;;
             Ret (bl, br)
           else Ret (block_l, block_r));
        offl ← (if length offl =? 0 then trace_l n pivot l 0 block_l [] else Ret offl);
        offr ← (if length offr =? 0 then trace_r n pivot r 0 block_r [] else Ret offr);
        '(offl, offr) ← exchange n l r offl offr;
        let l := if length offl =? 0 then l + block_l else l in
        r ← (if length offr =? 0 then usub r block_r else Ret r);
        if is_done then
          if 0 <? length offl then
            w ← width l r;
            dassert c (w =? block_l) ;;
            r ← finish_l n l r (rev offl);
            width 0 r
          else if 0 <? length offr then
            w ← width l r;
            dassert c (w =? block_r) ;;
            l ← finish_r n l r (rev offr);
            width 0 l
          else width 0 l
        else pib_loop f n pivot l r block_l block_r offl offr
    end.

  (** src/partition.rs:474-751 [partition_in_blocks]. *)
  Definition partition_in_blocks (n : nat) (pivot : T) : P nat :=
    if n =? 0 then Ret 0
    else pib_loop (S n) n pivot 0 n BLOCK BLOCK [] [].

  (** src/partition.rs:439-441 — [while l < r && is_less(v[l], pivot) { l += 1 }]. *)
  Fixpoint pt_scan_l (fuel n : nat) (pivot : T) (l r : nat) : P nat :=
    match fuel with
    | 0 => NoFuel
    | S f =>
        if l <? r then
          x ← uget n l;
          b ← is_less x pivot;
          if b : bool then pt_scan_l f n pivot (S l) r else Ret l
        else Ret l
    end.

  (** src/partition.rs:444-446 — [while l < r && !is_less(v[r-1], pivot) { r -= 1 }]. *)
  Fixpoint pt_scan_r (fuel n : nat) (pivot : T) (l r : nat) : P nat :=
    match fuel with
    | 0 => NoFuel
    | S f =>
        if l <? r then
          r1 ← usub r 1;
          x ← uget n r1;
          b ← is_less x pivot;
          if b : bool then Ret r else pt_scan_r f n pivot l r1
        else Ret r
    end.

  (** src/partition.rs:407-463 [partition]. *)
  Definition partition (n pivot : nat) : P (nat * bool) :=
    swap n 0 pivot ;;
    slice n 0 1 (λ _, Ret tt) ;;
    tmp ← get n 0;
    '(mid, was_p) ←
      on_unwind (uput n 0 tmp)
        (slice n 1 n (λ m,
           l ← pt_scan_l (S m) m tmp 0 m;
           r ← pt_scan_r (S m) m tmp l m;
           k ← slice m l r (λ w, partition_in_blocks w tmp);
           Ret (l + k, r <=? l)));
    uput n 0 tmp ;;
    swap n 0 mid ;;
    Ret (mid, was_p).

  (** src/partition.rs:753-764 [is_sorted] with the closure [compare]. *)
  Fixpoint is_sorted_loop (n i cnt : nat) : P bool :=
    match cnt with
    | 0 => Ret true
    | S k =>
        i1 ← usub i 1;
        a ← get n i1;
        b ← get n i;
        r ← is_less a b;
        if r : bool then is_sorted_loop n (S i) k else Ret false
    end.
  Definition is_sorted (n : nat) : P bool := is_sorted_loop n 1 (n - 1).
End partition.

Section reverse.
  Context {T Q R : Type}.
  Notation P A := (prog T Q R A).

  (** src/partition.rs:766-791 [reverse]: element [i] of the front half is swapped
      with element [half - 1 - i] of the back half, which starts at
      [len - half].  Both halves have length [half], so the two
      [debug_assert!]s on lines 782-783 hold by construction and are omitted. *)
  Definition reverse (n : nat) : P unit :=
    let half := n / 2 in
    for_up 0 half (λ i,
      j ← usub (half - 1) i;
      swap n i (n - half + j)).

  (** src/partition.rs:800-817 — one step of the xorshift generator. *)
  Definition gen_usize (is_wide : bool) (seed : N) : N :=
    (if is_wide then
       let m := 2 ^ 64 in
       let r := seed mod m in
       let r := N.lxor r (N.shiftl r 13 mod m) in
       let r := N.lxor r (N.shiftr r 7) in
       N.lxor r (N.shiftl r 17 mod m)
     else
       let m := 2 ^ 32 in
       let r := seed mod m in
       let r := N.lxor r (N.shiftl r 13 mod m) in
       let r := N.lxor r (N.shiftr r 17) in
       N.lxor r (N.shiftl r 5 mod m))%N.

  (** src/partition.rs:826-838 — the three swaps; [i] counts up, [cnt] are left. *)
  Fixpoint break_loop (c : cfg) (n pos i cnt : nat) (seed : N) : P unit :=
    match cnt with
    | 0 => Ret tt
    | S k =>
        let seed := gen_usize (wide c) seed in
        let modulus := (2 ^ N.log2_up (N.of_nat n))%N in
        let other := N.to_nat (N.land seed (modulus - 1)) in
        other ← (if n <=? other then usub other n else Ret other);
        p ← usub pos 1;
        swap n (p + i) other ;;
        break_loop c n pos (S i) k seed
    end.

  (** src/partition.rs:796-840 [break_patterns]. *)
  Definition break_patterns (c : cfg) (n : nat) : P unit :=
    if 8 <=? n then break_loop c n (n / 4 * 2) 0 3 (N.of_nat n) else Ret tt.
End reverse.

Section pivot.
  Context {T : Type}.
  Notation P A := (cmp_prog T A).

  (** src/partition.rs:874-879 [sort2]: swaps the two indices if out of order and
      counts the swap. *)
  Definition sort2 (n a b swaps : nat) : P (nat * nat * nat) :=
    x ← uget n b;
    y ← uget n a;
    r ← is_less x y;
    Ret (if r : bool then (b, a, S swaps) else (a, b, swaps)).

  (** src/partition.rs:882-886 [sort3]. *)
  Definition sort3 (n a b d swaps : nat) : P (nat * nat * nat * nat) :=
    '(a, b, swaps) ← sort2 n a b swaps;
    '(b, d, swaps) ← sort2 n b d swaps;
    '(a, b, swaps) ← sort2 n a b swaps;
    Ret (a, b, d, swaps).

  (** src/partition.rs:890-893 [sort_adjacent]. *)
  Definition sort_adjacent (n a swaps : nat) : P (nat * nat) :=
    a1 ← usub a 1;
    '(_, b, _, swaps) ← sort3 n a1 a (a + 1) swaps;
    Ret (b, swaps).

  (** src/partition.rs:851, 853. *)
  Definition SHORTEST_MEDIAN_OF_MEDIANS : nat := 50.
  Definition MAX_SWAPS : nat := 12.

  (** src/partition.rs:845-913 [choose_pivot]. *)
  Definition choose_pivot (n : nat) : P (nat * bool) :=
    let a := n / 4 in
    let b := n / 4 * 2 in
    let d := n / 4 * 3 in
    '(b, swaps) ←
      (if 8 <=? n then
         '(a, b, d, swaps) ←
           (if SHORTEST_MEDIAN_OF_MEDIANS <=? n then
              '(a, swaps) ← sort_adjacent n a 0;
              '(b, swaps) ← sort_adjacent n b swaps;
              '(d, swaps) ← sort_adjacent n d swaps;
              Ret (a, b, d, swaps)
            else Ret (a, b, d, 0));
         '(_, b, _, swaps) ← sort3 n a b d swaps;
         Ret (b, swaps)
       else Ret (b, 0));
    if swaps <? MAX_SWAPS then Ret (b, swaps =? 0)
    else
      reverse n ;;
      p ← usub n 1;
      p ← usub p b;
      Ret (p, true).
End pivot.
