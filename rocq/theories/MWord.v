(** * MWord: the sequential algorithms with [usize] arithmetic.

    The functions of MInsertion, MHeap, MPartition, MQuick, MSelect, MMerge, MSearch and
    MDedup once more, now with every sum, difference and product of the source computed by [uadd], [wsub]
    and [umul], which overflow like [usize] of the build.  Counters of [for] loops over ranges
    and positions inside views and iterators of ndarray are not arithmetic of the crate.
    Constant expressions ([2 * BLOCK], [4 * 3]) are folded.  Everything else is as in the
    model; functions without arithmetic are shared. *)
From Verif Require Export Word MQuick MSelect MSearch MDedup MApi.
From Coq Require Import NArith.

Section word.
  Context {T : Type} (c : cfg).
  Notation P A := (cmp_prog T A).

  (** src/insertion_sort.rs:45-95 [insert_tail]. *)
  Definition insert_tail_w (n : nat) : P unit :=
    dassert c (2 <=? n) ;;
    i ← wsub c n 1;
    i1 ← wsub c i 1;
    a ← uget n i;
    b ← uget n i1;
    r ← is_less a b;
    if r : bool then
      tmp ← uget n i;
      x ← uget n i1;
      uput n i x ;;
      insert_tail_loop n tmp i1
    else Ret tt.

  (** src/insertion_sort.rs:148-156; [uget(i - 1)]. *)
  Fixpoint insert_head_loop_w (n : nat) (tmp : T) (hole i cnt : nat) : P unit :=
    match cnt with
    | 0 => uput n hole tmp
    | S k =>
        y ← uget n i;
        r ← on_unwind (uput n hole tmp) (is_less y tmp);
        if r : bool then
          i1 ← wsub c i 1;
          uput n i1 y ;;
          insert_head_loop_w n tmp i (S i) k
        else uput n hole tmp
    end.

  (** src/insertion_sort.rs:101-159 [insert_head]. *)
  Definition insert_head_w (n : nat) : P unit :=
    dassert c (2 <=? n) ;;
    a ← uget n 1;
    b ← uget n 0;
    r ← is_less a b;
    if r : bool then
      tmp ← uget n 0;
      x ← uget n 1;
      uput n 0 x ;;
      insert_head_loop_w n tmp 1 2 (n - 2)
    else Ret tt.

  (** src/insertion_sort.rs:166-187 [insertion_sort_shift_left]; [s![..=i]] is [s![..i + 1]]. *)
  Definition insertion_sort_shift_left_w (n offset : nat) : P unit :=
    assert (negb (offset =? 0) && (offset <=? n)) ;;
    for_up offset (n - offset) (λ i, i1 ← uadd c i 1; slice n 0 i1 insert_tail_w).

  (** src/insertion_sort.rs:194-216 [insertion_sort_shift_right]. *)
  Definition insertion_sort_shift_right_w (n offset : nat) : P unit :=
    assert (negb (offset =? 0) && (offset <=? n) && (2 <=? n)) ;;
    for_down 0 offset (λ i, slice n i n insert_head_w).

  (** src/insertion_sort.rs:240-242. *)
  Fixpoint find_unsorted_w (fuel n i : nat) : P nat :=
    match fuel with
    | 0 => NoFuel
    | S f =>
        if i <? n then
          i1 ← wsub c i 1;
          a ← uget n i;
          b ← uget n i1;
          r ← is_less a b;
          if r : bool then Ret i else i' ← uadd c i 1; find_unsorted_w f n i'
        else Ret i
    end.

  (** src/insertion_sort.rs:234-268. *)
  Fixpoint partial_insertion_steps_w (steps n i : nat) : P bool :=
    match steps with
    | 0 => Ret false
    | S st =>
        i ← find_unsorted_w (S n) n i;
        if i =? n then Ret true
        else if n <? SHORTEST_SHIFTING then Ret false
        else
          i1 ← wsub c i 1;
          swap n i1 i ;;
          (if 2 <=? i then
             i1 ← wsub c i 1;
             slice n 0 i (λ m, insertion_sort_shift_left_w m i1) ;;
             slice n 0 i (λ m, insertion_sort_shift_right_w m 1)
           else Ret tt) ;;
          partial_insertion_steps_w st n i
    end.

  (** src/insertion_sort.rs:222-269 [partial_insertion_sort]. *)
  Definition partial_insertion_sort_w (n : nat) : P bool :=
    partial_insertion_steps_w MAX_STEPS n 1.

  (** src/heap_sort.rs:14-39. *)
  Fixpoint sift_down_w (fuel n node : nat) : P unit :=
    match fuel with
    | 0 => NoFuel
    | S f =>
        twice ← umul c 2 node;
        child ← uadd c twice 1;
        if n <=? child then Ret tt
        else
          child1 ← uadd c child 1;
          child ← (if child1 <? n then
                     a ← get n child;
                     child1 ← uadd c child 1;
                     b ← get n child1;
                     r ← is_less a b;
                     uadd c child (if r : bool then 1 else 0)
                   else Ret child);
          a ← get n node;
          b ← get n child;
          r ← is_less a b;
          if r : bool then
            swap n node child ;;
            sift_down_w f n child
          else Ret tt
    end.

  (** src/heap_sort.rs:9-51 [heap_sort]. *)
  Definition heap_sort_w (n : nat) : P unit :=
    for_down 0 (n / 2) (λ i, sift_down_w (S n) n i) ;;
    for_down 1 (n - 1) (λ i,
      swap n 0 i ;;
      slice n 0 i (λ m, sift_down_w (S m) m 0)).

  (** src/partition.rs:371-373. *)
  Fixpoint pe_scan_l_w (fuel n : nat) (pivot : T) (l r : nat) : P nat :=
    match fuel with
    | 0 => NoFuel
    | S f =>
        if l <? r then
          x ← uget n l;
          b ← is_less pivot x;
          if b : bool then Ret l else l ← uadd c l 1; pe_scan_l_w f n pivot l r
        else Ret l
    end.

  (** src/partition.rs:376-381. *)
  Fixpoint pe_scan_r_w (fuel n : nat) (pivot : T) (l r : nat) : P nat :=
    match fuel with
    | 0 => NoFuel
    | S f =>
        r ← wsub c r 1;
        if r <=? l then Ret r
        else
          x ← uget n r;
          b ← is_less pivot x;
          if b : bool then pe_scan_r_w f n pivot l r else Ret r
    end.

  (** src/partition.rs:364-392. *)
  Fixpoint pe_loop_w (fuel n : nat) (pivot : T) (l r : nat) : P nat :=
    match fuel with
    | 0 => NoFuel
    | S f =>
        l ← pe_scan_l_w (S n) n pivot l r;
        r ← pe_scan_r_w (S n) n pivot l r;
        if r <=? l then Ret l
        else
          uswap n l r ;;
          l ← uadd c l 1;
          pe_loop_w f n pivot l r
    end.

  (** src/partition.rs:337-398 [partition_equal]. *)
  Definition partition_equal_w (n pivot : nat) : P nat :=
    swap n 0 pivot ;;
    slice n 0 1 (λ _, Ret tt) ;;
    tmp ← get n 0;
    res ← on_unwind (uput n 0 tmp)
            (let len := n - 1 in
             if len =? 0 then Ret 0
             else
               l ← slice n 1 n (λ m, pe_loop_w (S m) m tmp 0 m);
               uadd c l 1);
    uput n 0 tmp ;;
    Ret res.

  (** src/partition.rs:576-593. *)
  Fixpoint trace_l_w (n : nat) (pivot : T) (elem i cnt : nat) (acc : list nat) : P (list nat) :=
    match cnt with
    | 0 => Ret acc
    | S k =>
        (if length acc <? BLOCK then Ret tt else Undef) ;;
        x ← get n elem;
        b ← is_less x pivot;
        elem ← uadd c elem 1;
        trace_l_w n pivot elem (S i) k
          (if b : bool then acc else acc ++ [i mod 256])
    end.

  (** src/partition.rs:609-627. *)
  Fixpoint trace_r_w (n : nat) (pivot : T) (elem i cnt : nat) (acc : list nat) : P (list nat) :=
    match cnt with
    | 0 => Ret acc
    | S k =>
        elem ← wsub c elem 1;
        (if length acc <? BLOCK then Ret tt else Undef) ;;
        x ← get n elem;
        b ← is_less x pivot;
        trace_r_w n pivot elem (S i) k
          (if b : bool then acc ++ [i mod 256] else acc)
    end.

  (** [left!] and [right!], src/partition.rs:633-642. *)
  Definition left_w (l o : nat) : P nat := uadd c l o.
  Definition right_w (r o : nat) : P nat := o1 ← uadd c o 1; wsub c r o1.

  (** src/partition.rs:668-678. *)
  Fixpoint cycle_w (n l r cnt : nat) (tmp : T) (ol : nat) (ls : list nat)
    (orr : nat) (rs : list nat) : P (list nat * list nat) :=
    match cnt with
    | 0 =>
        right ← right_w r orr;
        put n right tmp ;;
        Ret (ls, rs)
    | S k =>
        match ls, rs with
        | ol' :: ls', or' :: rs' =>
            left ← left_w l ol';
            x ← get n left;
            right ← right_w r orr;
            nonoverlapping left right ;;
            put n right x ;;
            right' ← right_w r or';
            y ← get n right';
            left ← left_w l ol';
            nonoverlapping right' left ;;
            put n left y ;;
            cycle_w n l r k tmp ol' ls' or' rs'
        | _, _ => Undef
        end
    end.

  (** src/partition.rs:630-680. *)
  Definition exchange_w (n l r : nat) (offl offr : list nat) : P (list nat * list nat) :=
    let count := Nat.min (length offl) (length offr) in
    if 0 <? count then
      match offl, offr with
      | ol :: ls, orr :: rs =>
          left ← left_w l ol;
          tmp ← get n left;
          right ← right_w r orr;
          x ← get n right;
          left ← left_w l ol;
          nonoverlapping right left ;;
          put n left x ;;
          cycle_w n l r (count - 1) tmp ol ls orr rs
      | _, _ => Undef
      end
    else Ret (offl, offr).

  (** src/partition.rs:715-732. *)
  Fixpoint finish_l_w (n l r : nat) (offs : list nat) : P nat :=
    match offs with
    | [] => Ret r
    | o :: os =>
        left ← uadd c l o;
        r1 ← wsub c r 1;
        uswap n left r1 ;;
        r1 ← wsub c r 1;
        finish_l_w n l r1 os
    end.

  (** src/partition.rs:738-745. *)
  Fixpoint finish_r_w (n l r : nat) (offs : list nat) : P nat :=
    match offs with
    | [] => Ret l
    | o :: os =>
        o1 ← uadd c o 1;
        ri ← wsub c r o1;
        uswap n l ri ;;
        l ← uadd c l 1;
        finish_r_w n l r os
    end.

  (** src/partition.rs:534-705 and 707-750. *)
  Fixpoint pib_loop_w (fuel n : nat) (pivot : T) (l r block_l block_r : nat)
    (offl offr : list nat) : P nat :=
    match fuel with
    | 0 => NoFuel
    | S f =>
        w ← wsub c r l;
        let is_done := w <=? 2 * BLOCK in
        '(block_l, block_r) ←
          (if is_done then
             let pend_l := 0 <? length offl in
             let pend_r := 0 <? length offr in
             rem ← (if pend_l || pend_r then wsub c w BLOCK else Ret w);
             '(bl, br) ←
               (if pend_l then Ret (block_l, rem)
                else if pend_r then Ret (rem, block_r)
                else br ← wsub c rem (rem / 2); Ret (rem / 2, br));
             dassert c ((bl <=? BLOCK) && (br <=? BLOCK)) ;;
             (if dbg c then both ← uadd c bl br; dassert c (w =? both) else Ret tt) ;;
             Ret (bl, br)
           else Ret (block_l, block_r));
        offl ← (if length offl =? 0 then trace_l_w n pivot l 0 block_l [] else Ret offl);
        offr ← (if length offr =? 0 then trace_r_w n pivot r 0 block_r [] else Ret offr);
        '(offl, offr) ← exchange_w n l r offl offr;
        l ← (if length offl =? 0 then uadd c l block_l else Ret l);
        r ← (if length offr =? 0 then wsub c r block_r else Ret r);
        if is_done then
          if 0 <? length offl then
            (if dbg c then w ← wsub c r l; dassert c (w =? block_l) else Ret tt) ;;
            r ← finish_l_w n l r (rev offl);
            wsub c r 0
          else if 0 <? length offr then
            (if dbg c then w ← wsub c r l; dassert c (w =? block_r) else Ret tt) ;;
            l ← finish_r_w n l r (rev offr);
            wsub c l 0
          else wsub c l 0
        else pib_loop_w f n pivot l r block_l block_r offl offr
    end.

  (** src/partition.rs:474-751 [partition_in_blocks]. *)
  Definition partition_in_blocks_w (n : nat) (pivot : T) : P nat :=
    if n =? 0 then Ret 0
    else pib_loop_w (S n) n pivot 0 n BLOCK BLOCK [] [].

  (** src/partition.rs:439-441. *)
  Fixpoint pt_scan_l_w (fuel n : nat) (pivot : T) (l r : nat) : P nat :=
    match fuel with
    | 0 => NoFuel
    | S f =>
        if l <? r then
          x ← uget n l;
          b ← is_less x pivot;
          if b : bool then l ← uadd c l 1; pt_scan_l_w f n pivot l r else Ret l
        else Ret l
    end.

  (** src/partition.rs:444-446. *)
  Fixpoint pt_scan_r_w (fuel n : nat) (pivot : T) (l r : nat) : P nat :=
    match fuel with
    | 0 => NoFuel
    | S f =>
        if l <? r then
          r1 ← wsub c r 1;
          x ← uget n r1;
          b ← is_less x pivot;
          if b : bool then Ret r else r1 ← wsub c r 1; pt_scan_r_w f n pivot l r1
        else Ret r
    end.

  (** src/partition.rs:407-463 [partition]. *)
  Definition partition_w (n pivot : nat) : P (nat * bool) :=
    swap n 0 pivot ;;
    slice n 0 1 (λ _, Ret tt) ;;
    tmp ← get n 0;
    '(mid, was_p) ←
      on_unwind (uput n 0 tmp)
        (slice n 1 n (λ m,
           l ← pt_scan_l_w (S m) m tmp 0 m;
           r ← pt_scan_r_w (S m) m tmp l m;
           k ← slice m l r (λ w, partition_in_blocks_w w tmp);
           k ← uadd c l k;
           Ret (k, r <=? l)));
    uput n 0 tmp ;;
    swap n 0 mid ;;
    Ret (mid, was_p).

  (** src/partition.rs:785-789; element [j] of the back half is element [back + j] of the
      view. *)
  Fixpoint reverse_loop_w (fuel n half back i : nat) : P unit :=
    match fuel with
    | 0 => NoFuel
    | S f =>
        if i <? half then
          j ← wsub c half 1;
          j ← wsub c j i;
          swap n i (back + j) ;;
          i ← uadd c i 1;
          reverse_loop_w f n half back i
        else Ret tt
    end.
  (** src/partition.rs:766-791 [reverse]. *)
  Definition reverse_w (n : nat) : P unit :=
    back ← wsub c n (n / 2);
    reverse_loop_w (S (n / 2)) n (n / 2) back 0.

  (** src/partition.rs:826-838. *)
  Fixpoint break_loop_w (n pos i cnt : nat) (seed : N) : P unit :=
    match cnt with
    | 0 => Ret tt
    | S k =>
        let seed := gen_usize (wide c) seed in
        let modulus := (2 ^ N.log2_up (N.of_nat n))%N in
        m1 ← (if (modulus <? words c)%N then Ret (modulus - 1)%N
              else if ovf c then Throw OverflowPanic else Ret (words c - 1)%N);
        let other := N.to_nat (N.land seed m1) in
        other ← (if n <=? other then wsub c other n else Ret other);
        p ← wsub c pos 1;
        p ← uadd c p i;
        swap n p other ;;
        break_loop_w n pos (S i) k seed
    end.

  (** src/partition.rs:796-840 [break_patterns]. *)
  Definition break_patterns_w (n : nat) : P unit :=
    if 8 <=? n then
      pos ← umul c (n / 4) 2;
      break_loop_w n pos 0 3 (N.of_nat n)
    else Ret tt.

  (** src/partition.rs:874-879 [sort2]. *)
  Definition sort2_w (n a b swaps : nat) : P (nat * nat * nat) :=
    x ← uget n b;
    y ← uget n a;
    r ← is_less x y;
    if r : bool then swaps ← uadd c swaps 1; Ret (b, a, swaps) else Ret (a, b, swaps).

  (** src/partition.rs:882-886 [sort3]. *)
  Definition sort3_w (n a b d swaps : nat) : P (nat * nat * nat * nat) :=
    '(a, b, swaps) ← sort2_w n a b swaps;
    '(b, d, swaps) ← sort2_w n b d swaps;
    '(a, b, swaps) ← sort2_w n a b swaps;
    Ret (a, b, d, swaps).

  (** src/partition.rs:890-893 [sort_adjacent]. *)
  Definition sort_adjacent_w (n a swaps : nat) : P (nat * nat) :=
    a1 ← wsub c a 1;
    a2 ← uadd c a 1;
    '(_, b, _, swaps) ← sort3_w n a1 a a2 swaps;
    Ret (b, swaps).

  (** src/partition.rs:845-913 [choose_pivot]. *)
  Definition choose_pivot_w (n : nat) : P (nat * bool) :=
    let a := n / 4 in
    b ← umul c (n / 4) 2;
    d ← umul c (n / 4) 3;
    '(b, swaps) ←
      (if 8 <=? n then
         '(a, b, d, swaps) ←
           (if SHORTEST_MEDIAN_OF_MEDIANS <=? n then
              '(a, swaps) ← sort_adjacent_w n a 0;
              '(b, swaps) ← sort_adjacent_w n b swaps;
              '(d, swaps) ← sort_adjacent_w n d swaps;
              Ret (a, b, d, swaps)
            else Ret (a, b, d, 0));
         '(_, b, _, swaps) ← sort3_w n a b d swaps;
         Ret (b, swaps)
       else Ret (b, 0));
    if swaps <? MAX_SWAPS then Ret (b, swaps =? 0)
    else
      reverse_w n ;;
      p ← wsub c n 1;
      p ← wsub c p b;
      Ret (p, true).

  (** src/quick_sort.rs:37-127 [recurse]; [limit] is a [u32], it is not zero where it is
      decreased. *)
  Fixpoint qs_recurse_w (depth : nat) :
      ∀ (fuel n : nat) (pred : option T) (limit : nat) (wb wp : bool), P unit :=
    match depth with
    | 0 => λ _ _ _ _ _ _, NoFuel
    | S depth' =>
        fix loop (fuel n : nat) (pred : option T) (limit : nat) (wb wp : bool) : P unit :=
          match fuel with
          | 0 => NoFuel
          | S f =>
              if n <=? QS_MAX_INSERTION then
                if 2 <=? n then insertion_sort_shift_left_w n 1 else Ret tt
              else if limit =? 0 then heap_sort_w n
              else
                limit ← (if wb then Ret limit
                         else break_patterns_w n ;; wsub c limit 1);
                '(pivot, likely_sorted) ← choose_pivot_w n;
                done ← (if wb && wp && likely_sorted
                        then partial_insertion_sort_w n else Ret false);
                if done : bool then Ret tt
                else
                  eq ← match pred with
                       | Some p =>
                           x ← get n pivot;
                           r ← is_less p x;
                           Ret (negb r)
                       | None => Ret false
                       end;
                  if eq : bool then
                    mid ← partition_equal_w n pivot;
                    slice n mid n (λ m, loop f m pred limit wb wp)
                  else
                    '(mid, was_p) ← partition_w n pivot;
                    nmid ← wsub c n mid;
                    let wb := n / 8 <=? Nat.min mid nmid in
                    let wp := was_p in
                    slice n mid n (λ m, slice m 0 1 (λ _, Ret tt)) ;;
                    p ← get n mid;
                    let right := n - (mid + 1) in
                    if mid <? right then
                      slice n 0 mid (λ m, qs_recurse_w depth' (S m) m pred limit true true) ;;
                      slice n (mid + 1) n (λ m, loop f m (Some p) limit wb wp)
                    else
                      slice n (mid + 1) n (λ m, qs_recurse_w depth' (S m) m (Some p) limit true true) ;;
                      slice n 0 mid (λ m, loop f m pred limit wb wp)
          end
    end.

  (** src/quick_sort.rs:16-29 [quick_sort]. *)
  Definition quick_sort_w (n : nat) : P unit :=
    if zst c then Ret tt
    else qs_recurse_w (S (bit_length n)) (S n) n None (bit_length n) true true.

  (** src/partition.rs:260-268. *)
  Fixpoint ninthers_loop_w (n frac i cnt a b : nat) : P unit :=
    match cnt with
    | 0 => Ret tt
    | S k =>
        im ← wsub c i frac;
        a1 ← uadd c a 1;
        b1 ← uadd c b 1;
        a2 ← uadd c a 2;
        ip ← uadd c i frac;
        b2 ← uadd c b 2;
        ninther n a im b a1 i b1 a2 ip b2 ;;
        a ← uadd c a 3;
        b ← uadd c b 3;
        ninthers_loop_w n frac (S i) k a b
    end.

  (** src/partition.rs:241-272 [median_of_ninthers]. *)
  Definition median_of_ninthers_w (rec : nat → nat → P unit) (n : nat) : P nat :=
    let frac := ninther_frac n in
    let pivot := frac / 2 in
    lo ← wsub c (n / 2) pivot;
    hi ← uadd c frac lo;
    nine ← umul c 9 frac;
    g ← wsub c n nine;
    let gap := g / 4 in
    four ← umul c 4 frac;
    a ← wsub c lo four;
    a ← wsub c a gap;
    b ← uadd c hi gap;
    ninthers_loop_w n frac lo (hi - lo) a b ;;
    end_ ← uadd c lo frac;
    slice n lo end_ (λ m, rec m pivot) ;;
    at_ ← uadd c lo pivot;
    '(p, _) ← partition_w n at_;
    Ret p.

  (** src/partition.rs:183-236 [median_of_medians]. *)
  Fixpoint median_of_medians_w (depth : nat) : ∀ (n k : nat), P unit :=
    match depth with
    | 0 => λ _ _, NoFuel
    | S depth' => λ n k,
        dassert c (k <? n) ;;
        dassert c (negb (zst c)) ;;
        (fix loop (fuel n k : nat) : P unit :=
           match fuel with
           | 0 => NoFuel
           | S f =>
               if n <=? SEL_MAX_INSERTION then
                 if 1 <? n then insertion_sort_shift_left_w n 1 else Ret tt
               else
                 last ← wsub c n 1;
                 if k =? last then
                   m ← max_index n; swap n m k
                 else if k =? 0 then
                   m ← min_index n; swap n m k
                 else
                   p ← median_of_ninthers_w (median_of_medians_w depth') n;
                   match Nat.compare p k with
                   | Eq => Ret tt
                   | Gt => slice n 0 p (λ m, loop f m k)
                   | Lt =>
                       p1 ← uadd c p 1;
                       slice n p1 n (λ m,
                         p1 ← uadd c p 1;
                         k' ← wsub c k p1;
                         loop f m k')
                   end
           end) (S n) n k
    end.

  (** src/partition.rs:115-178. *)
  Fixpoint pai_loop_w (fuel n index : nat) (pred : option T) (limit : nat) (wb : bool) : P unit :=
    match fuel with
    | 0 => NoFuel
    | S f =>
        if n <=? SEL_MAX_INSERTION then
          if negb (n =? 0) then insertion_sort_shift_left_w n 1 else Ret tt
        else if limit =? 0 then median_of_medians_w (S (bit_length n)) n index
        else
          limit ← (if wb then Ret limit
                   else break_patterns_w n ;; wsub c limit 1);
          '(pivot, _) ← choose_pivot_w n;
          eq ← match pred with
               | Some p =>
                   x ← get n pivot;
                   r ← is_less p x;
                   Ret (negb r)
               | None => Ret false
               end;
          if eq : bool then
            mid ← partition_equal_w n pivot;
            if index <? mid then Ret tt
            else
              slice n mid n (λ m,
                index' ← wsub c index mid;
                pai_loop_w f m index' None limit wb)
          else
            '(mid, _) ← partition_w n pivot;
            nmid ← wsub c n mid;
            let wb := n / 8 <=? Nat.min mid nmid in
            slice n mid n (λ m, slice m 0 1 (λ _, Ret tt)) ;;
            p ← get n mid;
            match Nat.compare mid index with
            | Lt =>
                index' ← wsub c index mid;
                index' ← wsub c index' 1;
                slice n (mid + 1) n (λ m, pai_loop_w f m index' (Some p) limit wb)
            | Gt => slice n 0 mid (λ m, pai_loop_w f m index pred limit wb)
            | Eq => Ret tt
            end
    end.

  (** src/partition.rs:96-179 [partition_at_index_loop]. *)
  Definition partition_at_index_loop_w (n index : nat) (pred : option T) : P unit :=
    pai_loop_w (S n) n index pred SEL_LIMIT true.

  (** src/partition.rs:45-80 [partition_at_index]. *)
  Definition partition_at_index_w (n index : nat) : P ((nat * nat) * nat * (nat * nat)) :=
    if n <=? index then Throw AssertPanic
    else
      (if zst c then Ret tt
       else
         last ← wsub c n 1;
         if index =? last then
           m ← max_index n; swap n m index
         else if index =? 0 then
           m ← min_index n; swap n m index
         else partition_at_index_loop_w n index None) ;;
      '(lv, rv) ← split_at (0, n) index;
      '(pivot, rv) ← split_at rv 1;
      value ← index0 pivot;
      Ret (lv, value, rv).

  (** src/partition.rs:20-42 [partition_at_indices]; [pivot - offset] is [wsub]. *)
  Fixpoint partition_at_indices_w (depth : nat) :
      ∀ (fuel n base offset : nat) (inds : list nat), P (list (nat * nat)) :=
    match depth with
    | 0 => λ _ _ _ _ _, NoFuel
    | S depth' =>
        fix loop (fuel n base offset : nat) (inds : list nat) : P (list (nat * nat)) :=
          match fuel with
          | 0 => NoFuel
          | S f =>
              match inds with
              | [] => Ret []
              | _ =>
                  let at_ := length inds / 2 in
                  let left_inds := take at_ inds in
                  match drop at_ inds with
                  | [] => Throw IndexPanic
                  | pivot :: right_inds =>
                      i ← wsub c pivot offset;
                      '(lv, value, rv) ← partition_at_index_w n i;
                      ls ← slice n lv.1 (lv.1 + lv.2) (λ m,
                             partition_at_indices_w depth' (S (length left_inds)) m
                               (base + lv.1) offset left_inds);
                      offset' ← uadd c pivot 1;
                      rs ← slice n rv.1 (rv.1 + rv.2) (λ m,
                             loop f m (base + rv.1) offset' right_inds);
                      Ret (ls ++ (pivot, base + value) :: rs)
                  end
              end
          end
    end.

  Definition select_many_w (n : nat) (inds : list nat) : P (list (nat * nat)) :=
    partition_at_indices_w (S (bit_length (length inds))) (S (length inds)) n 0 0 inds.

  (** src/lib.rs:2168-2193 — the loop of [binary_search_by]. *)
  Fixpoint binary_search_loop_w (fuel n size left right : nat) :
      prog T T (option comparison) search_result :=
    match fuel with
    | 0 => NoFuel
    | S fl =>
        if left <? right then
          mid ← uadd c left (size / 2);
          x ← uget n mid;
          Ask x (λ r,
            match r with
            | None => Throw UserPanic
            | Some cmp =>
                left ← match cmp with Lt => uadd c mid 1 | _ => Ret left end;
                let right := match cmp with Gt => mid | _ => right end in
                match cmp with
                | Eq => dassert c (mid <? n) ;; Ret (Found mid)
                | _ =>
                    size ← wsub c right left;
                    binary_search_loop_w fl n size left right
                end
            end)
        else
          dassert c (left <=? n) ;;
          Ret (Missing left)
    end.
  (** src/lib.rs:2158-2200 [binary_search_by]. *)
  Definition binary_search_by_w (n : nat) : prog T T (option comparison) search_result :=
    binary_search_loop_w (S n) n n 0 n.

  (** src/partition_dedup.rs:96-111. *)
  Fixpoint dedup_loop_w (fuel n next_read next_write : nat) : prog T (T * T) (dedup_answer T) nat :=
    match fuel with
    | 0 => NoFuel
    | S k =>
        if next_read <? n then
          prev_write ← wsub c next_write 1;
          same ← same_bucket n next_read prev_write;
          next_write ←
            (if same : bool then Ret next_write
             else
               (if next_read =? next_write then Ret tt
                else write ← uadd c prev_write 1; uswap n next_read write) ;;
               uadd c next_write 1);
          next_read ← uadd c next_read 1;
          dedup_loop_w k n next_read next_write
        else Ret next_write
    end.
  (** src/partition_dedup.rs:7-115 [partition_dedup]. *)
  Definition partition_dedup_by_w (n : nat) :
      prog T (T * T) (dedup_answer T) ((nat * nat) * (nat * nat)) :=
    if n <=? 1 then
      '(duplicates, dedup) ← split_views n 0;
      Ret (dedup, duplicates)
    else
      next_write ← dedup_loop_w n n 1 1;
      split_views n next_write.
End word.

(** ** src/merge_sort.rs *)
Section merge_word.
  Context {T : Type} (c : cfg).
  Notation P A := (cmp_prog T A).

  (** src/merge_sort.rs:55-57 and 99-101 ([base] is 0 in the former). *)
  Fixpoint copy_out_w (cap n base i cnt : nat) (buf : list T) : P (list T) :=
    match cnt with
    | 0 => Ret buf
    | S k =>
        at_ ← uadd c base i;
        x ← get n at_;
        (if i <? cap then Ret tt else Undef) ;;
        copy_out_w cap n base (S i) k (buf ++ [x])
    end.

  (** src/merge_sort.rs:181-193. *)
  Definition merge_hole_drop_w (n : nat) (buf : list T) (start end_ dest : nat) : P unit :=
    len ← wsub c end_ start;
    for_up 0 len (λ i,
      src ← uadd c start i;
      x ← buf_get buf src;
      dst ← uadd c dest i;
      put n dst x).

  (** src/merge_sort.rs:72-93. *)
  Fixpoint merge_fwd_w (fuel n mid : nat) (buf : list T) (left right out : nat) : P unit :=
    match fuel with
    | 0 => NoFuel
    | S f =>
        let drop_hole left out := merge_hole_drop_w n buf left mid out in
        if (left <? mid) && (right <? n) then
          x ← uget n right;
          y ← buf_get buf left;
          is_l ← on_unwind (drop_hole left out) (is_less x y);
          (if is_l : bool then nonoverlapping right out else Ret tt) ;;
          on_unwind (drop_hole left out) (put n out (if is_l : bool then x else y)) ;;
          out1 ← on_unwind (drop_hole left out) (uadd c out 1);
          (if is_l : bool
           then
             right1 ← on_unwind (drop_hole left out1) (uadd c right 1);
             merge_fwd_w f n mid buf left right1 out1
           else
             left1 ← on_unwind (drop_hole left out1) (uadd c left 1);
             merge_fwd_w f n mid buf left1 right out1)
        else drop_hole left out
    end.

  (** src/merge_sort.rs:116-137. *)
  Fixpoint merge_bwd_w (fuel n : nat) (buf : list T) (left right out : nat) : P unit :=
    match fuel with
    | 0 => NoFuel
    | S f =>
        let drop_hole left right := merge_hole_drop_w n buf 0 right left in
        if (0 <? left) && (0 <? right) then
          right1 ← on_unwind (drop_hole left right) (wsub c right 1);
          x ← buf_get buf right1;
          left1 ← on_unwind (drop_hole left right) (wsub c left 1);
          y ← uget n left1;
          is_l ← on_unwind (drop_hole left right) (is_less x y);
          left' ← (if is_l : bool then on_unwind (drop_hole left right) (wsub c left 1) else Ret left);
          right' ← (if is_l : bool then Ret right else on_unwind (drop_hole left right) (wsub c right 1));
          out ← on_unwind (drop_hole left' right') (wsub c out 1);
          (if is_l : bool then nonoverlapping left' out else Ret tt) ;;
          on_unwind (drop_hole left' right') (put n out (if is_l : bool then y else x)) ;;
          merge_bwd_w f n buf left' right' out
        else drop_hole left right
    end.

  (** src/merge_sort.rs:20-194 [merge]. *)
  Definition merge_w (cap n mid : nat) : P unit :=
    rest ← wsub c n mid;
    if mid <=? rest then
      buf ← copy_out_w cap n 0 0 mid [];
      merge_fwd_w (S n) n mid buf 0 mid 0
    else
      cnt ← wsub c n mid;
      buf ← copy_out_w cap n mid 0 cnt [];
      end_ ← wsub c n mid;
      merge_bwd_w (S n) n buf mid end_ n.

  (** src/merge_sort.rs:561-563 / 567-569. *)
  Fixpoint streak_loop_w (want : bool) (fuel n end_ : nat) : P nat :=
    match fuel with
    | 0 => NoFuel
    | S f =>
        if end_ <? n then
          a ← uget n end_;
          prev ← wsub c end_ 1;
          b ← uget n prev;
          r ← is_less a b;
          if Bool.eqb r want then
            next ← uadd c end_ 1;
            streak_loop_w want f n next
          else Ret end_
        else Ret end_
    end.

  (** src/merge_sort.rs:541-573 [find_streak]. *)
  Definition find_streak_w (n : nat) : P (nat * bool) :=
    if n <? 2 then Ret (n, false)
    else
      a ← uget n 1;
      b ← uget n 0;
      r ← is_less a b;
      e ← streak_loop_w r (S n) n 2;
      Ret (e, r).

  (** src/merge_sort.rs:505-536 [provide_sorted_batch]. *)
  Definition provide_sorted_batch_w (n start end_ : nat) : P nat :=
    assert ((start <=? end_) && (end_ <=? n)) ;;
    diff ← wsub c end_ start;
    if (diff <? MIN_INSERTION_RUN) && (end_ <? n) then
      stop ← uadd c start MIN_INSERTION_RUN;
      let end_ := Nat.min stop n in
      slice n start end_ (λ m, insertion_sort_shift_left_w c m (Nat.max diff 1)) ;;
      Ret end_
    else Ret end_.

  (** [p || q]. *)
  Definition or_else (p q : P bool) : P bool := b ← p; if b : bool then Ret true else q.
  (** [p && q]. *)
  Definition and_then (p q : P bool) : P bool := b ← p; if b : bool then q else Ret false.
  (** [runs[n - k]]. *)
  Definition run_at (runs : list run_t) (k : nat) : P run_t :=
    i ← wsub c (length runs) k; run_get runs i.

  (** src/merge_sort.rs:308-324 [collapse]. *)
  Definition collapse_w (runs : list run_t) (stop : nat) : P (option nat) :=
    let n := length runs in
    go ← and_then (Ret (2 <=? n))
      (or_else (a ← run_at runs 1; b ← run_at runs 1;
                e ← uadd c (r_start a) (r_len b); Ret (e =? stop))
      (or_else (a ← run_at runs 2; b ← run_at runs 1; Ret (r_len a <=? r_len b))
      (or_else (and_then (Ret (3 <=? n))
                  (a ← run_at runs 3; b ← run_at runs 2; d ← run_at runs 1;
                   e ← uadd c (r_len b) (r_len d); Ret (r_len a <=? e)))
               (and_then (Ret (4 <=? n))
                  (a ← run_at runs 4; b ← run_at runs 3; d ← run_at runs 2;
                   e ← uadd c (r_len b) (r_len d); Ret (r_len a <=? e))))));
    if go : bool then
      three ← and_then (Ret (3 <=? n))
        (a ← run_at runs 3; b ← run_at runs 1; Ret (r_len a <? r_len b));
      if three : bool then r ← wsub c n 3; Ret (Some r) else r ← wsub c n 2; Ret (Some r)
    else Ret None.

  (** src/merge_sort.rs:273-287. *)
  Fixpoint collapse_loop_w (fuel cap n : nat) (runs : list run_t) : P (list run_t) :=
    match fuel with
    | 0 => NoFuel
    | S f =>
        o ← collapse_w runs n;
        match o with
        | None => Ret runs
        | Some r =>
            left ← run_get runs r;
            r1 ← uadd c r 1;
            right ← run_get runs r1;
            stop ← uadd c (r_start right) (r_len right);
            slice n (r_start left) stop (λ m, merge_w cap m (r_len left)) ;;
            len ← uadd c (r_len left) (r_len right);
            r1 ← uadd c r 1;
            collapse_loop_w f cap n (delete r (<[r1 := Run (r_start left) len]> runs))
        end
    end.

  (** src/merge_sort.rs:254-288. *)
  Fixpoint merge_sort_loop_w (fuel cap n start end_ : nat) (runs : list run_t) : P (list run_t) :=
    match fuel with
    | 0 => NoFuel
    | S f =>
        if end_ <? n then
          '(streak_end, was_reversed) ← slice n start n find_streak_w;
          end_ ← uadd c end_ streak_end;
          (if was_reversed : bool then slice n start end_ (reverse_w c) else Ret tt) ;;
          end_ ← provide_sorted_batch_w n start end_;
          len ← wsub c end_ start;
          runs ← collapse_loop_w (S (S (length runs))) cap n (runs ++ [Run start len]);
          merge_sort_loop_w f cap n end_ end_ runs
        else Ret runs
    end.

  (** src/merge_sort.rs:209-291 [merge_sort]. *)
  Definition merge_sort_w (n : nat) : P unit :=
    dassert c (negb (zst c)) ;;
    if n <=? MS_MAX_INSERTION then
      if 2 <=? n then insertion_sort_shift_left_w c n 1 else Ret tt
    else
      runs ← merge_sort_loop_w (S n) (n / 2) n 0 0 [];
      dassert c ((length runs =? 1) && (r_start (runs !!! 0) =? 0) && (r_len (runs !!! 0) =? n)).

  (** src/stable_sort.rs:19-72 [stable_sort]. *)
  Definition stable_sort_w (n : nat) : P unit :=
    if zst c then Ret tt else merge_sort_w n.
End merge_word.
