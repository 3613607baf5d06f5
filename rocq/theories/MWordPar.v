(** * MWordPar: the parallel stable sort with [usize] words.

    This is the model of MParMerge once more, now with every sum, difference and product of
    src/par/merge_sort.rs computed by [uadd], [wsub] and [umul] of the build.  Counters of
    [for] loops over ranges and the addresses of views and of the buffer, which ndarray and
    pointers compute, are natural numbers as before.  Fuel replaces the recursion on a
    number that is now computed by [wsub]. *)
From Verif Require Export MWord MParMerge.
From Coq Require Import NArith.

Section chunk.
  Context {T : Type} (c : cfg).
  Notation P A := (cmp_prog T A).

  (** src/par/merge_sort.rs:90-97; the place of the hole is a pointer. *)
  Fixpoint pm_insert_loop_w (n : nat) (tmp : T) (i cnt : nat) : P unit :=
    match cnt with
    | 0 => uput n (i - 1) tmp
    | S k =>
        let drop_hole := uput n (i - 1) tmp in
        y ← on_unwind drop_hole (get n i);
        r ← on_unwind drop_hole (is_less y tmp);
        if r : bool then
          i1 ← on_unwind drop_hole (wsub c i 1);
          on_unwind drop_hole (put n i1 y) ;;
          pm_insert_loop_w n tmp (S i) k
        else drop_hole
    end.

  (** src/par/merge_sort.rs:49-114 [insert_head]. *)
  Definition pm_insert_head_w (n : nat) : P unit :=
    if 2 <=? n then
      a ← get n 1;
      b ← get n 0;
      r ← is_less a b;
      if r : bool then
        tmp ← get n 0;
        x ← get n 1;
        on_unwind (uput n 1 tmp) (put n 0 x) ;;
        pm_insert_loop_w n tmp 2 (n - 2)
      else Ret tt
    else Ret tt.

  (** src/par/merge_sort.rs:159-161 (where [base] is 0) and 213-215. *)
  Definition pm_copy_out_w (n cap base cnt : nat) : P unit :=
    for_up 0 cnt (λ i, at_ ← uadd c base i; x ← get n at_; bput n cap i x).

  (** src/par/merge_sort.rs:298-310 — drop of [MergeHole]. *)
  Definition pm_hole_drop_w (n cap start end_ dest : nat) : P unit :=
    len ← wsub c end_ start;
    for_up 0 len (λ i,
      src ← uadd c start i;
      x ← bget n cap src;
      dst ← uadd c dest i;
      put n dst x).

  (** src/par/merge_sort.rs:177-207. *)
  Fixpoint pm_merge_fwd_w (fuel n cap mid left right out : nat) : P unit :=
    match fuel with
    | 0 => NoFuel
    | S f =>
        let drop_hole left out := pm_hole_drop_w n cap left mid out in
        if (left <? mid) && (right <? n) then
          x ← uget n right;
          y ← bget n cap left;
          is_l ← on_unwind (drop_hole left out) (is_less x y);
          '(left', right') ←
            (if is_l : bool
             then r ← on_unwind (drop_hole left out) (uadd c right 1); Ret (left, r)
             else l ← on_unwind (drop_hole left out) (uadd c left 1); Ret (l, right));
          out' ← on_unwind (drop_hole left' out) (uadd c out 1);
          (if is_l : bool then nonoverlapping right out else Ret tt) ;;
          on_unwind (drop_hole left out) (put n out (if is_l : bool then x else y)) ;;
          pm_merge_fwd_w f n cap mid left' right' out'
        else drop_hole left out
    end.

  (** src/par/merge_sort.rs:230-254. *)
  Fixpoint pm_merge_bwd_w (fuel n cap left right out : nat) : P unit :=
    match fuel with
    | 0 => NoFuel
    | S f =>
        let drop_hole left right := pm_hole_drop_w n cap 0 right left in
        if (0 <? left) && (0 <? right) then
          right1 ← on_unwind (drop_hole left right) (wsub c right 1);
          x ← bget n cap right1;
          left1 ← on_unwind (drop_hole left right) (wsub c left 1);
          y ← uget n left1;
          is_l ← on_unwind (drop_hole left right) (is_less x y);
          left' ← (if is_l : bool then on_unwind (drop_hole left right) (wsub c left 1) else Ret left);
          right' ← (if is_l : bool then Ret right else on_unwind (drop_hole left right) (wsub c right 1));
          out ← on_unwind (drop_hole left' right') (wsub c out 1);
          (if is_l : bool then nonoverlapping left' out else Ret tt) ;;
          on_unwind (drop_hole left' right') (put n out (if is_l : bool then y else x)) ;;
          pm_merge_bwd_w f n cap left' right' out
        else drop_hole left right
    end.

  (** src/par/merge_sort.rs:124-311 [merge]. *)
  Definition pm_merge_w (n cap mid : nat) : P unit :=
    rest ← wsub c n mid;
    if mid <=? rest then
      pm_copy_out_w n cap 0 mid ;;
      pm_merge_fwd_w (S n) n cap mid 0 mid 0
    else
      cnt ← wsub c n mid;
      pm_copy_out_w n cap mid cnt ;;
      end_ ← wsub c n mid;
      pm_merge_bwd_w (S n) n cap mid end_ n.

  (** src/par/merge_sort.rs:413-415 and 424-426. *)
  Fixpoint pm_streak_w (fuel : nat) (want : bool) (n start : nat) : P nat :=
    match fuel with
    | 0 => NoFuel
    | S f =>
        if 0 <? start then
          a ← uget n start;
          s1 ← wsub c start 1;
          b ← uget n s1;
          r ← is_less a b;
          if Bool.eqb r want then start ← wsub c start 1; pm_streak_w f want n start else Ret start
        else Ret start
    end.

  (** src/par/merge_sort.rs:406-433. *)
  Definition pm_find_run_w (n end_ : nat) : P (nat + ms_result) :=
    start ← wsub c end_ 1;
    if 0 <? start then
      start ← wsub c start 1;
      s1 ← uadd c start 1;
      a ← uget n s1;
      b ← uget n start;
      r ← is_less a b;
      start ← pm_streak_w (S start) r n start;
      if r : bool then
        if (start =? 0) && (end_ =? n) then Ret (inr Descending)
        else slice n start end_ (reverse_w c) ;; Ret (inl start)
      else
        len ← wsub c end_ start;
        if len =? n then Ret (inr NonDescending) else Ret (inl start)
    else Ret (inl start).

  (** src/par/merge_sort.rs:437-440. *)
  Fixpoint pm_extend_w (fuel n end_ start : nat) : P nat :=
    match fuel with
    | 0 => NoFuel
    | S f =>
        if 0 <? start then
          len ← wsub c end_ start;
          if len <? MIN_RUN then
            s ← wsub c start 1;
            slice n s end_ pm_insert_head_w ;;
            pm_extend_w f n end_ s
          else Ret start
        else Ret start
    end.

  (** src/par/merge_sort.rs:347-364 [collapse]. *)
  Definition pm_collapse_w (runs : list run_t) : P (option nat) :=
    let n := length runs in
    go ← and_then (Ret (2 <=? n))
      (or_else (a ← run_at c runs 1; Ret (r_start a =? 0))
      (or_else (a ← run_at c runs 2; b ← run_at c runs 1; Ret (r_len a <=? r_len b))
      (or_else (and_then (Ret (3 <=? n))
                  (a ← run_at c runs 3; b ← run_at c runs 2; d ← run_at c runs 1;
                   e ← uadd c (r_len b) (r_len d); Ret (r_len a <=? e)))
               (and_then (Ret (4 <=? n))
                  (a ← run_at c runs 4; b ← run_at c runs 3; d ← run_at c runs 2;
                   e ← uadd c (r_len b) (r_len d); Ret (r_len a <=? e))))));
    if go : bool then
      three ← and_then (Ret (3 <=? n))
        (a ← run_at c runs 3; b ← run_at c runs 1; Ret (r_len a <? r_len b));
      if three : bool then r ← wsub c n 3; Ret (Some r) else r ← wsub c n 2; Ret (Some r)
    else Ret None.

  (** src/par/merge_sort.rs:450-465. *)
  Fixpoint pm_collapse_loop_w (fuel n cap : nat) (runs : list run_t) : P (list run_t) :=
    match fuel with
    | 0 => NoFuel
    | S f =>
        o ← pm_collapse_w runs;
        match o with
        | None => Ret runs
        | Some r =>
            r1 ← uadd c r 1;
            left ← run_get runs r1;
            right ← run_get runs r;
            stop ← uadd c (r_start right) (r_len right);
            slice_buf n (r_start left) stop (λ m, pm_merge_w m cap (r_len left)) ;;
            len ← uadd c (r_len left) (r_len right);
            r1 ← uadd c r 1;
            pm_collapse_loop_w f n cap (delete r1 (<[r := Run (r_start left) len]> runs))
        end
    end.

  (** src/par/merge_sort.rs:404-472. *)
  Fixpoint pm_sort_loop_w (fuel n cap end_ : nat) (runs : list run_t) : P ms_result :=
    match fuel with
    | 0 => NoFuel
    | S f =>
        if 0 <? end_ then
          r ← pm_find_run_w n end_;
          match r with
          | inr res => Ret res
          | inl start =>
              start ← pm_extend_w (S start) n end_ start;
              len ← wsub c end_ start;
              runs ← pm_collapse_loop_w (S (S (length runs))) n cap (runs ++ [Run start len]);
              pm_sort_loop_w f n cap start runs
          end
        else
          dassert c ((length runs =? 1) && (r_start (runs !!! 0) =? 0) && (r_len (runs !!! 0) =? n)) ;;
          Ret Sorted_
    end.

  (** src/par/merge_sort.rs:387-474 [merge_sort]. *)
  Definition pm_merge_sort_w (n cap : nat) : P ms_result := pm_sort_loop_w (S n) n cap n [].
End chunk.

Section merge.
  Context {T : Type} (c : cfg).
  Notation P A := (cmp_prog T A).

  (** src/par/merge_sort.rs:502-509. *)
  Fixpoint split_search_right_w (fuel : nat) (left right : view) (left_mid a b : nat) : P nat :=
    match fuel with
    | 0 => NoFuel
    | S f =>
        if a <? b then
          d ← wsub c b a;
          m ← uadd c a (d / 2);
          y ← vget right m;
          x ← vget left left_mid;
          r ← is_less y x;
          if r : bool then a ← uadd c m 1; split_search_right_w f left right left_mid a b
          else split_search_right_w f left right left_mid a m
        else Ret a
    end.
  (** src/par/merge_sort.rs:518-525. *)
  Fixpoint split_search_left_w (fuel : nat) (left right : view) (right_mid a b : nat) : P nat :=
    match fuel with
    | 0 => NoFuel
    | S f =>
        if a <? b then
          d ← wsub c b a;
          m ← uadd c a (d / 2);
          x ← vget right right_mid;
          y ← vget left m;
          r ← is_less x y;
          if r : bool then split_search_left_w f left right right_mid a m
          else a ← uadd c m 1; split_search_left_w f left right right_mid a b
        else Ret a
    end.
  (** src/par/merge_sort.rs:485-529 [split_for_merge]. *)
  Definition split_for_merge_w (left right : view) : P (nat * nat) :=
    if right.2 <=? left.2 then
      let left_mid := left.2 / 2 in
      a ← split_search_right_w (S right.2) left right left_mid 0 right.2;
      Ret (left_mid, a)
    else
      let right_mid := right.2 / 2 in
      a ← split_search_left_w (S left.2) left right right_mid 0 left.2;
      Ret (a, right_mid).

  (** src/par/merge_sort.rs:649-676 — drop of [State]. *)
  Definition state_drop_w (left right dest : view) (ls rs ds : nat) : P unit :=
    left_len ← wsub c left.2 ls;
    for_up 0 left_len (λ i,
      a ← uadd c i ls; x ← vget left a; b ← uadd c i ds; vcopy left a dest b x) ;;
    right_len ← wsub c right.2 rs;
    for_up 0 right_len (λ i,
      a ← uadd c i rs; x ← vget right a;
      b ← uadd c i ds; b ← uadd c b left_len; vcopy right a dest b x).

  (** src/par/merge_sort.rs:588-603, and the drop of [s] at the end. *)
  Fixpoint seq_merge_w (fuel : nat) (left right dest : view) (ls rs ds : nat) : P unit :=
    match fuel with
    | 0 => NoFuel
    | S f =>
        let drop_s ls rs := state_drop_w left right dest ls rs ds in
        if (ls <? left.2) && (rs <? right.2) then
          x ← on_unwind (drop_s ls rs) (vget right rs);
          y ← on_unwind (drop_s ls rs) (vget left ls);
          r ← on_unwind (drop_s ls rs) (is_less x y);
          if r : bool then
            on_unwind (drop_s ls rs) (vcopy right rs dest ds x) ;;
            rs ← on_unwind (drop_s ls rs) (uadd c rs 1);
            ds ← on_unwind (drop_s ls rs) (uadd c ds 1);
            seq_merge_w f left right dest ls rs ds
          else
            on_unwind (drop_s ls rs) (vcopy left ls dest ds y) ;;
            ls ← on_unwind (drop_s ls rs) (uadd c ls 1);
            ds ← on_unwind (drop_s ls rs) (uadd c ds 1);
            seq_merge_w f left right dest ls rs ds
        else drop_s ls rs
    end.

  (** src/par/merge_sort.rs:587. *)
  Definition merge_sequential_w (ll rl : nat) : P bool :=
    if (ll =? 0) || (rl =? 0) then Ret true
    else sum ← uadd c ll rl; Ret (N.of_nat sum <? 5000)%N.

  (** src/par/merge_sort.rs:540-677 [par_merge]. *)
  Fixpoint par_merge_w (fuel : nat) (left right dest : view) : P unit :=
    match fuel with
    | 0 => NoFuel
    | S f =>
        let drop_s := state_drop_w left right dest 0 0 0 in
        seq ← on_unwind drop_s (merge_sequential_w left.2 right.2);
        if seq : bool then
          seq_merge_w (S (left.2 + right.2)) left right dest 0 0 0
        else
          '(left_mid, right_mid) ← on_unwind drop_s (split_for_merge_w left right);
          '(left_l, left_r) ← on_unwind drop_s (vsplit left left_mid);
          '(right_l, right_r) ← on_unwind drop_s (vsplit right right_mid);
          sum ← uadd c left_l.2 right_l.2;
          '(dest_l, dest_r) ← vsplit dest sum;
          rayon_join (par_merge_w f left_l right_l dest_l) (par_merge_w f left_r right_r dest_r) ;;
          Ret tt
    end.

  (** src/par/merge_sort.rs:797-807 — drop of [CopyOnDrop]; [src_start] and [dest_start]
      are equal. *)
  Definition copy_on_drop_w (src dest : view) (start len : nat) : P unit :=
    for_up 0 len (λ i,
      a ← uadd c start i; b ← uadd c start i; x ← vget src a; vcopy src a dest b x).

  (** src/par/merge_sort.rs:692-808 [recurse]. *)
  Fixpoint pm_recurse_w (fuel : nat) (v buf : view) (chunks : list (nat * nat)) (into_buf : bool) :
      P unit :=
    match fuel with
    | 0 => NoFuel
    | S f =>
        let len := length chunks in
        dassert c (0 <? len) ;;
        if len =? 1 then
          if into_buf then
            '(start, end_) ← chunk_get chunks 0;
            for_up start (end_ - start) (λ i, x ← vget v i; vcopy v i buf i x)
          else Ret tt
        else
          '(start, _) ← chunk_get chunks 0;
          '(mid, _) ← chunk_get chunks (len / 2);
          len1 ← wsub c len 1;
          '(_, end_) ← chunk_get chunks len1;
          let '(src, dest) := if into_buf then (v, buf) else (buf, v) in
          glen ← wsub c end_ start;
          on_unwind (copy_on_drop_w src dest start glen)
            (rayon_join (pm_recurse_w f v buf (take (len / 2) chunks) (negb into_buf))
                        (pm_recurse_w f v buf (drop (len / 2) chunks) (negb into_buf))) ;;
          src_left ← vslice src start mid;
          src_right ← vslice src mid end_;
          dst ← vslice dest start dest.2;
          par_merge_w (S (src_left.2 + src_right.2)) src_left src_right dst
    end.
End merge.

Section sort.
  Context {T : Type} (c : cfg).
  Notation P A := (cmp_prog T A).

  (** src/par/merge_sort.rs:875-882 for the [i]-th chunk, of length [m]; the bound [r] is
      only passed on, see [par_merge_sort_w]. *)
  Definition chunk_task_w (n i m : nat) : P ms_result :=
    l ← umul c CHUNK_LENGTH i;
    r ← uadd c l m;
    relocate (λ i, if i <? m then l + i else n + l + (i - m)) (pm_merge_sort_w c m m).

  (** src/par/merge_sort.rs:890-911. *)
  Fixpoint pm_concat_w (n a b : nat) (res : ms_result) (rest : list (nat * nat * ms_result)) :
      P (list (nat * nat)) :=
    let finish := if ms_eqb res Descending then slice n a b (reverse_w c) else Ret tt in
    match rest with
    | [] => finish ;; Ret [(a, b)]
    | (x, y, r) :: rest =>
        ext ← (if negb (ms_eqb res Sorted_) && ms_eqb r res then
                 p ← get n x;
                 x1 ← wsub c x 1;
                 q ← get n x1;
                 l ← is_less p q;
                 Ret (Bool.eqb (ms_eqb r Descending) l)
               else Ret false);
        if ext : bool then pm_concat_w n a y res rest
        else
          finish ;;
          chunks ← pm_concat_w n x y r rest;
          Ret ((a, b) :: chunks)
    end.

  (** src/par/merge_sort.rs:814-919 [par_merge_sort].  The pairs [(l, r)] that the tasks
      return with their results are the bounds of the chunks. *)
  Definition par_merge_sort_w (take_item : nat → bool) (n : nat) : P unit :=
    if zst c then Ret tt
    else if n <=? PM_MAX_INSERTION then
      if 2 <=? n then
        n1 ← wsub c n 1;
        for_down 0 n1 (λ i, slice n i n (pm_insert_head_w c))
      else Ret tt
    else if n <=? CHUNK_LENGTH then
      res ← pm_merge_sort_w c n n;
      if ms_eqb res Descending then reverse_w c n else Ret tt
    else
      let bounds := axis_chunks n n 0 in
      results ← par_bridge take_item (imap (λ i '(l, m), chunk_task_w n i m) bounds);
      match zip_with (λ '(l, m) res, (l, l + m, res)) bounds results with
      | [] => pm_recurse_w c 1 (0, n) (n, n) [] false
      | (a, b, res) :: rest =>
          chunks ← pm_concat_w n a b res rest;
          pm_recurse_w c (S (length chunks)) (0, n) (n, n) chunks false
      end.

  (** src/lib.rs:1719-1748. *)
  Definition par_sort_w (take_item : nat → bool) (n : nat) : P unit := par_merge_sort_w take_item n.
  Definition par_sort_by_w (take_item : nat → bool) (n : nat) :
      prog T (T * T) (option comparison) unit := by_compare (par_merge_sort_w take_item n).
  Definition par_sort_by_key_w {K} (take_item : nat → bool) (n : nat) :
      prog T (key_question K) (key_answer K) unit := by_key (par_merge_sort_w take_item n).
End sort.
