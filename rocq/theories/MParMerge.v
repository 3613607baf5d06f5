(** * Model of src/par/merge_sort.rs, the parallel stable sort.

    The memory of these programs holds the array and, after it, the scratch
    buffer.  Fresh buffer contents are arbitrary: the theorems quantify over
    them. *)
From Verif Require Export MPar MMerge.
From Coq Require Import NArith.

(** src/par/merge_sort.rs:316-323 [MergesortResult]. *)
Inductive ms_result := NonDescending | Descending | Sorted_.
(** The derived [PartialEq]. *)
Definition ms_eqb (a b : ms_result) : bool :=
  match a, b with
  | NonDescending, NonDescending | Descending, Descending | Sorted_, Sorted_ => true
  | _, _ => false
  end.

(** src/par/merge_sort.rs:347-364 [collapse]. *)
Definition pm_collapse (runs : list run_t) : option nat :=
  let n := length runs in
  let len k := r_len (runs !!! k) in
  if (2 <=? n)
     && ((r_start (runs !!! (n - 1)) =? 0)
         || (len (n - 2) <=? len (n - 1))
         || ((3 <=? n) && (len (n - 3) <=? len (n - 2) + len (n - 1)))
         || ((4 <=? n) && (len (n - 4) <=? len (n - 3) + len (n - 2))))
  then
    if (3 <=? n) && (len (n - 3) <? len (n - 1)) then Some (n - 3) else Some (n - 2)
  else None.

(** ** One chunk.  The view is at [0, n) and the buffer at [n, n + cap). *)
Section chunk.
  Context {T : Type} (c : cfg).
  Notation P A := (cmp_prog T A).

  (** src/par/merge_sort.rs:90-97 — the loop of [insert_head]: [i] runs over
      [2..len], [cnt] iterations are left, the hole ([hole.dest], 102-113) is at
      [i - 1]. *)
  Fixpoint pm_insert_loop (n : nat) (tmp : T) (i cnt : nat) : P unit :=
    match cnt with
    | 0 => uput n (i - 1) tmp
    | S k =>
        let drop_hole := uput n (i - 1) tmp in
        y ← on_unwind drop_hole (get n i);
        r ← on_unwind drop_hole (is_less y tmp);
        if r : bool then
          on_unwind drop_hole (put n (i - 1) y) ;;
          pm_insert_loop n tmp (S i) k
        else drop_hole
    end.

  (** src/par/merge_sort.rs:49-114 [insert_head]. *)
  Definition pm_insert_head (n : nat) : P unit :=
    if 2 <=? n then
      a ← get n 1;
      b ← get n 0;
      r ← is_less a b;
      if r : bool then
        tmp ← get n 0;
        x ← get n 1;
        on_unwind (uput n 1 tmp) (put n 0 x) ;;
        pm_insert_loop n tmp 2 (n - 2)
      else Ret tt
    else Ret tt.

  (** Reads and writes through [buf: *mut T], unchecked. *)
  Definition bget (n cap i : nat) : P T :=
    if i <? cap then Read (n + i) Ret else Undef.
  Definition bput (n cap i : nat) (x : T) : P unit :=
    if i <? cap then Write (n + i) x (Ret tt) else Undef.

  (** src/par/merge_sort.rs:159-161 and 213-215 — copy [v[base..base+cnt]] to
      [buf]. *)
  Definition pm_copy_out (n cap base cnt : nat) : P unit :=
    for_up 0 cnt (λ i, x ← get n (base + i); bput n cap i x).

  (** src/par/merge_sort.rs:298-310 — drop of [MergeHole]. *)
  Definition pm_hole_drop (n cap start end_ dest : nat) : P unit :=
    len ← usub end_ start;
    for_up 0 len (λ i,
      x ← bget n cap (start + i);
      put n (dest + i) x).

  (** src/par/merge_sort.rs:177-207; [hole.start = left], [hole.end = mid],
      [hole.dest = out]. *)
  Fixpoint pm_merge_fwd (fuel n cap mid left right out : nat) : P unit :=
    match fuel with
    | 0 => NoFuel
    | S f =>
        let drop_hole := pm_hole_drop n cap left mid out in
        if (left <? mid) && (right <? n) then
          x ← uget n right;
          y ← bget n cap left;
          is_l ← on_unwind drop_hole (is_less x y);
          (if is_l : bool then nonoverlapping right out else Ret tt) ;;
          on_unwind drop_hole (put n out (if is_l : bool then x else y)) ;;
          (if is_l : bool
           then pm_merge_fwd f n cap mid left (S right) (S out)
           else pm_merge_fwd f n cap mid (S left) right (S out))
        else drop_hole
    end.

  (** src/par/merge_sort.rs:230-254; [hole.start = 0], [hole.end = right],
      [hole.dest = left]. *)
  Fixpoint pm_merge_bwd (fuel n cap left right out : nat) : P unit :=
    match fuel with
    | 0 => NoFuel
    | S f =>
        let drop_hole left right := pm_hole_drop n cap 0 right left in
        if (0 <? left) && (0 <? right) then
          x ← bget n cap (right - 1);
          y ← uget n (left - 1);
          is_l ← on_unwind (drop_hole left right) (is_less x y);
          let left := if is_l : bool then left - 1 else left in
          let right := if is_l : bool then right else right - 1 in
          out ← on_unwind (drop_hole left right) (usub out 1);
          (if is_l : bool then nonoverlapping left out else Ret tt) ;;
          on_unwind (drop_hole left right) (put n out (if is_l : bool then y else x)) ;;
          pm_merge_bwd f n cap left right out
        else drop_hole left right
    end.

  (** src/par/merge_sort.rs:124-311 [merge]. *)
  Definition pm_merge (n cap mid : nat) : P unit :=
    rest ← usub n mid;
    if mid <=? rest then
      pm_copy_out n cap 0 mid ;;
      pm_merge_fwd (S n) n cap mid 0 mid 0
    else
      pm_copy_out n cap mid rest ;;
      pm_merge_bwd (S n) n cap mid rest n.

  (** [merge(v.slice_mut(s![a..b]), .., buf, ..)]: the subview together with the
      buffer. *)
  Definition slice_buf {A} (n a b : nat) (p : nat → P A) : P A :=
    if (a <=? b) && (b <=? n)
    then relocate (λ i, if i <? b - a then a + i else n + (i - (b - a))) (p (b - a))
    else Throw IndexPanic.

  (** src/par/merge_sort.rs:413-415 and 424-426 — extend a streak to the left
      whose [is_less] answers are all [want]. *)
  Fixpoint pm_streak (want : bool) (n start : nat) : P nat :=
    match start with
    | 0 => Ret 0
    | S s =>
        a ← uget n start;
        b ← uget n s;
        r ← is_less a b;
        if Bool.eqb r want then pm_streak want n s else Ret start
    end.

  (** src/par/merge_sort.rs:406-433: the start of the run that ends at [end_], or
      the result to return at once. *)
  Definition pm_find_run (n end_ : nat) : P (nat + ms_result) :=
    start ← usub end_ 1;
    if 0 <? start then
      let start := start - 1 in
      a ← uget n (start + 1);
      b ← uget n start;
      r ← is_less a b;
      start ← pm_streak r n start;
      if r : bool then
        if (start =? 0) && (end_ =? n) then Ret (inr Descending)
        else slice n start end_ reverse ;; Ret (inl start)
      else
        len ← usub end_ start;
        if len =? n then Ret (inr NonDescending) else Ret (inl start)
    else Ret (inl start).

  (** src/par/merge_sort.rs:394. *)
  Definition MIN_RUN : nat := 10.

  (** src/par/merge_sort.rs:437-440. *)
  Fixpoint pm_extend (n end_ start : nat) : P nat :=
    match start with
    | 0 => Ret 0
    | S s =>
        len ← usub end_ start;
        if len <? MIN_RUN then
          slice n s end_ pm_insert_head ;;
          pm_extend n end_ s
        else Ret start
    end.

  (** src/par/merge_sort.rs:450-465. *)
  Fixpoint pm_collapse_loop (fuel n cap : nat) (runs : list run_t) : P (list run_t) :=
    match fuel with
    | 0 => NoFuel
    | S f =>
        match pm_collapse runs with
        | None => Ret runs
        | Some r =>
            left ← run_get runs (r + 1);
            right ← run_get runs r;
            slice_buf n (r_start left) (r_start right + r_len right)
              (λ m, pm_merge m cap (r_len left)) ;;
            pm_collapse_loop f n cap
              (delete (r + 1) (<[r := Run (r_start left) (r_len left + r_len right)]> runs))
        end
    end.

  (** src/par/merge_sort.rs:404-472. *)
  Fixpoint pm_sort_loop (fuel n cap end_ : nat) (runs : list run_t) : P ms_result :=
    match fuel with
    | 0 => NoFuel
    | S f =>
        if 0 <? end_ then
          r ← pm_find_run n end_;
          match r with
          | inr res => Ret res
          | inl start =>
              start ← pm_extend n end_ start;
              len ← usub end_ start;
              runs ← pm_collapse_loop (S (S (length runs))) n cap (runs ++ [Run start len]);
              pm_sort_loop f n cap start runs
          end
        else
          dassert c ((length runs =? 1) && (r_start (runs !!! 0) =? 0) && (r_len (runs !!! 0) =? n)) ;;
          Ret Sorted_
    end.

  (** src/par/merge_sort.rs:387-474 [merge_sort] on a view of length [n] with the
      part [buf[..cap]] of the buffer. *)
  Definition pm_merge_sort (n cap : nat) : P ms_result :=
    pm_sort_loop (S n) n cap n [].
End chunk.

(** ** Views at arbitrary addresses: the first address and the length. *)
Definition view := (nat * nat)%type.

Section merge.
  Context {T : Type} (c : cfg).
  Notation P A := (cmp_prog T A).

  (** [v[i]], bounds-checked. *)
  Definition vget (v : view) (i : nat) : P T :=
    if i <? v.2 then Read (v.1 + i) Ret else Throw IndexPanic.
  Definition vput (v : view) (i : nat) (x : T) : P unit :=
    if i <? v.2 then Write (v.1 + i) x (Ret tt) else Throw IndexPanic.
  (** [ptr::copy_nonoverlapping(&src[i], &mut dest[j], 1)], where [x] is [src[i]].
      It is undefined behaviour if these are the same element. *)
  Definition vcopy (src : view) (i : nat) (dest : view) (j : nat) (x : T) : P unit :=
    if src.1 + i =? dest.1 + j then Undef else vput dest j x.
  (** [v.split_at(Axis(0), at)]. *)
  Definition vsplit (v : view) (at_ : nat) : P (view * view) :=
    if at_ <=? v.2 then Ret ((v.1, at_), (v.1 + at_, v.2 - at_)) else Throw IndexPanic.
  (** [v.slice_mut(s![a..b])]. *)
  Definition vslice (v : view) (a b : nat) : P view :=
    if (a <=? b) && (b <=? v.2) then Ret (v.1 + a, b - a) else Throw IndexPanic.

  (** src/par/merge_sort.rs:502-509: the first position of [right] whose element is
      not less than [left[left_mid]]. *)
  Fixpoint split_search_right (fuel : nat) (left right : view) (left_mid a b : nat) : P nat :=
    match fuel with
    | 0 => NoFuel
    | S f =>
        if a <? b then
          let m := a + (b - a) / 2 in
          y ← vget right m;
          x ← vget left left_mid;
          r ← is_less y x;
          if r : bool then split_search_right f left right left_mid (m + 1) b
          else split_search_right f left right left_mid a m
        else Ret a
    end.
  (** src/par/merge_sort.rs:518-525: the first position of [left] whose element is
      greater than [right[right_mid]]. *)
  Fixpoint split_search_left (fuel : nat) (left right : view) (right_mid a b : nat) : P nat :=
    match fuel with
    | 0 => NoFuel
    | S f =>
        if a <? b then
          let m := a + (b - a) / 2 in
          x ← vget right right_mid;
          y ← vget left m;
          r ← is_less x y;
          if r : bool then split_search_left f left right right_mid a m
          else split_search_left f left right right_mid (m + 1) b
        else Ret a
    end.

  (** src/par/merge_sort.rs:485-529 [split_for_merge]. *)
  Definition split_for_merge (left right : view) : P (nat * nat) :=
    if right.2 <=? left.2 then
      let left_mid := left.2 / 2 in
      a ← split_search_right (S right.2) left right left_mid 0 right.2;
      Ret (left_mid, a)
    else
      let right_mid := right.2 / 2 in
      a ← split_search_left (S left.2) left right right_mid 0 left.2;
      Ret (a, right_mid).

  (** src/par/merge_sort.rs:649-676 — drop of [State]. *)
  Definition state_drop (left right dest : view) (ls rs ds : nat) : P unit :=
    left_len ← usub left.2 ls;
    for_up 0 left_len (λ i, x ← vget left (i + ls); vcopy left (i + ls) dest (i + ds) x) ;;
    right_len ← usub right.2 rs;
    for_up 0 right_len (λ i, x ← vget right (i + rs); vcopy right (i + rs) dest (i + ds + left_len) x).

  (** src/par/merge_sort.rs:588-603, and the drop of [s] at the end. *)
  Fixpoint seq_merge (fuel : nat) (left right dest : view) (ls rs ds : nat) : P unit :=
    match fuel with
    | 0 => NoFuel
    | S f =>
        let drop_s := state_drop left right dest ls rs ds in
        if (ls <? left.2) && (rs <? right.2) then
          x ← on_unwind drop_s (vget right rs);
          y ← on_unwind drop_s (vget left ls);
          r ← on_unwind drop_s (is_less x y);
          if r : bool then
            on_unwind drop_s (vcopy right rs dest ds x) ;;
            seq_merge f left right dest ls (S rs) (S ds)
          else
            on_unwind drop_s (vcopy left ls dest ds y) ;;
            seq_merge f left right dest (S ls) rs (S ds)
        else drop_s
    end.

  (** [left_len + right_len < MAX_SEQUENTIAL], src/par/merge_sort.rs:553 and 587. *)
  Definition merge_sequential (ll rl : nat) : bool :=
    (ll =? 0) || (rl =? 0) || (N.of_nat (ll + rl) <? 5000)%N.

  (** src/par/merge_sort.rs:540-677 [par_merge]. *)
  Fixpoint par_merge (fuel : nat) (left right dest : view) : P unit :=
    match fuel with
    | 0 => NoFuel
    | S f =>
        if merge_sequential left.2 right.2 then
          seq_merge (S (left.2 + right.2)) left right dest 0 0 0
        else
          let drop_s := state_drop left right dest 0 0 0 in
          '(left_mid, right_mid) ← on_unwind drop_s (split_for_merge left right);
          '(left_l, left_r) ← on_unwind drop_s (vsplit left left_mid);
          '(right_l, right_r) ← on_unwind drop_s (vsplit right right_mid);
          '(dest_l, dest_r) ← vsplit dest (left_l.2 + right_l.2);
          rayon_join (par_merge f left_l right_l dest_l) (par_merge f left_r right_r dest_r) ;;
          Ret tt
    end.

  (** src/par/merge_sort.rs:797-807 — drop of [CopyOnDrop]. *)
  Definition copy_on_drop (src dest : view) (start len : nat) : P unit :=
    for_up 0 len (λ i, x ← vget src (start + i); vcopy src (start + i) dest (start + i) x).

  (** [chunks[i]]. *)
  Definition chunk_get (chunks : list (nat * nat)) (i : nat) : P (nat * nat) :=
    match chunks !! i with Some x => Ret x | None => Throw IndexPanic end.

  (** src/par/merge_sort.rs:692-808 [recurse]. *)
  Fixpoint pm_recurse (fuel : nat) (v buf : view) (chunks : list (nat * nat)) (into_buf : bool) :
      P unit :=
    match fuel with
    | 0 => NoFuel
    | S f =>
        let len := length chunks in
        dassert c (0 <? len) ;;
        if len =? 1 then
          if into_buf then
            '(start, end_) ← chunk_get chunks 0;
            for_up start (end_ - start) (λ i, x ← vget v i; vcopy v i buf i x)
          else Ret tt
        else
          '(start, _) ← chunk_get chunks 0;
          '(mid, _) ← chunk_get chunks (len / 2);
          len1 ← usub len 1;
          '(_, end_) ← chunk_get chunks len1;
          let '(src, dest) := if into_buf then (v, buf) else (buf, v) in
          glen ← usub end_ start;
          on_unwind (copy_on_drop src dest start glen)
            (rayon_join (pm_recurse f v buf (take (len / 2) chunks) (negb into_buf))
                        (pm_recurse f v buf (drop (len / 2) chunks) (negb into_buf))) ;;
          src_left ← vslice src start mid;
          src_right ← vslice src mid end_;
          dst ← vslice dest start dest.2;
          par_merge (S (src_left.2 + src_right.2)) src_left src_right dst
    end.
End merge.

(** ** [ParallelBridge::for_each]: the items are processed by any number of
    threads in any order.  All of them are parallel tasks here.  If the closure
    panics on some item, rayon may stop before it has taken all of the items; it
    then waits for those being processed and propagates a panic.  [take_item]
    says which items are taken before a panic is noticed; the theorems hold for
    every [take_item].  The others are processed only if there was no panic. *)
Section bridge.
  Context {T Q R : Type}.
  Notation P A := (prog T Q R A).

  Fixpoint par_each {B} (ts : list (P B)) : P (list (B + exn)) :=
    match ts with
    | [] => Ret []
    | t :: ts => Par t (par_each ts) (λ b bs,
        match bs with inl bs => Ret (b :: bs) | inr e => Throw e end)
    end.
  (** The results, or the first panic. *)
  Fixpoint all_done {B} (rs : list (B + exn)) : P (list B) :=
    match rs with
    | [] => Ret []
    | inl b :: rs => bs ← all_done rs; Ret (b :: bs)
    | inr e :: _ => Throw e
    end.
  Fixpoint bridge_first {B} (take_item : nat → bool) (i : nat) (ts : list (P B)) : list (P (option B)) :=
    match ts with
    | [] => []
    | t :: ts => (if take_item i then b ← t; Ret (Some b) else Ret None)
                 :: bridge_first take_item (S i) ts
    end.
  Fixpoint bridge_rest {B} (rs : list (option B)) (ts : list (P B)) : list (P B) :=
    match rs, ts with
    | Some b :: rs, _ :: ts => Ret b :: bridge_rest rs ts
    | None :: rs, t :: ts => t :: bridge_rest rs ts
    | _, _ => []
    end.
  Definition par_bridge {B} (take_item : nat → bool) (ts : list (P B)) : P (list B) :=
    rs ← par_each (bridge_first take_item 0 ts);
    rs ← all_done rs;
    rs ← par_each (bridge_rest rs ts);
    all_done rs.
End bridge.

Section sort.
  Context {T : Type} (c : cfg).
  Notation P A := (cmp_prog T A).

  (** src/par/merge_sort.rs:821 and 824. *)
  Definition PM_MAX_INSERTION : nat := 20.
  Definition CHUNK_LENGTH : nat := 2000.

  (** [axis_chunks_iter_mut(Axis(0), CHUNK_LENGTH)] (line 867): start and length
      of the chunks of an axis of length [n], from [l] on. *)
  Fixpoint axis_chunks (fuel n l : nat) : list (nat * nat) :=
    match fuel with
    | 0 => []
    | S f => if l <? n then (l, Nat.min CHUNK_LENGTH (n - l)) :: axis_chunks f n (l + CHUNK_LENGTH)
             else []
    end.

  (** src/par/merge_sort.rs:875-882: sort the chunk of length [m] starting at [l],
      with the part of the buffer at the same position. *)
  Definition chunk_task (n l m : nat) : P ms_result :=
    relocate (λ i, if i <? m then l + i else n + l + (i - m)) (pm_merge_sort c m m).

  (** src/par/merge_sort.rs:890-911: [a], [b], [res] is the chunk taken from
      [iter], [rest] are the following ones. *)
  Fixpoint pm_concat (n a b : nat) (res : ms_result) (rest : list (nat * nat * ms_result)) :
      P (list (nat * nat)) :=
    let finish := if ms_eqb res Descending then slice n a b reverse else Ret tt in
    match rest with
    | [] => finish ;; Ret [(a, b)]
    | (x, y, r) :: rest =>
        ext ← (if negb (ms_eqb res Sorted_) && ms_eqb r res then
                 p ← get n x;
                 x1 ← usub x 1;
                 q ← get n x1;
                 l ← is_less p q;
                 Ret (Bool.eqb (ms_eqb r Descending) l)
               else Ret false);
        if ext : bool then pm_concat n a y res rest
        else
          finish ;;
          chunks ← pm_concat n x y r rest;
          Ret ((a, b) :: chunks)
    end.

  (** src/par/merge_sort.rs:814-919 [par_merge_sort].  [Vec::with_capacity] (846,
      869, 888) does not fail in the model. *)
  Definition par_merge_sort (take_item : nat → bool) (n : nat) : P unit :=
    if zst c then Ret tt
    else if n <=? PM_MAX_INSERTION then
      if 2 <=? n then for_down 0 (n - 1) (λ i, slice n i n pm_insert_head) else Ret tt
    else if n <=? CHUNK_LENGTH then
      res ← pm_merge_sort c n n;
      if ms_eqb res Descending then reverse n else Ret tt
    else
      let bounds := axis_chunks n n 0 in
      results ← par_bridge take_item (map (λ '(l, m), chunk_task n l m) bounds);
      match zip_with (λ '(l, m) res, (l, l + m, res)) bounds results with
      | [] => pm_recurse c 1 (0, n) (n, n) [] false
      | (a, b, res) :: rest =>
          chunks ← pm_concat n a b res rest;
          pm_recurse c (S (length chunks)) (0, n) (n, n) chunks false
      end.

  (** src/lib.rs:1719-1727 [par_sort]. *)
  Definition par_sort (take_item : nat → bool) (n : nat) : P unit := par_merge_sort take_item n.
  (** src/lib.rs:1728-1737 [par_sort_by]. *)
  Definition par_sort_by (take_item : nat → bool) (n : nat) :
      prog T (T * T) (option comparison) unit := by_compare (par_merge_sort take_item n).
  (** src/lib.rs:1738-1748 [par_sort_by_key]. *)
  Definition par_sort_by_key {K} (take_item : nat → bool) (n : nat) :
      prog T (key_question K) (key_answer K) unit := by_key (par_merge_sort take_item n).
End sort.
