(** * MWordAlloc: the stable sort with [usize] words, its allocator and [RunVec].

    This is the model of MAlloc once more, now with the sums, differences and products of
    src/merge_sort.rs computed by [uadd], [wsub] and [umul] of the build, and with the
    layouts of src/stable_sort.rs, which are made by [unwrap_unchecked]: a block too large
    for a [Layout], or one without bytes, is [Undef]. *)
From Verif Require Export MAlloc MWord.
From Coq Require Import NArith.

Section layout.
  (** [esize] and [ealign] are [size_of::<T>()] and [align_of::<T>()]. *)
  Context {T : Type} (c : cfg) (esize ealign : N).
  Notation P A := (prog T (mem_question T) mem_answer A).

  (** [TimSortRun], src/merge_sort.rs:498-501, has two fields of type [usize]. *)
  Definition word_bytes : N := if wide c then 8%N else 4%N.
  Definition block_bytes (k : block_kind) (len : nat) : N :=
    (N.of_nat len * match k with ElemBlock => esize | RunBlock => 2 * word_bytes end)%N.
  Definition block_align (k : block_kind) : N :=
    match k with ElemBlock => ealign | RunBlock => word_bytes end.
  (** [Layout::array(len).unwrap_unchecked()], src/stable_sort.rs:32, 42, 50, 59: there is a
      layout if the bytes, rounded up to the alignment, are at most [isize::MAX].
      [alloc] must not be called with a layout of no bytes. *)
  Definition layout (k : block_kind) (len : nat) : P unit :=
    if (0 <? block_bytes k len)%N && (2 * (block_bytes k len + (block_align k - 1)) <? words c)%N
    then Ret tt else Undef.

  (** src/merge_sort.rs:351, 389, 403 with the closures of src/stable_sort.rs:28-33, 47-51. *)
  Definition alloc_w (k : block_kind) (len : nat) : P nat := layout k len ;; alloc k len.
  (** src/stable_sort.rs:35-45, 53-62. *)
  Definition dealloc_w (k : block_kind) (p len : nat) : P unit := layout k len ;; dealloc k p len.

  (** src/merge_sort.rs:483-492 [RunVec::drop]. *)
  Definition rv_drop_w (rv : run_vec) : P unit := dealloc_w RunBlock (rv_ptr rv) (rv_cap rv).
  (** Code of [merge_sort] while [runs] exists. *)
  Definition guarded {A} (rv : run_vec) (p : cmp_prog T A) : P A := on_unwind (rv_drop_w rv) (lift p).

  (** src/merge_sort.rs:384-395 [RunVec::new]. *)
  Definition rv_new_w : P run_vec :=
    p ← alloc_w RunBlock START_RUN_CAPACITY;
    Ret (RunVec p START_RUN_CAPACITY 0 (replicate START_RUN_CAPACITY None)).

  (** src/merge_sort.rs:397-419 [RunVec::push]. *)
  Definition rv_push_w (rv : run_vec) (val : run_t) : P run_vec :=
    rv ← (if rv_len rv =? rv_cap rv then
            cap ← guarded rv (umul c (rv_cap rv) 2);
            p ← on_unwind (rv_drop_w (RunVec (rv_ptr rv) cap (rv_len rv) (rv_slots rv)))
                  (alloc_w RunBlock cap);
            if (rv_cap rv <=? length (rv_slots rv)) && (rv_cap rv <=? cap) then
              dealloc_w RunBlock (rv_ptr rv) (rv_cap rv) ;;
              Ret (RunVec p cap (rv_len rv)
                (take (rv_cap rv) (rv_slots rv) ++ replicate (cap - rv_cap rv) None))
            else Undef
          else Ret rv);
    if rv_len rv <? length (rv_slots rv) then
      len ← guarded rv (uadd c (rv_len rv) 1);
      Ret (RunVec (rv_ptr rv) (rv_cap rv) len (<[rv_len rv := Some val]> (rv_slots rv)))
    else Undef.

  (** src/merge_sort.rs:421-435 [RunVec::remove]. *)
  Definition rv_remove_w (rv : run_vec) (index : nat) : P run_vec :=
    if rv_len rv <=? index then on_unwind (rv_drop_w rv) (Throw AssertPanic)
    else
      cnt ← guarded rv (wsub c (rv_len rv) index);
      cnt ← guarded rv (wsub c cnt 1);
      if rv_len rv <=? length (rv_slots rv) then
        len ← guarded rv (wsub c (rv_len rv) 1);
        Ret (RunVec (rv_ptr rv) (rv_cap rv) len
          (take index (rv_slots rv) ++
           take cnt (drop (index + 1) (rv_slots rv)) ++
           drop (index + cnt) (rv_slots rv)))
      else Undef.

  (** src/merge_sort.rs:454-463 [RunVec::index]. *)
  Definition rv_index_w (rv : run_vec) (i : nat) : P run_t :=
    if i <? rv_len rv then
      match rv_slots rv !! i with Some (Some r) => Ret r | _ => Undef end
    else on_unwind (rv_drop_w rv) (Throw IndexPanic).
  (** src/merge_sort.rs:471-480 [RunVec::index_mut], and the assignment. *)
  Definition rv_assign_w (rv : run_vec) (i : nat) (val : run_t) : P run_vec :=
    if i <? rv_len rv then
      if i <? length (rv_slots rv) then
        Ret (RunVec (rv_ptr rv) (rv_cap rv) (rv_len rv) (<[i := Some val]> (rv_slots rv)))
      else Undef
    else on_unwind (rv_drop_w rv) (Throw IndexPanic).

  (** src/merge_sort.rs:273-287. *)
  Fixpoint collapse_loop_mem_w (fuel cap n : nat) (rv : run_vec) : P run_vec :=
    match fuel with
    | 0 => NoFuel
    | S f =>
        runs ← rv_slice rv;
        o ← guarded rv (collapse_w c runs n);
        match o with
        | None => Ret rv
        | Some r =>
            left ← rv_index_w rv r;
            r1 ← guarded rv (uadd c r 1);
            right ← rv_index_w rv r1;
            stop ← guarded rv (uadd c (r_start right) (r_len right));
            guarded rv (slice n (r_start left) stop (λ m, merge_w c cap m (r_len left))) ;;
            len ← guarded rv (uadd c (r_len left) (r_len right));
            r1 ← guarded rv (uadd c r 1);
            rv ← rv_assign_w rv r1 (Run (r_start left) len);
            rv ← rv_remove_w rv r;
            collapse_loop_mem_w f cap n rv
        end
    end.

  (** src/merge_sort.rs:254-288. *)
  Fixpoint merge_sort_loop_mem_w (fuel cap n start end_ : nat) (rv : run_vec) : P run_vec :=
    match fuel with
    | 0 => NoFuel
    | S f =>
        if end_ <? n then
          '(streak_end, was_reversed) ← guarded rv (slice n start n (find_streak_w c));
          end_ ← guarded rv (uadd c end_ streak_end);
          guarded rv (if was_reversed : bool then slice n start end_ (reverse_w c) else Ret tt) ;;
          end_ ← guarded rv (provide_sorted_batch_w c n start end_);
          len ← guarded rv (wsub c end_ start);
          rv ← rv_push_w rv (Run start len);
          rv ← collapse_loop_mem_w (S (rv_len rv)) cap n rv;
          merge_sort_loop_mem_w f cap n end_ end_ rv
        else Ret rv
    end.

  (** src/merge_sort.rs:209-291 [merge_sort]. *)
  Definition merge_sort_mem_w (n : nat) : P unit :=
    lift (dassert c (negb (zst c))) ;;
    if n <=? MS_MAX_INSERTION then
      lift (if 2 <=? n then insertion_sort_shift_left_w c n 1 else Ret tt)
    else
      buf ← alloc_w ElemBlock (n / 2);
      on_unwind (dealloc_w ElemBlock buf (n / 2))
        (rv ← rv_new_w;
         rv ← merge_sort_loop_mem_w (S n) (n / 2) n 0 0 rv;
         runs ← rv_slice rv;
         guarded rv (dassert c
           ((length runs =? 1) && (r_start (runs !!! 0) =? 0) && (r_len (runs !!! 0) =? n))) ;;
         rv_drop_w rv) ;;
      dealloc_w ElemBlock buf (n / 2).

  (** src/stable_sort.rs:19-72 [stable_sort]. *)
  Definition stable_sort_mem_w (n : nat) : P unit :=
    if zst c then Ret tt else merge_sort_mem_w n.
End layout.
