(** * Model of the memory management of src/merge_sort.rs and src/stable_sort.rs.

    MMerge.v keeps the stack of runs in a Coq list and leaves out the calls of the
    allocator.  Here the stack is the hand-written vector [RunVec] over a raw
    buffer, and each call of [alloc] and [dealloc] is a question to the
    environment, so that the theorems can speak about every allocator. *)
From Verif Require Export Subst MMerge.

(** The two kinds of blocks: arrays of [T] ([BufGuard], src/stable_sort.rs:28-45)
    and arrays of [TimSortRun] ([RunVec], src/stable_sort.rs:47-62). *)
Inductive block_kind := ElemBlock | RunBlock.

Inductive mem_question (T : Type) :=
| Compare (a b : T)                        (* is_less(a, b) *)
| Alloc (k : block_kind) (len : nat)       (* alloc(Layout::array(len)) *)
| Dealloc (k : block_kind) (p len : nat).  (* dealloc(p, Layout::array(len)) *)
Global Arguments Compare {T} a b.
Global Arguments Alloc {T} k len.
Global Arguments Dealloc {T} k p len.
Inductive mem_answer :=
| Less (r : option bool)     (* the comparator's result, [None]: it panicked *)
| Ptr (p : option nat)       (* the allocated address, [None]: null *)
| Freed.

(** src/merge_sort.rs:367-376 [RunVec]; [rv_slots] is the memory [buf_ptr] points
    to, [None] is an uninitialised slot. *)
Record run_vec := RunVec {
  rv_ptr : nat; rv_cap : nat; rv_len : nat; rv_slots : list (option run_t) }.

Section alloc.
  Context {T : Type} (c : cfg).
  Notation P A := (prog T (mem_question T) mem_answer A).

  (** Code that only compares.  An answer of the wrong kind (impossible in Rust)
      is treated like a panic. *)
  Definition lift {A} (p : cmp_prog T A) : P A :=
    with_asks (λ '(a, b), Ask (Compare a b) (λ r,
      Ret (match r with Less v => v | _ => None end))) p.

  (** [ptr::NonNull::new(alloc_fn(len)).unwrap()], src/merge_sort.rs:351, 389, 403;
      the panic of [unwrap] is [AssertPanic]. *)
  Definition alloc (k : block_kind) (len : nat) : P nat :=
    Ask (Alloc k len) (λ r, match r with Ptr (Some p) => Ret p | _ => Throw AssertPanic end).
  (** [dealloc_fn(ptr, len)]. *)
  Definition dealloc (k : block_kind) (p len : nat) : P unit :=
    Ask (Dealloc k p len) (λ _, Ret tt).

  (** src/merge_sort.rs:483-492 [RunVec::drop]. *)
  Definition rv_drop (rv : run_vec) : P unit := dealloc RunBlock (rv_ptr rv) (rv_cap rv).

  (** src/merge_sort.rs:386. *)
  Definition START_RUN_CAPACITY : nat := 16.
  (** src/merge_sort.rs:384-395 [RunVec::new]. *)
  Definition rv_new : P run_vec :=
    p ← alloc RunBlock START_RUN_CAPACITY;
    Ret (RunVec p START_RUN_CAPACITY 0 (replicate START_RUN_CAPACITY None)).

  (** src/merge_sort.rs:397-419 [RunVec::push].  If the allocation of line 403
      fails, [self] is dropped in the state it has then: [capacity] is doubled
      already (line 402), [buf_ptr] is still the old one. *)
  Definition rv_push (rv : run_vec) (val : run_t) : P run_vec :=
    rv ← (if rv_len rv =? rv_cap rv then
            let cap := rv_cap rv * 2 in
            p ← on_unwind (rv_drop (RunVec (rv_ptr rv) cap (rv_len rv) (rv_slots rv)))
                  (alloc RunBlock cap);
            if (rv_cap rv <=? length (rv_slots rv)) && (rv_cap rv <=? cap) then
              dealloc RunBlock (rv_ptr rv) (rv_cap rv) ;;
              Ret (RunVec p cap (rv_len rv)
                (take (rv_cap rv) (rv_slots rv) ++ replicate (cap - rv_cap rv) None))
            else Undef
          else Ret rv);
    if rv_len rv <? length (rv_slots rv) then
      Ret (RunVec (rv_ptr rv) (rv_cap rv) (rv_len rv + 1)
        (<[rv_len rv := Some val]> (rv_slots rv)))
    else Undef.

  (** src/merge_sort.rs:421-435 [RunVec::remove]; [ptr::copy] moves
      [len - index - 1] slots down by one. *)
  Definition rv_remove (rv : run_vec) (index : nat) : P run_vec :=
    if rv_len rv <=? index then on_unwind (rv_drop rv) (Throw AssertPanic)
    else if rv_len rv <=? length (rv_slots rv) then
      Ret (RunVec (rv_ptr rv) (rv_cap rv) (rv_len rv - 1)
        (take index (rv_slots rv) ++
         take (rv_len rv - index - 1) (drop (index + 1) (rv_slots rv)) ++
         drop (rv_len rv - 1) (rv_slots rv)))
    else Undef.

  (** src/merge_sort.rs:437-440 [RunVec::as_slice]; all slots must be
      initialised. *)
  Definition rv_slice (rv : run_vec) : P (list run_t) :=
    if rv_len rv <=? length (rv_slots rv) then
      match mapM id (take (rv_len rv) (rv_slots rv)) with Some runs => Ret runs | None => Undef end
    else Undef.
  (** src/merge_sort.rs:454-463 [RunVec::index]. *)
  Definition rv_index (rv : run_vec) (i : nat) : P run_t :=
    if i <? rv_len rv then
      match rv_slots rv !! i with Some (Some r) => Ret r | _ => Undef end
    else on_unwind (rv_drop rv) (Throw IndexPanic).
  (** src/merge_sort.rs:471-480 [RunVec::index_mut], and the assignment. *)
  Definition rv_assign (rv : run_vec) (i : nat) (val : run_t) : P run_vec :=
    if i <? rv_len rv then
      if i <? length (rv_slots rv) then
        Ret (RunVec (rv_ptr rv) (rv_cap rv) (rv_len rv) (<[i := Some val]> (rv_slots rv)))
      else Undef
    else on_unwind (rv_drop rv) (Throw IndexPanic).

  (** src/merge_sort.rs:273-287, as [collapse_loop] of MMerge.v; [runs] is dropped
      if [merge] or the slicing unwinds. *)
  Fixpoint collapse_loop_mem (fuel cap n : nat) (rv : run_vec) : P run_vec :=
    match fuel with
    | 0 => NoFuel
    | S f =>
        runs ← rv_slice rv;
        match collapse runs n with
        | None => Ret rv
        | Some r =>
            left ← rv_index rv r;
            right ← rv_index rv (r + 1);
            on_unwind (rv_drop rv)
              (lift (slice n (r_start left) (r_start right + r_len right)
                (λ m, merge cap m (r_len left)))) ;;
            rv ← rv_assign rv (r + 1) (Run (r_start left) (r_len left + r_len right));
            rv ← rv_remove rv r;
            collapse_loop_mem f cap n rv
        end
    end.

  (** src/merge_sort.rs:254-288, as [merge_sort_loop] of MMerge.v. *)
  Fixpoint merge_sort_loop_mem (fuel cap n start end_ : nat) (rv : run_vec) : P run_vec :=
    match fuel with
    | 0 => NoFuel
    | S f =>
        if end_ <? n then
          '(streak_end, was_reversed) ← on_unwind (rv_drop rv) (lift (slice n start n find_streak));
          let end_ := end_ + streak_end in
          on_unwind (rv_drop rv) (lift
            (if was_reversed : bool then slice n start end_ reverse else Ret tt)) ;;
          end_ ← on_unwind (rv_drop rv) (lift (provide_sorted_batch c n start end_));
          len ← on_unwind (rv_drop rv) (lift (usub end_ start));
          rv ← rv_push rv (Run start len);
          rv ← collapse_loop_mem (S (rv_len rv)) cap n rv;
          merge_sort_loop_mem f cap n end_ end_ rv
        else Ret rv
    end.

  (** src/merge_sort.rs:209-291 [merge_sort].  [runs] and [buf] are dropped in
      this order at the end of the function and when it unwinds. *)
  Definition merge_sort_mem (n : nat) : P unit :=
    lift (dassert c (negb (zst c))) ;;
    if n <=? MS_MAX_INSERTION then
      lift (if 2 <=? n then insertion_sort_shift_left c n 1 else Ret tt)
    else
      buf ← alloc ElemBlock (n / 2);
      on_unwind (dealloc ElemBlock buf (n / 2))
        (rv ← rv_new;
         rv ← merge_sort_loop_mem (S n) (n / 2) n 0 0 rv;
         runs ← rv_slice rv;
         on_unwind (rv_drop rv) (lift (dassert c
           ((length runs =? 1) && (r_start (runs !!! 0) =? 0) && (r_len (runs !!! 0) =? n)))) ;;
         rv_drop rv) ;;
      dealloc ElemBlock buf (n / 2).

  (** src/stable_sort.rs:19-72 [stable_sort]. *)
  Definition stable_sort_mem (n : nat) : P unit :=
    if zst c then Ret tt else merge_sort_mem n.
End alloc.
