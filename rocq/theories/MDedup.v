(** * Model of src/partition_dedup.rs and of [partition_dedup*] in src/lib.rs. *)
From Verif Require Export Subst.

(** What the closure [same_bucket(&mut a, &mut b)] does: it may change both
    elements, and returns a [bool] or panics. *)
Inductive dedup_answer (T : Type) :=
| Bucket (same : bool) (a b : T)     (* returned [same]; new values of the arguments *)
| BucketPanic (a b : T).             (* panicked; values of the arguments at that moment *)
Global Arguments Bucket {T} same a b.
Global Arguments BucketPanic {T} a b.

Section dedup.
  Context {T : Type}.
  Notation P A := (prog T (T * T) (dedup_answer T) A).

  (** [same_bucket(&mut *a, &mut *b)] for the elements at [i] and [j]: two
      mutable references to one element would be undefined behaviour. *)
  Definition same_bucket (n i j : nat) : P bool :=
    if i =? j then Undef
    else
      x ← uget n i;
      y ← uget n j;
      Ask (x, y) (λ r,
        match r with
        | Bucket b x' y' => uput n i x' ;; uput n j y' ;; Ret b
        | BucketPanic x' y' => uput n i x' ;; uput n j y' ;; Throw UserPanic
        end).

  (** src/partition_dedup.rs:96-111 — the loop. *)
  Fixpoint dedup_loop (n cnt next_read next_write : nat) : P nat :=
    match cnt with
    | 0 => Ret next_write
    | S k =>
        prev_write ← usub next_write 1;
        same ← same_bucket n next_read prev_write;
        if same : bool then dedup_loop n k (S next_read) next_write
        else
          (if next_read =? next_write then Ret tt
           else uswap n next_read (prev_write + 1)) ;;
          dedup_loop n k (S next_read) (next_write + 1)
    end.

  (** [v.split_at(Axis(0), i)]: the two subviews as (start, length) pairs; ndarray
      asserts [i <= len]. *)
  Definition split_views (n i : nat) : P ((nat * nat) * (nat * nat)) :=
    assert (i <=? n) ;; Ret ((0, i), (i, n - i)).

  (** src/partition_dedup.rs:7-115 [partition_dedup]; src/lib.rs:2219-2228
      [partition_dedup_by]. *)
  Definition partition_dedup_by (n : nat) : P ((nat * nat) * (nat * nat)) :=
    if n <=? 1 then
      '(duplicates, dedup) ← split_views n 0;
      Ret (dedup, duplicates)
    else
      next_write ← dedup_loop n (n - 1) 1 1;
      split_views n next_write.

  (** src/lib.rs:2210-2217 [partition_dedup]: the closure [|a, b| a == b] leaves
      both elements alone; [eq] is the user's [PartialEq] ([None]: panic). *)
  Definition partition_dedup (n : nat) : cmp_prog T ((nat * nat) * (nat * nat)) :=
    with_asks (λ '(a, b), Ask (a, b) (λ r,
      Ret (match r with Some v => Bucket v a b | None => BucketPanic a b end)))
      (partition_dedup_by n).
End dedup.

(** The questions of [partition_dedup_by_key]. *)
Inductive dkey_question (T K : Type) :=
| DKeyOf (a : T)           (* key(&mut a), which may change [a] *)
| DKeyEq (k1 k2 : K).      (* k1 == k2 *)
Inductive dkey_answer (T K : Type) :=
| DKey (k : K) (a : T)     (* the key and the new value of the argument *)
| DBool (b : bool)
| DPanic (a : T)           (* panicked, argument left as [a] *)
| DPanicEq.                (* [==] panicked *)
Global Arguments DKeyOf {T K} a.
Global Arguments DKeyEq {T K} k1 k2.
Global Arguments DKey {T K} k a.
Global Arguments DBool {T K} b.
Global Arguments DPanic {T K} a.
Global Arguments DPanicEq {T K}.

(** src/lib.rs:2229-2239 [partition_dedup_by_key]: the closure is
    [|a, b| key(a) == key(b)].  Answers of the wrong kind (impossible in Rust)
    are treated like panics. *)
Definition partition_dedup_by_key {T K} (n : nat) :
    prog T (dkey_question T K) (dkey_answer T K) ((nat * nat) * (nat * nat)) :=
  with_asks (λ '(a, b),
    Ask (DKeyOf a) (λ r1,
      match r1 with
      | DKey ka a' =>
          Ask (DKeyOf b) (λ r2,
            match r2 with
            | DKey kb b' =>
                Ask (DKeyEq ka kb) (λ r3,
                  Ret (match r3 with DBool v => Bucket v a' b' | _ => BucketPanic a' b' end))
            | DPanic b' => Ret (BucketPanic a' b')
            | _ => Ret (BucketPanic a' b)
            end)
      | DPanic a' => Ret (BucketPanic a' b)
      | _ => Ret (BucketPanic a b)
      end)) (partition_dedup_by n).
