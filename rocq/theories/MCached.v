(** * Model of [sort_by_cached_key] and [par_sort_by_cached_key] (src/lib.rs).

    The [Vec] of (key, index) pairs is a Coq list; [indices.sort_unstable()] of the
    standard library and [indices.par_sort_unstable()] of rayon are external code,
    so they are a question ([SortPairs]) answered by the environment, like the
    calls of the user's key function. *)
From Verif Require Export Ops.
From Coq Require Export NArith.

(** The index types [$t] of the macro [sort_by_key!]. *)
Inductive index_type := U8 | U16 | U32 | Usize.
(** [mem::size_of::<(K, $t)>()] for the four index types. *)
Record sizes := Sizes { sz_u8 : N; sz_u16 : N; sz_u32 : N; sz_usize : N }.

Section cached.
  Context {T K : Type} (c : cfg).

  (** Number of values of an index type. *)
  Definition width_count (w : index_type) : N :=
    match w with
    | U8 => 256
    | U16 => 65536
    | U32 => 4294967296
    | Usize => if wide c then 18446744073709551616 else 4294967296
    end.
  (** [i as $t]: truncates. *)
  Definition cast (w : index_type) (i : nat) : nat :=
    N.to_nat (N.of_nat i mod width_count w).
  (** src/lib.rs:1874-1889 and 1793-1807 — the choice of the index type. *)
  Definition choose_width (sz : sizes) (n : nat) : index_type :=
    if (N.ltb (sz_u8 sz) (sz_u16 sz) && N.leb (N.of_nat n) 255)%N then U8
    else if (N.ltb (sz_u16 sz) (sz_u32 sz) && N.leb (N.of_nat n) 65535)%N then U16
    else if (N.ltb (sz_u32 sz) (sz_usize sz) && N.leb (N.of_nat n) 4294967295)%N then U32
    else Usize.

  Inductive ck_question :=
  | CachedKey (a : T)                 (* the call f(a) *)
  | SortPairs (v : list (K * nat))    (* the external (unstable) sort of the pairs *)
  | Pick (n : nat).                   (* scheduling of par_bridge, see below *)
  Inductive ck_answer :=
  | CKeyIs (k : K)
  | SortedTo (v : list (K * nat))
  | Picked (which place : nat) (stop : bool)
  | CKPanic.                          (* f, or a comparison of keys, panicked *)

  Notation ck_prog A := (prog T ck_question ck_answer A).

  Definition call_key (a : T) : ck_prog K :=
    Ask (CachedKey a) (λ r, match r with CKeyIs k => Ret k | _ => Throw UserPanic end).
  Definition sort_pairs (v : list (K * nat)) : ck_prog (list (K * nat)) :=
    Ask (SortPairs v) (λ r, match r with SortedTo v' => Ret v' | _ => Throw UserPanic end).

  (** src/lib.rs:1850-1855 — [iter().map(f).enumerate().map(|(i, k)| (k, i as $t))
      .collect()]: elements [i], [i + 1], ... in order. *)
  Fixpoint collect_keys (w : index_type) (n i cnt : nat) : ck_prog (list (K * nat)) :=
    match cnt with
    | 0 => Ret []
    | S k =>
        a ← uget n i;
        key ← call_key a;
        rest ← collect_keys w n (S i) k;
        Ret ((key, cast w i) :: rest)
    end.

  (** Checked indexing of the [Vec]: [indices[i].1]. *)
  Definition vec_index (v : list (K * nat)) (i : nat) : ck_prog nat :=
    match v !! i with Some p => Ret p.2 | None => Throw IndexPanic end.

  (** src/lib.rs:1862-1864 — [while (index as usize) < i]. *)
  Fixpoint chase (fuel : nat) (v : list (K * nat)) (i index : nat) : ck_prog nat :=
    if index <? i then
      match fuel with
      | 0 => NoFuel
      | S fl => index' ← vec_index v index; chase fl v i index'
      end
    else Ret index.

  (** src/lib.rs:1860-1867 — the loop that applies the permutation, [i] runs over
      [i..i + cnt]. *)
  Fixpoint permute (n : nat) (v : list (K * nat)) (i cnt : nat) : ck_prog unit :=
    match cnt with
    | 0 => Ret tt
    | S k =>
        index ← vec_index v i;
        index ← chase i v i index;
        (* indices[i].1 = index *)
        v' ← match v !! i with
              | Some p => Ret (<[i := (p.1, index)]> v)
              | None => Throw IndexPanic
              end;
        swap n i index ;;
        permute n v' (S i) k
    end.

  (** src/lib.rs:1848-1869 — the macro [sort_by_key!($t, self, f)]. *)
  Definition sort_by_key_macro (w : index_type) (n : nat) : ck_prog unit :=
    v ← collect_keys w n 0 n;
    v ← sort_pairs v;
    permute n v 0 n.

  (** src/lib.rs:1838-1890 [sort_by_cached_key]. *)
  Definition sort_by_cached_key (sz : sizes) (n : nat) : ck_prog unit :=
    if n <? 2 then Ret tt
    else sort_by_key_macro (choose_width sz n) n.

  (** src/lib.rs:1772-1777 — [iter().enumerate().par_bridge().map(..).collect()].
      Which element is processed next ([which]), and where its pair ends up in the
      collected vector ([place]), is up to the schedule, i.e. the answer to
      [Pick]; every order of calls and every order of results arises.  The calls
      of [f] are atomic here.  After a panic of [f] the other threads may process
      more elements or not ([stop]); then the panic is propagated. *)
  Fixpoint par_collect_keys (w : index_type) (n : nat) (todo : list nat) (acc : list (K * nat))
      (panicked : bool) (cnt : nat) : ck_prog (list (K * nat)) :=
    match cnt with
    | 0 => if panicked then Throw UserPanic else Ret acc
    | S k =>
        Ask (Pick (length todo)) (λ r,
          let '(which, place, stop) :=
            match r with Picked a b c => (a, b, c) | _ => (0, 0, false) end in
          if panicked && stop then Throw UserPanic else
          let j := which mod length todo in
          match todo !! j with
          | None => Undef
          | Some i =>
              a ← uget n i;
              Ask (CachedKey a) (λ r,
                match r with
                | CKeyIs key =>
                    let p := place mod (S (length acc)) in
                    par_collect_keys w n (delete j todo)
                      (take p acc ++ (key, cast w i) :: drop p acc) panicked k
                | _ => par_collect_keys w n (delete j todo) acc true k
                end)
          end)
    end.

  (** src/lib.rs:1769-1791 — the macro of the parallel variant. *)
  Definition par_sort_by_key_macro (w : index_type) (n : nat) : ck_prog unit :=
    v ← par_collect_keys w n (seq 0 n) [] false n;
    v ← sort_pairs v;
    permute n v 0 n.

  (** src/lib.rs:1749-1808 [par_sort_by_cached_key]. *)
  Definition par_sort_by_cached_key (sz : sizes) (n : nat) : ck_prog unit :=
    if n <? 2 then Ret tt
    else par_sort_by_key_macro (choose_width sz n) n.
End cached.
Global Arguments ck_question : clear implicits.
Global Arguments ck_answer : clear implicits.
