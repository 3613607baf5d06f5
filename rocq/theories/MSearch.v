(** * Model of the read-only methods of src/lib.rs: [binary_search*],
    [partition_point], [contains], [is_sorted*]. *)
From Verif Require Export Subst.

(** [Result<usize, usize>]. *)
Inductive search_result := Found (i : nat) | Missing (i : nat).

Section search.
  Context {T : Type} (c : cfg).

  (** src/lib.rs:2168-2193 — the loop of [binary_search_by]; [f] is the user's
      closure ([FnMut(&A) -> Ordering]), [None] a panic of it. *)
  Fixpoint binary_search_loop (fuel n size left right : nat) :
      prog T T (option comparison) search_result :=
    match fuel with
    | 0 => NoFuel
    | S fl =>
        if left <? right then
          let mid := left + size / 2 in
          x ← uget n mid;
          Ask x (λ r,
            match r with
            | None => Throw UserPanic
            | Some cmp =>
                let left := match cmp with Lt => mid + 1 | _ => left end in
                let right := match cmp with Gt => mid | _ => right end in
                match cmp with
                | Eq => dassert c (mid <? n) ;; Ret (Found mid)
                | _ =>
                    size ← usub right left;
                    binary_search_loop fl n size left right
                end
            end)
        else
          dassert c (left <=? n) ;;
          Ret (Missing left)
    end.

  (** src/lib.rs:2158-2200 [binary_search_by]. *)
  Definition binary_search_by (n : nat) : prog T T (option comparison) search_result :=
    binary_search_loop (S n) n n 0 n.

  (** src/lib.rs:2151-2157 [binary_search]: the closure is [|p| p.cmp(x)]. *)
  Definition binary_search (n : nat) (x : T) : prog T (T * T) (option comparison) search_result :=
    with_asks (λ p, Ask (p, x) Ret) (binary_search_by n).

  (** A key function together with the keys' [Ord::cmp]. *)
  Inductive keyc_question (K : Type) :=
  | KeyOfC (a : T)          (* f(a) *)
  | KeyCmp (k1 k2 : K).     (* k1.cmp(&k2) *)
  Inductive keyc_answer (K : Type) :=
  | CKey (k : K)
  | COrd (o : comparison)
  | CPanic.
  Global Arguments KeyOfC {K} a.
  Global Arguments KeyCmp {K} k1 k2.
  Global Arguments CKey {K} k.
  Global Arguments COrd {K} o.
  Global Arguments CPanic {K}.

  (** src/lib.rs:2201-2208 [binary_search_by_key]: the closure is
      [|k| f(k).cmp(b)]. *)
  Definition binary_search_by_key {K} (n : nat) (b : K) :
      prog T (keyc_question K) (keyc_answer K) search_result :=
    with_asks (λ k,
      Ask (KeyOfC k) (λ r1,
        match r1 with
        | CKey kk =>
            Ask (KeyCmp kk b) (λ r2,
              match r2 with COrd o => Ret (Some o) | _ => Ret None end)
        | _ => Ret None
        end)) (binary_search_by n).

  (** src/lib.rs:2134-2141 [partition_point]: the closure is
      [|x| if pred(x) { Less } else { Greater }], then
      [.unwrap_or_else(|i| i)]. *)
  Definition partition_point (n : nat) : prog T T (option bool) nat :=
    r ← with_asks (λ x, Ask x (λ r, Ret (match r with
                                         | Some true => Some Lt
                                         | Some false => Some Gt
                                         | None => None
                                         end))) (binary_search_by n);
    Ret (match r with Found i => i | Missing i => i end).

  (** src/lib.rs:2143-2149 [contains]: [self.iter().any(|a| a == x)]; the
      iterator yields elements [i], [i + 1], ... and stops at the first hit. *)
  Fixpoint contains_loop (n : nat) (x : T) (i cnt : nat) : cmp_prog T bool :=
    match cnt with
    | 0 => Ret false
    | S k =>
        a ← uget n i;
        r ← is_less a x;    (* the call [a == x] *)
        if r : bool then Ret true else contains_loop n x (S i) k
    end.
  Definition contains (n : nat) (x : T) : cmp_prog T bool := contains_loop n x 0 n.

  (** src/partition.rs:757-763 — the loop of [is_sorted]; [i] runs over [1..len]. *)
  Fixpoint is_sorted_loop (n i cnt : nat) : cmp_prog T bool :=
    match cnt with
    | 0 => Ret true
    | S k =>
        i1 ← usub i 1;
        a ← get n i1;
        b ← get n i;
        r ← is_less a b;    (* the call [compare(a, b)] *)
        if r : bool then is_sorted_loop n (S i) k else Ret false
    end.
  (** src/partition.rs:753-764 [is_sorted]; src/lib.rs:1957-1962 [is_sorted_by] and
      1950-1955 [is_sorted], whose closure is [|a, b| a <= b]. *)
  Definition is_sorted (n : nat) : cmp_prog T bool := is_sorted_loop n 1 (n - 1).
  Definition is_sorted_by (n : nat) : cmp_prog T bool := is_sorted n.
  (** src/lib.rs:1964-1970 [is_sorted_by_key]: [|a, b| f(a) <= f(b)]; the question
      [KeyLt ka kb] stands for the key comparison made, here [ka <= kb]. *)
  Definition is_sorted_by_key {K} (n : nat) : prog T (key_question K) (key_answer K) bool :=
    by_key (is_sorted n).
End search.
