(** * Ops: memory access, arithmetic and comparison primitives of the model.

    These model the ndarray / core operations the crate calls: [v[i]] and
    [.index(i)] (bounds-checked), [uget]/[uget_mut]/[uswap]/raw pointers
    (unchecked), [slice_mut]/[split_at] (checked), [usize] subtraction (checked in
    builds with overflow checks) and calls to the user's comparator. *)

From Verif Require Export Prog.

(** Build and type configuration. *)
Record cfg := Cfg {
  dbg : bool;    (* compiled with debug assertions ([debug_assert!] is active) *)
  ovf : bool;    (* compiled with overflow checks *)
  wide : bool;   (* [usize::BITS > 32] (64-bit target); otherwise 32-bit *)
  zst : bool     (* [mem::size_of::<T>() == 0] *)
}.

(** Programs whose only user closure is an [is_less : FnMut(&T, &T) -> bool].
    Question: the pair of arguments.  Answer: [Some b] returns [b], [None]
    panics. *)
Notation cmp_prog T A := (prog T (T * T) (option bool) A).

(** The bit length of [n]: [usize::BITS - len.leading_zeros()] on
    src/quick_sort.rs:26; also used to size recursion-depth fuels. *)
Definition bit_length (n : nat) : nat :=
  match n with 0 => 0 | _ => S (Nat.log2 n) end.

Section ops.
  Context {T Q R : Type}.
  Notation P A := (prog T Q R A).

  (** Unchecked read ([IndexLonger::uget], [ptr::read], deref of a raw pointer
      into the view) of element [i] of a view of length [n]. *)
  Definition uget (n i : nat) : P T :=
    if i <? n then Read i Ret else Undef.
  (** Bounds-checked read ([v[i]], [.index(i)]). *)
  Definition get (n i : nat) : P T :=
    if i <? n then Read i Ret else Throw IndexPanic.
  (** Unchecked write ([ptr::copy_nonoverlapping] to a raw pointer into the view). *)
  Definition uput (n i : nat) (x : T) : P unit :=
    if i <? n then Write i x (Ret tt) else Undef.
  (** Bounds-checked write (through the reference returned by [.index(i)]). *)
  Definition put (n i : nat) (x : T) : P unit :=
    if i <? n then Write i x (Ret tt) else Throw IndexPanic.
  (** [ptr::copy_nonoverlapping(src, dst, 1)] between two elements of the memory:
      it is undefined behaviour if they are the same element.  This is the
      condition alone; the copy itself is a read and a write. *)
  Definition nonoverlapping (src dst : nat) : P unit :=
    if src =? dst then Undef else Ret tt.
  (** Unchecked swap ([ArrayBase::uswap]). *)
  Definition uswap (n i j : nat) : P unit :=
    bind (uget n i) (λ x, bind (uget n j) (λ y,
    bind (uput n i y) (λ _, uput n j x))).
  (** Checked swap ([ArrayBase::swap]); both indices are checked before anything
      is moved. *)
  Definition swap (n i j : nat) : P unit :=
    if (i <? n) && (j <? n) then uswap n i j else Throw IndexPanic.
  (** [v.slice_mut(s![a..b])] (or the piece of a [split_at]) passed to [p], which
      receives the length of the subview. *)
  Definition slice {A} (n a b : nat) (p : nat → P A) : P A :=
    if (a <=? b) && (b <=? n) then focus a (p (b - a)) else Throw IndexPanic.
  (** [usize] subtraction.  An underflow panics in builds with overflow checks;
      every theorem excludes [OverflowPanic] where this is used, so the builds
      without overflow checks (which would wrap) behave the same. *)
  Definition usub (a b : nat) : P nat :=
    if b <=? a then Ret (a - b) else Throw OverflowPanic.
  (** [debug_assert!(b)]. *)
  Definition dassert (c : cfg) (b : bool) : P unit :=
    if dbg c && negb b then Throw DebugPanic else Ret tt.
  (** [assert!(b)]. *)
  Definition assert (b : bool) : P unit :=
    if b then Ret tt else Throw AssertPanic.

  (** [for i in a..a+cnt]. *)
  Fixpoint for_up (a cnt : nat) (body : nat → P unit) : P unit :=
    match cnt with
    | 0 => Ret tt
    | S k => bind (body a) (λ _, for_up (S a) k body)
    end.
  (** [for i in (a..a+cnt).rev()]. *)
  Fixpoint for_down (a cnt : nat) (body : nat → P unit) : P unit :=
    match cnt with
    | 0 => Ret tt
    | S k => bind (body (a + k)) (λ _, for_down a k body)
    end.
End ops.

(** A call of the comparator. *)
Definition is_less {T} (a b : T) : cmp_prog T bool :=
  Ask (a, b) (λ r, match r with Some b => Ret b | None => Throw UserPanic end).

Global Arguments uget : simpl never.
Global Arguments get : simpl never.
Global Arguments uput : simpl never.
Global Arguments put : simpl never.
Global Arguments nonoverlapping : simpl never.
Global Arguments uswap : simpl never.
Global Arguments swap : simpl never.
Global Arguments slice : simpl never.
Global Arguments usub : simpl never.
Global Arguments dassert : simpl never.
Global Arguments assert : simpl never.
Global Arguments is_less : simpl never.

Global Arguments Nat.leb : simpl never.
Global Arguments Nat.ltb : simpl never.
Global Arguments Nat.eqb : simpl never.
Global Arguments Nat.div : simpl never.
Global Arguments Nat.modulo : simpl never.
Global Arguments Nat.compare : simpl never.

Open Scope prog_scope.
