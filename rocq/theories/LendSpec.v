(** * LendSpec: running a program that lends elements to the caller. *)
From Verif Require Export MLend.
From stdpp Require Import list.

Section lending.
  Context {T : Type}.

  (** An index, the position lent for it, and the element at that time. *)
  Notation loan := (nat * nat * T)%type.
  (** The positions lent. *)
  Definition lent (out : list loan) : list nat := (λ x, x.1.2) <$> out.

  (** The caller may put anything where a reference was lent. *)
  Definition tamper (u : nat → T → T) (out : list loan) (l : list T) : list T :=
    imap (λ i x, if bool_decide (i ∈ lent out) then u i x else x) l.
  (** The array as if the caller had left the elements alone. *)
  Definition untampered (out : list loan) (l : list T) : list T :=
    foldr (λ x l, <[x.1.2 := x.2]> l) l out.

  (** The state machine [o] is the caller: whenever its code is called it answers and changes
      lent elements.  For the program the access to a lent element is undefined behaviour, and
      so is lending it again.  The result has the loans in the order they were made. *)
  Fixpoint lend_run {S A} (o : S → lend_question T → option bool * S * (nat → T → T))
      (p : prog T (lend_question T) (option bool) A) (s : S) (out : list loan) (l : list T)
      {struct p} : outcome A * S * list loan * list T :=
    match p with
    | Ret a => (Done a, s, out, l)
    | Throw e => (Panicked e, s, out, l)
    | Read i k =>
        if bool_decide (i ∈ lent out) then (Undefined, s, out, l)
        else match l !! i with
             | Some x => lend_run o (k x) s out l
             | None => (Undefined, s, out, l)
             end
    | Write i x k =>
        if bool_decide (i ∈ lent out) then (Undefined, s, out, l)
        else if decide (i < length l) then lend_run o k s out (<[i:=x]> l) else (Undefined, s, out, l)
    | Ask (IsLess q) k =>
        let '(r, s, u) := o s (IsLess q) in lend_run o (k r) s out (tamper u out l)
    | Ask (Extend index pos) k =>
        if bool_decide (pos ∈ lent out) then (Undefined, s, out, l)
        else match l !! pos with
             | Some x =>
                 let out := out ++ [(index, pos, x)] in
                 let '(r, s, u) := o s (Extend index pos) in lend_run o (k r) s out (tamper u out l)
             | None => (Undefined, s, out, l)
             end
    | Par _ _ _ => (Undefined, s, out, l)   (* there are no tasks *)
    | Undef => (Undefined, s, out, l)
    | NoFuel => (Diverged, s, out, l)
    end.
End lending.
