(** * HeapSpec: the environment of the stable sort, and correct use of an allocator.

    The environment answers the comparator's questions with an arbitrary closure
    and the requests for memory with an arbitrary allocator, and it keeps the list
    of the blocks that are allocated.  Freeing something that is not an allocated
    block, or with another length than it was allocated with, is undefined
    behaviour of [dealloc]; the environment records this as [None]. *)
From Verif Require Export MAlloc Closures.
From stdpp Require Import list.

Global Instance block_kind_eq_dec : EqDecision block_kind.
Proof. solve_decision. Defined.

(** An allocated block: kind, address, length. *)
Notation mem_block := (block_kind * nat * nat)%type (only parsing).
Notation memory := (list mem_block) (only parsing).

(** Remove one occurrence. *)
Fixpoint free_block (h : memory) (b : mem_block) : option memory :=
  match h with
  | [] => None
  | b' :: h => if decide (b' = b) then Some h else cons b' <$> free_block h b
  end.

Record env_state (S A : Type) := Env {
  closure_state : S; allocator_state : A; blocks : option memory }.
Global Arguments Env {S A} closure_state allocator_state blocks.
Global Arguments closure_state {S A} e.
Global Arguments allocator_state {S A} e.
Global Arguments blocks {S A} e.

Section env.
  Context {T S A : Type}.
  (** The comparator. *)
  Context (less : S → T * T → option bool * S).
  (** The allocator: [None] is a null pointer. *)
  Context (al : A → block_kind → nat → option nat * A).
  Context (fr : A → block_kind → nat → nat → A).

  Definition environment (e : env_state S A) (q : mem_question T) : mem_answer * env_state S A :=
    match q with
    | Compare x y =>
        let '(r, s) := less (closure_state e) (x, y) in
        (Less r, Env s (allocator_state e) (blocks e))
    | Alloc k len =>
        let '(p, a) := al (allocator_state e) k len in
        (Ptr p, Env (closure_state e) a
           (match p, blocks e with
            | Some p, Some h => Some ((k, p, len) :: h)
            | _, h => h
            end))
    | Dealloc k p len =>
        (Freed, Env (closure_state e) (fr (allocator_state e) k p len)
           (match blocks e with Some h => free_block h (k, p, len) | None => None end))
    end.
End env.
