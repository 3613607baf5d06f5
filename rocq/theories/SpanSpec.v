(** * SpanSpec: the time a program takes if every task has a processor of its own. *)
From Verif Require Export Interleave.
From stdpp Require Import list relations.

Section rounds.
  Context {T Q R : Type} (ans : Q → R → Prop).

  (** Each of the tasks that are not finished calls the closure and gets an answer,
      all at the same time. *)
  Fixpoint round {A} (p : prog T Q R A) : prog T Q R A → Prop :=
    match p with
    | Ask q k => λ p', ∃ r, ans q r ∧ p' = k r
    | Par p1 p2 k => λ p',
        (∃ p1' p2', round p1 p1' ∧ round p2 p2' ∧ p' = Par p1' p2' k) ∨
        (∃ p1', round p1 p1' ∧ result p2 ≠ None ∧ p' = Par p1' p2 k) ∨
        (∃ p2', result p1 ≠ None ∧ round p2 p2' ∧ p' = Par p1 p2' k)
    | _ => λ _, False
    end.

  (** [rounds m c c']: [c] leads to [c'] in [m] rounds.  Before and after each round
      the tasks make any number of other steps, reads, writes and joins: the steps
      that are possible with a closure that never answers. *)
  Inductive rounds {A} : nat → prog T Q R A * list T → prog T Q R A * list T → Prop :=
  | rounds_none c : rounds 0 c c
  | rounds_call m p p' l c : round p p' → rounds m (p', l) c → rounds (S m) (p, l) c
  | rounds_step m c c' c'' : stepm (λ _ _, False) c c' → rounds m c' c'' → rounds m c c''.
End rounds.
