(** * CallSpec: how many calls of the closure a schedule makes. *)
From Verif Require Export Interleave.
From stdpp Require Import list.

Section calls.
  Context {T Q R : Type} (ans : Q → R → Prop).

  (** One of the running tasks calls the closure and gets an answer. *)
  Fixpoint call_step {A} (p : prog T Q R A) : prog T Q R A → Prop :=
    match p with
    | Ask q k => λ p', ∃ r, ans q r ∧ p' = k r
    | Par p1 p2 k => λ p',
        (∃ p1', call_step p1 p1' ∧ p' = Par p1' p2 k) ∨
        (∃ p2', call_step p2 p2' ∧ p' = Par p1 p2' k)
    | _ => λ _, False
    end.

  (** [calls_made m c c']: a schedule leads from [c] to [c'] and makes (at least)
      [m] calls of the closure. *)
  Inductive calls_made {A} : nat → prog T Q R A * list T → prog T Q R A * list T → Prop :=
  | made_none c : calls_made 0 c c
  | made_call m p p' l c : call_step p p' → calls_made m (p', l) c → calls_made (S m) (p, l) c
  | made_step m c c' c'' : stepm ans c c' → calls_made m c' c'' → calls_made m c c''.
End calls.

(** ** Schedules with the calls they make, in order, and the answers. *)
Section log.
  Context {T Q R : Type} (ans : Q → R → Prop).

  (** One of the running tasks calls the closure with [q] and gets [r]. *)
  Fixpoint call_step_as {A} (p : prog T Q R A) (q : Q) (r : R) : prog T Q R A → Prop :=
    match p with
    | Ask q' k => λ p', q' = q ∧ p' = k r
    | Par p1 p2 k => λ p',
        (∃ p1', call_step_as p1 q r p1' ∧ p' = Par p1' p2 k) ∨
        (∃ p2', call_step_as p2 q r p2' ∧ p' = Par p1 p2' k)
    | _ => λ _, False
    end.

  (** [schedule_log tr c c']: a schedule leads from [c] to [c'], the calls of the
      closure it makes and the answers are [tr].  The other steps, reads, writes
      and joins, are the steps that are possible with a closure that never answers. *)
  Inductive schedule_log {A} :
      list (Q * R) → prog T Q R A * list T → prog T Q R A * list T → Prop :=
  | log_none c : schedule_log [] c c
  | log_call q r tr p p' l c :
      ans q r → call_step_as p q r p' → schedule_log tr (p', l) c →
      schedule_log ((q, r) :: tr) (p, l) c
  | log_step tr c c' c'' :
      stepm (λ _ _, False) c c' → schedule_log tr c' c'' → schedule_log tr c c''.
End log.
