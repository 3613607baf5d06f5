(** * NestSpec: joins that are active at the same time. *)
From Verif Require Export Interleave.

Section active.
  Context {T Q R : Type}.

  (** How many joins wait for each other in a state of the execution: a task that
      has called [rayon::join] counts one for itself and what the deeper of the
      two tasks it has started counts. *)
  Fixpoint active {A} (p : prog T Q R A) : nat :=
    match p with
    | Par p1 p2 _ => S (Nat.max (active p1) (active p2))
    | _ => 0
    end.
End active.
