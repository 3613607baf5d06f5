(** * AccessSpec: how many memory accesses a run or a schedule makes. *)
From Verif Require Export Interleave ParSpec CallSpec Ghost.
From stdpp Require Import list.

(** The number of reads and writes of the run [run o p s l]. *)
Fixpoint accesses {T Q R S A} (o : S → Q → R * S) (p : prog T Q R A) (s : S) (l : list T) : nat :=
  match p with
  | Ret _ | Throw _ | Undef | NoFuel => 0
  | Read i k => match l !! i with Some x => 1 + accesses o (k x) s l | None => 0 end
  | Write i x k => if decide (i < length l) then 1 + accesses o k s (<[i:=x]> l) else 0
  | Ask q k => let '(r, s') := o s q in accesses o (k r) s' l
  | Par p1 p2 k =>
      let '(r1, s1, l1) := run o p1 s l in
      let '(r2, s2, l2) := run o p2 s1 l1 in
      match arm_result r1, arm_result r2 with
      | Some b, Some d => accesses o p1 s l + accesses o p2 s1 l1 + accesses o (k b d) s2 l2
      | Some _, None => accesses o p1 s l + accesses o p2 s1 l1
      | None, _ => accesses o p1 s l
      end
  end.

Section counts.
  Context {T Q R : Type} (ans : Q → R → Prop).

  (** [schedule_counts a m c c']: a schedule leads from [c] to [c'], all tasks
      together read or write memory [a] times and call the closure [m] times. *)
  Inductive schedule_counts {A} :
      nat → nat → prog T Q R A * list T → prog T Q R A * list T → Prop :=
  | counts_none c : schedule_counts 0 0 c c
  | counts_call a m p p' l c :
      call_step ans p p' → schedule_counts a m (p', l) c → schedule_counts a (S m) (p, l) c
  | counts_read a m p p' i x l c :
      step (λ _ _, False) p (Rd i x) p' → l !! i = Some x →
      schedule_counts a m (p', l) c → schedule_counts (S a) m (p, l) c
  | counts_write a m p p' i x l c :
      step (λ _ _, False) p (Wr i x) p' → i < length l →
      schedule_counts a m (p', <[i:=x]> l) c → schedule_counts (S a) m (p, l) c
  | counts_join a m p p' l c :
      step (λ _ _, False) p Tau p' → schedule_counts a m (p', l) c →
      schedule_counts a m (p, l) c.
End counts.

(** Every run of [p], and every schedule of its tasks, with every closure and on
    every array, accesses memory at most [K] times per call of the closure and
    [b] times more. *)
Definition accesses_bounded {T Q R A} (K b : nat) (p : prog T Q R A) : Prop :=
  (∀ (S : Type) (o : S → Q → R * S) (s : S) (l : list T),
     let '(_, (_, tr), _) := run (logged o) p (s, []) l in
     accesses o p s l ≤ K * length tr + b) ∧
  (∀ (ans : Q → R → Prop) (l : list T) (a m : nat) (c : prog T Q R A * list T),
     schedule_counts ans a m (p, l) c → a ≤ K * m + b).
