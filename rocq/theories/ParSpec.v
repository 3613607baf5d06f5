(** * ParSpec: how deeply the calls of [rayon::join] of a run are nested. *)
From Verif Require Export Prog.
From stdpp Require Import list.

Definition arm_result {A} (r : outcome A) : option (A + exn) :=
  match r with Done a => Some (inl a) | Panicked e => Some (inr e) | _ => None end.

(** The greatest number of [rayon::join]s that are active at the same time around
    one point of the run [run o p s l]. *)
Fixpoint join_depth {T Q R S A} (o : S → Q → R * S) (p : prog T Q R A) (s : S) (l : list T) : nat :=
  match p with
  | Ret _ | Throw _ | Undef | NoFuel => 0
  | Read i k => match l !! i with Some x => join_depth o (k x) s l | None => 0 end
  | Write i x k => if decide (i < length l) then join_depth o k s (<[i:=x]> l) else 0
  | Ask q k => let '(r, s') := o s q in join_depth o (k r) s' l
  | Par p1 p2 k =>
      let '(r1, s1, l1) := run o p1 s l in
      let '(r2, s2, l2) := run o p2 s1 l1 in
      Nat.max (1 + Nat.max (join_depth o p1 s l) (join_depth o p2 s1 l1))
        (match arm_result r1, arm_result r2 with
         | Some b, Some d => join_depth o (k b d) s2 l2
         | _, _ => 0
         end)
  end.
