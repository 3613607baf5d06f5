(** * Concrete closures and configurations used in the examples. *)
From Verif Require Export Closures Spec.

Lemma ltb_swo : strict_weak_order Nat.ltb.
Proof.
  split.
  - intros x. apply Nat.ltb_ge. lia.
  - intros x y z Hxy Hyz. apply Nat.ltb_lt in Hxy, Hyz. apply Nat.ltb_lt. lia.
  - intros x y z Hxy Hyz. apply Nat.ltb_ge in Hxy, Hyz. apply Nat.ltb_ge. lia.
Qed.

(** Reversed order of natural numbers. *)
Definition gtb (a b : nat) : bool := Nat.ltb b a.
Lemma gtb_swo : strict_weak_order gtb.
Proof.
  unfold gtb. split.
  - intros x. apply Nat.ltb_ge. lia.
  - intros x y z Hxy Hyz. apply Nat.ltb_lt in Hxy, Hyz. apply Nat.ltb_lt. lia.
  - intros x y z Hxy Hyz. apply Nat.ltb_ge in Hxy, Hyz. apply Nat.ltb_ge. lia.
Qed.

(** An order with many equal elements: compare the last decimal digit only. *)
Definition digit_cmp (a b : nat) : comparison := Nat.compare (Nat.modulo a 10) (Nat.modulo b 10).
Lemma digit_swo : strict_weak_order (is_lt digit_cmp).
Proof.
  assert (H : ∀ a b, is_lt digit_cmp a b = Nat.ltb (Nat.modulo a 10) (Nat.modulo b 10)).
  { intros a b. unfold is_lt, digit_cmp, Nat.ltb.
    destruct (Nat.compare_spec (Nat.modulo a 10) (Nat.modulo b 10)) as [E|E|E];
      symmetry; [apply Nat.leb_gt|apply Nat.leb_le|apply Nat.leb_gt]; lia. }
  split; intros *; rewrite !H; apply ltb_swo.
Qed.

Definition cfg_release64 : cfg := Cfg false false true false.
Definition cfg_debug64 : cfg := Cfg true true true false.
Definition cfg_debug32 : cfg := Cfg true true false false.

(** A comparator that ignores its arguments and counts its calls. *)
Definition silly (s : nat) (_ : nat * nat) : option comparison * nat :=
  (Some (match Nat.modulo s 3 with 0 => Lt | 1 => Eq | _ => Gt end), S s).
Lemma silly_no_panic : no_panic silly.
Proof. done. Qed.

(** Panics at the 40th call. *)
Definition bomb (s : nat) (q : nat * nat) : option comparison * nat :=
  (match s with 40 => None | _ => Some (Nat.compare q.1 q.2) end, S s).

(** Does this run start two tasks in parallel? *)
Fixpoint forks {T Q R S A} (o : S → Q → R * S) (p : prog T Q R A) (s : S) (l : list T) : bool :=
  match p with
  | Ret _ | Throw _ | Undef | NoFuel => false
  | Read i k => match l !! i with Some x => forks o (k x) s l | None => false end
  | Write i x k => if decide (i < length l) then forks o k s (<[i:=x]> l) else false
  | Ask q k => let '(r, s') := o s q in forks o (k r) s' l
  | Par _ _ _ => true
  end.
