(** * Property C65: calls of the selections, whatever the closure answers. *)
From Verif Require Import CAny Calls Examples.

(** C65.  Any closure: it may contradict itself, keep a state and panic.  On an array of
    fewer than [8448 * 1024^d] elements the selection makes at most [300 n + 9 n^(3+d)]
    calls.  No polynomial in [n] alone would do for all arrays (C37). *)
Theorem select_nth_unstable_by_calls_any :
  ∀ (T S : Type) (c : cfg) (o : S → T * T → option comparison * S) (s : S) (l : list T)
    (index d : nat),
  (N.of_nat (length l) < 8448 * 1024 ^ N.of_nat d)%N →
  let '(_, (_, tr), _) := run (logged o) (select_nth_unstable_by c (length l) index) (s, []) l in
  length tr ≤ 300 * length l + 9 * length l ^ (3 + d).
Proof. exact @select_nth_unstable_by_any. Qed.
Print Assumptions select_nth_unstable_by_calls_any.

(** Arrays that fit into memory. *)
Theorem select_nth_unstable_by_calls_any_memory :
  ∀ (T S : Type) (c : cfg) (o : S → T * T → option comparison * S) (s : S) (l : list T) (index : nat),
  (N.of_nat (length l) < 2 ^ 63)%N →
  let '(_, (_, tr), _) := run (logged o) (select_nth_unstable_by c (length l) index) (s, []) l in
  length tr ≤ 300 * length l + 9 * length l ^ 8.
Proof. exact @select_nth_unstable_by_any_memory. Qed.
Print Assumptions select_nth_unstable_by_calls_any_memory.

(** Any list of [m] indices, valid or not. *)
Theorem select_many_nth_unstable_by_calls_any :
  ∀ (T S : Type) (c : cfg) (o : S → T * T → option comparison * S) (s : S) (l : list T)
    (indices : list nat) (d : nat),
  (N.of_nat (length l) < 8448 * 1024 ^ N.of_nat d)%N →
  let '(_, (_, tr), _) :=
    run (logged o) (select_many_nth_unstable_by c (length l) indices) (s, []) l in
  length tr ≤ (300 * length l + 9 * length l ^ (3 + d)) * (Nat.log2 (length indices) + 1).
Proof. exact @select_many_nth_unstable_by_any. Qed.
Print Assumptions select_many_nth_unstable_by_calls_any.

(** In every schedule, for any answers. *)
Theorem par_select_many_nth_unstable_by_calls_any :
  ∀ (T : Type) (c : cfg) (ans : T * T → option comparison → Prop) (l : list T) (vlen : nat)
    (indices : list nat) (d m : nat)
    (c' : prog T (T * T) (option comparison) (list (option nat)) * list T),
  (∀ q, ∃ r, ans q r) → (N.of_nat (length l) < 8448 * 1024 ^ N.of_nat d)%N →
  calls_made ans m (par_select_many_nth_unstable_by c (length l) vlen indices, l) c' →
  m ≤ (300 * length l + 9 * length l ^ (3 + d)) * (Nat.log2 (length indices) + 1).
Proof. exact @par_select_many_nth_unstable_by_any. Qed.
Print Assumptions par_select_many_nth_unstable_by_calls_any.

(** A closure that answers [Less], [Greater], [Less], … whatever it is asked, and one that
    always answers [Less]. *)
Example any_closure_example :
  let flip (b : bool) (_ : nat * nat) := (Some (if b then Lt else Gt), negb b) in
  let less (_ : unit) (_ : nat * nat) := (Some Lt, tt) in
  (N.of_nat (length (seq 0 60)) < 8448 * 1024 ^ N.of_nat 0)%N ∧
  (let '(_, (_, tr), _) := run (logged flip) (select_nth_unstable_by cfg_release64 60 30)
     (true, []) (seq 0 60) in length tr = 73) ∧
  (let '(_, (_, tr), _) := run (logged less) (select_nth_unstable_by cfg_release64 60 30)
     (tt, []) (seq 0 60) in length tr = 1769).
Proof. split; [reflexivity|]. split; vm_compute; reflexivity. Qed.
