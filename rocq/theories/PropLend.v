(** * C71: the references that [select_many_nth_unstable] passes to the collection. *)
From Verif Require Import TLend TLendPanic TLendSame Examples.
From Coq Require Import NArith.

(** [o] is the caller: its comparator and its collection answer anything, panic at any time,
    and change lent elements whenever they are called.  In [lend_run] an access to a lent
    element is undefined behaviour.  There is none; each index is lent at most once and in
    order, and except for what the caller did to lent elements all elements are still there. *)
Theorem select_many_nth_unstable_lends :
  ∀ (T S : Type) (c : cfg) (o : S → lend_question T → option bool * S * (nat → T → T)) (s : S)
    (inds : list nat) (l : list T),
  fits c (length l) →
  ∃ r s' out l', lend_run o (select_many_lend c (length l) inds) s [] l = (r, s', out, l') ∧
    Permutation l (untampered out l') ∧
    (∃ ks, ks `prefix_of` inds ∧ valid_indices 0 (length l) ks ∧
       map fst out = map (λ i, (i, i)) ks ∧ (r = Done tt → ks = inds)) ∧
    (r = Done tt ∨ r = Panicked UserPanic ∨ r = Panicked DebugPanic ∧ dbg c = true ∨
     (r = Panicked AssertPanic ∨ r = Panicked OverflowPanic ∧ ovf c = true) ∧
       ¬ valid_indices 0 (length l) inds).
Proof. exact @select_many_lend_all. Qed.
Print Assumptions select_many_nth_unstable_lends.

(** Each element is in its final place when it is lent, even if there is a panic afterwards.
    The comparator answers by a strict weak order or panics. *)
Theorem select_many_nth_unstable_lends_selected :
  ∀ (T S : Type) (c : cfg) (o : S → lend_question T → option bool * S * (nat → T → T))
    (lt : T → T → bool) (s : S) (inds : list nat) (l : list T),
  fits c (length l) → strict_weak_order lt → (zst c = true → ∀ x y : T, x = y) →
  (∀ s q, (o s (IsLess q)).1.1 = None ∨ (o s (IsLess q)).1.1 = Some (lt q.1 q.2)) →
  ∃ r s' out l', lend_run o (select_many_lend c (length l) inds) s [] l = (r, s', out, l') ∧
    Forall (λ '(i, p, x), p = i ∧ placed lt (untampered out l') i x ∧ order_statistic lt l i x) out.
Proof. exact @select_many_lend_selects. Qed.
Print Assumptions select_many_nth_unstable_lends_selected.

(** Valid indices are all lent, if the caller does not panic. *)
Theorem select_many_nth_unstable_lends_all :
  ∀ (T S : Type) (c : cfg) (o : S → lend_question T → option bool * S * (nat → T → T)) (s : S)
    (inds : list nat) (l : list T),
  dbg c = false → fits c (length l) → valid_indices 0 (length l) inds →
  (∀ s q, (o s q).1.1 ≠ None) →
  ∃ s' out l', lend_run o (select_many_lend c (length l) inds) s [] l = (Done tt, s', out, l') ∧
    map fst out = map (λ i, (i, i)) inds.
Proof. exact @select_many_lend_done. Qed.
Print Assumptions select_many_nth_unstable_lends_all.

(** A panic of the comparator or of the collection is their last call and leaves the
    selection.  [lend_logged] notes the calls and the answers. *)
Theorem select_many_nth_unstable_lends_panic_propagates :
  ∀ (T S : Type) (c : cfg) (o : S → lend_question T → option bool * S * (nat → T → T)) (s : S)
    (inds : list nat) (l : list T),
  dbg c = false → fits c (length l) → valid_indices 0 (length l) inds →
  ∃ r s' tr out l',
    lend_run (lend_logged o) (select_many_lend c (length l) inds) (s, []) [] l = (r, (s', tr), out, l') ∧
    (r = Done tt ∧ Forall (λ e, e.2 ≠ None) tr ∨
     r = Panicked UserPanic ∧ ∃ tr0 q, tr = tr0 ++ [(q, None)] ∧ Forall (λ e, e.2 ≠ None) tr0).
Proof. exact @select_many_lend_panics. Qed.
Print Assumptions select_many_nth_unstable_lends_panic_propagates.

(** With a collection that neither panics nor changes elements ([patient]) this is the
    selection of MSelect.v, of which the other theorems speak: it ends in the same way with the
    same array and caller, and it lends what the other one returns. *)
Theorem select_many_nth_unstable_lends_same_code :
  ∀ (T S : Type) (c : cfg) (o : S → T * T → option bool * S) (s : S) (inds : list nat) (l : list T),
  fits c (length l) →
  ∃ r s' out l', lend_run (patient o) (select_many_lend c (length l) inds) s [] l = (r, s', out, l') ∧
    (r = Done tt ∧ run o (select_many_nth_unstable c (length l) inds) s l = (Done (map fst out), s', l') ∨
     ∃ e, r = Panicked e ∧ run o (select_many_nth_unstable c (length l) inds) s l = (Panicked e, s', l')).
Proof. exact @select_many_lend_same. Qed.
Print Assumptions select_many_nth_unstable_lends_same_code.

(** A collection that adds 100 to every element it owns each time the comparator or itself is
    called (here it keeps the elements below 1000), and panics at its third element if
    [stop] is set. *)
Definition greedy (stop : bool) (s : nat) (q : lend_question nat) : option bool * nat * (nat → nat → nat) :=
  match q with
  | IsLess (a, b) => (Some (a <? b), s, λ _ x, (x + 100) mod 1000)
  | Extend _ _ => (if stop && (s =? 2) then None else Some true, S s, λ _ x, x + 100)
  end.
Example select_many_nth_unstable_lends_example :
  let l := [5; 1; 4; 4; 9; 0; 23; 7; 7; 2; 31; 6; 8; 3; 12] in
  fits cfg_release64 (length l) ∧ valid_indices 0 (length l) [0; 4; 5; 14] ∧
  strict_weak_order Nat.ltb ∧
  (∀ stop s q, (greedy stop s (IsLess q)).1.1 = Some (q.1 <? q.2)) ∧
  (∀ s q, (greedy false s q).1.1 ≠ None) ∧
  (let '(r, _, out, l') := lend_run (greedy false) (select_many_lend cfg_release64 (length l) [0; 4; 5; 14]) 0 [] l in
   r = Done tt ∧ out = [(0, 0, 0); (4, 4, 4); (5, 5, 4); (14, 14, 31)] ∧
   l' !! 14 = Some 131 ∧ l' !! 0 ≠ Some 0) ∧
  (let '(r, _, out, l') := lend_run (greedy true) (select_many_lend cfg_release64 (length l) [0; 4; 5; 14]) 0 [] l in
   r = Panicked UserPanic ∧ out = [(0, 0, 0); (4, 4, 4); (5, 5, 4)]).
Proof.
  split; [done|]. split; [split; repeat constructor; unfold Nat.lt; simpl; lia|].
  split; [exact ltb_swo|]. split; [by intros stop s [a b]|]. split; [by intros s [[a b]|i p]|].
  split; vm_compute; repeat split; done.
Qed.

(** Lent elements are out of reach: a program that compares such an element is undefined. *)
Example lend_run_refuses :
  (lend_run (greedy false) (bind (extend 0 0) (λ _, Read 0 (λ _ : nat, Ret tt))) 0 [] [5; 1]).1.1.1 = Undefined ∧
  (lend_run (greedy false) (bind (extend 0 0) (λ _, Read 1 (λ _ : nat, Ret tt))) 0 [] [5; 1]).1.1.1 = Done tt ∧
  (lend_run (greedy false) (bind (extend 0 0) (λ _, extend (T:=nat) 1 0)) 0 [] [5; 1]).1.1.1 = Undefined.
Proof. vm_compute. done. Qed.

(** The log of the run in which the collection panics at its third element. *)
Example select_many_nth_unstable_lends_panic_example :
  let l := [5; 1; 4; 4; 9; 0; 23; 7; 7; 2; 31; 6; 8; 3; 12] in
  let '(r, (_, tr), _, _) :=
    lend_run (lend_logged (greedy true)) (select_many_lend cfg_release64 (length l) [0; 4; 5; 14]) (0, []) [] l in
  r = Panicked UserPanic ∧ 20 < length tr ∧ last tr = Some (Extend 5 5, None) ∧
  filter (λ e, e.2 = None) tr = [(Extend 5 5, None)].
Proof. vm_compute. repeat split; lia. Qed.

(** A caller that counts its comparisons. *)
Example select_many_nth_unstable_lends_same_example :
  let o := λ s (q : nat * nat), (Some (q.1 <? q.2), S s) in
  let l := [5; 1; 4; 4; 9; 0; 23; 7; 7; 2; 31; 6; 8; 3; 12] in
  let '(r, s, out, l') := lend_run (patient o) (select_many_lend cfg_release64 (length l) [0; 4; 5; 14]) 0 [] l in
  r = Done tt ∧ 20 < s ∧ map fst out = [(0, 0); (4, 4); (5, 5); (14, 14)] ∧
  run o (select_many_nth_unstable cfg_release64 (length l) [0; 4; 5; 14]) 0 l = (Done (map fst out), s, l').
Proof. vm_compute. repeat split; lia. Qed.
