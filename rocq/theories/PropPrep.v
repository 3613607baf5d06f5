(** * C40, C41: sorting then searching; preparing indices for select_many. *)
From Verif Require Import TPrep.
From stdpp Require Import list.

(** C40.  [cmp] is [Ord::cmp], [is_lt cmp] its [<], [is_le cmp] its [<=], [eqf] the
    [==] that agrees with it. *)
Theorem sort_then_search :
  ∀ (T : Type) (c : cfg) (cmp : T → T → comparison) (eqf : T → T → bool) (x : T) (l : list T),
  ord_compare cmp → (∀ a b, eqf a b = true ↔ cmp a b = Eq) →
  (zst c = true → ∀ x y : T, x = y) →
  ∀ p, p = MApi.sort c (length l) ∨ p = sort_unstable c (length l) →
  ∃ l', run (pure_less (is_lt cmp)) p tt l = (Done tt, tt, l') ∧
  run (pure_less (is_le cmp)) (is_sorted_by (length l')) tt l' = (Done true, tt, l') ∧
  ∃ r b, run (pure_compare cmp) (binary_search c (length l') x) tt l' = (Done r, tt, l') ∧
    run (pure_less eqf) (contains (length l) x) tt l = (Done b, tt, l) ∧
    match r with
    | Found i => b = true ∧ ∃ y, l' !! i = Some y ∧ eqf y x = true
    | Missing _ => b = false
    end.
Proof. exact @sort_then_search_lemma. Qed.
Print Assumptions sort_then_search.

Example sort_then_search_example :
  ord_compare Nat.compare ∧ (∀ a b, Nat.eqb a b = true ↔ Nat.compare a b = Eq) ∧
  run (pure_less (is_lt Nat.compare)) (sort_unstable cfg_debug64 6) tt [5; 1; 4; 1; 9; 2] =
    (Done tt, tt, [1; 1; 2; 4; 5; 9]) ∧
  run (pure_compare Nat.compare) (binary_search cfg_debug64 6 4) tt [1; 1; 2; 4; 5; 9] =
    (Done (Found 3), tt, [1; 1; 2; 4; 5; 9]) ∧
  run (pure_less Nat.eqb) (contains 6 4) tt [5; 1; 4; 1; 9; 2] =
    (Done true, tt, [5; 1; 4; 1; 9; 2]).
Proof.
  split; [exact nat_ord_compare|].
  split; [intros a b; rewrite Nat.eqb_eq; apply iff_sym, Nat.compare_eq_iff|].
  vm_compute. repeat split.
Qed.

(** C41.  The indices are sorted with [sort_unstable] and stripped of repetitions
    with [partition_dedup]; the first view it returns is given to select_many.
    [ci] is the build configuration for [usize] elements, [c] the one for the
    elements of the array. *)
Theorem prepared_indices_are_accepted :
  ∀ (T S : Type) (ci c : cfg) (o : S → T * T → option comparison * S) (s : S)
    (inds : list nat) (l : list T),
  zst ci = false → dbg c = false → fits c (length l) →
  Forall (λ i, i < length l) inds → no_panic o →
  ∃ inds1 v1 v2 inds2 s' l',
    run (pure_less Nat.ltb) (sort_unstable ci (length inds)) tt inds = (Done tt, tt, inds1) ∧
    run (pure_less Nat.eqb) (partition_dedup (length inds1)) tt inds1 =
      (Done (v1, v2), tt, inds2) ∧
    NoDup (view_elems inds2 v1) ∧ (∀ i, i ∈ view_elems inds2 v1 ↔ i ∈ inds) ∧
    run o (select_many_nth_unstable_by c (length l) (view_elems inds2 v1)) s l =
      (Done (map (λ i, (i, i)) (view_elems inds2 v1)), s', l') ∧
    Permutation l l'.
Proof. exact @prepared_indices_accepted. Qed.
Print Assumptions prepared_indices_are_accepted.

Example prepared_indices_example :
  zst cfg_debug64 = false ∧ dbg cfg_release64 = false ∧
  Forall (λ i, i < length [7; 7; 1; 5]) [3; 0; 3; 2] ∧ no_panic (pure_compare Nat.compare) ∧
  run (pure_less Nat.ltb) (sort_unstable cfg_debug64 4) tt [3; 0; 3; 2] =
    (Done tt, tt, [0; 2; 3; 3]) ∧
  run (pure_less Nat.eqb) (partition_dedup 4) tt [0; 2; 3; 3] =
    (Done ((0, 3), (3, 1)), tt, [0; 2; 3; 3]) ∧
  run (pure_compare Nat.compare) (select_many_nth_unstable_by cfg_release64 4 [0; 2; 3]) tt [7; 7; 1; 5]
    = (Done [(0, 0); (2, 2); (3, 3)], tt, [1; 5; 7; 7]).
Proof.
  split; [done|]. split; [done|]. split; [repeat constructor; simpl; lia|].
  split; [by intros [] []|]. vm_compute. repeat split.
Qed.
