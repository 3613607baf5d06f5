(** * C39-C41 with the parallel operations. *)
From Verif Require Import TParCompose Examples.

(** C39: one array [l'] is the result of all four stable sorts, of [par_sort]
    under every schedule. *)
Theorem all_stable_sorts_agree :
  ∀ (T : Type) (c : cfg) (S : Type) (sz : sizes) (take_item : nat → bool) (lt : T → T → bool)
    (o : S → ck_question T T → ck_answer T * S) (s : S) (l junk : list T),
  strict_weak_order lt → (zst c = true → ∀ x y : T, x = y) →
  cached_env lt id o → fits c (length l) → length junk = length l →
  ∃ l', run (pure_less lt) (MApi.sort c (length l)) tt l = (Done tt, tt, l') ∧
    (∃ s', run o (sort_by_cached_key c sz (length l)) s l = (Done tt, s', l')) ∧
    (∃ s', run o (par_sort_by_cached_key c sz (length l)) s l = (Done tt, s', l')) ∧
    every_schedule (ans_lt lt) (par_sort c take_item (length l)) (l ++ junk)
      (λ _ m, take (length l) m = l') (λ _ _, False).
Proof. exact @stable_sorts_agree. Qed.
Print Assumptions all_stable_sorts_agree.

Theorem unstable_sorts_agree :
  ∀ (T : Type) (c : cfg) (lt : T → T → bool) (l : list T),
  strict_weak_order lt → (zst c = true → ∀ x y : T, x = y) →
  (∀ x y, x ∈ l → y ∈ l → equivb lt x y = true → x = y) →
  ∃ l', run (pure_less lt) (MApi.sort c (length l)) tt l = (Done tt, tt, l') ∧
    run (pure_less lt) (sort_unstable c (length l)) tt l = (Done tt, tt, l') ∧
    every_schedule (ans_lt lt) (par_sort_unstable c (length l)) l
      (λ _ m, m = l') (λ _ _, False).
Proof. exact @par_unstable_agrees. Qed.
Print Assumptions unstable_sorts_agree.

Example sorts_agree_example :
  strict_weak_order Nat.ltb ∧ (zst cfg_debug64 = true → ∀ x y : nat, x = y) ∧
  cached_env Nat.ltb id (demo_env id) ∧ fits cfg_debug64 (length [3; 1; 2]) ∧
  length [7; 7; 7] = length [3; 1; 2] ∧
  (∀ x y, x ∈ [3; 1; 2] → y ∈ [3; 1; 2] → equivb Nat.ltb x y = true → x = y) ∧
  run (pure_less Nat.ltb) (MApi.sort cfg_debug64 3) tt [3; 1; 2] = (Done tt, tt, [1; 2; 3]) ∧
  run (pure_less Nat.ltb) (par_sort cfg_debug64 (λ _, true) 3) tt ([3; 1; 2] ++ [7; 7; 7]) =
    (Done tt, tt, [1; 2; 3; 7; 7; 7]).
Proof.
  split; [exact ltb_swo|]. split; [done|]. split; [apply demo_env_ok|]. split; [done|].
  split; [done|]. split.
  { intros x y _ _ H. unfold equivb in H. apply andb_true_iff in H as [H1 H2].
    apply negb_true_iff, Nat.ltb_ge in H1. apply negb_true_iff, Nat.ltb_ge in H2. lia. }
  vm_compute. split; reflexivity.
Qed.

(** C40: [searchable] spelled out. *)
Theorem par_sort_then_search :
  ∀ (T : Type) (c : cfg) (take_item : nat → bool) (cmp : T → T → comparison)
    (eqf : T → T → bool) (x : T) (l junk : list T),
  let searchable l' :=
    run (pure_less (is_le cmp)) (is_sorted_by (length l')) tt l' = (Done true, tt, l') ∧
    ∃ r b, run (pure_compare cmp) (binary_search c (length l') x) tt l' = (Done r, tt, l') ∧
      run (pure_less eqf) (contains (length l) x) tt l = (Done b, tt, l) ∧
      match r with
      | Found i => b = true ∧ ∃ y, l' !! i = Some y ∧ eqf y x = true
      | Missing _ => b = false
      end in
  ord_compare cmp → (∀ a b, eqf a b = true ↔ cmp a b = Eq) →
  (zst c = true → ∀ x y : T, x = y) → length junk = length l →
  every_schedule (ans_lt (is_lt cmp)) (par_sort c take_item (length l)) (l ++ junk)
    (λ _ m, searchable (take (length l) m)) (λ _ _, False) ∧
  every_schedule (ans_lt (is_lt cmp)) (par_sort_unstable c (length l)) l
    (λ _ l', searchable l') (λ _ _, False).
Proof. exact @par_sort_then_search_lemma. Qed.
Print Assumptions par_sort_then_search.

Example par_sort_then_search_example :
  ord_compare Nat.compare ∧ (∀ a b, Nat.eqb a b = true ↔ Nat.compare a b = Eq) ∧
  length [0; 0; 0; 0] = length [5; 1; 4; 1].
Proof.
  split; [exact nat_ord_compare|].
  split; [intros a b; rewrite Nat.eqb_eq; apply iff_sym, Nat.compare_eq_iff|done].
Qed.

(** C41. *)
Theorem prepared_indices_are_accepted_in_parallel :
  ∀ (T : Type) (ci c : cfg) (ans : T * T → option comparison → Prop) (vlen : nat)
    (inds : list nat) (l : list T),
  zst ci = false → dbg c = false → fits c (length l) →
  Forall (λ i, i < length l) inds → length inds ≤ vlen →
  (∀ q, ∃ r, ans q r) → (∀ q, ¬ ans q None) →
  ∃ inds1 v1 v2 inds2,
    run (pure_less Nat.ltb) (sort_unstable ci (length inds)) tt inds = (Done tt, tt, inds1) ∧
    run (pure_less Nat.eqb) (partition_dedup (length inds1)) tt inds1 =
      (Done (v1, v2), tt, inds2) ∧
    NoDup (view_elems inds2 v1) ∧ (∀ i, i ∈ view_elems inds2 v1 ↔ i ∈ inds) ∧
    every_schedule ans (par_select_many_nth_unstable_by c (length l) vlen (view_elems inds2 v1)) l
      (λ r l', r = map Some (view_elems inds2 v1) ∧ Permutation l l') (λ _ _, False).
Proof. exact @par_prepared_indices_accepted. Qed.
Print Assumptions prepared_indices_are_accepted_in_parallel.

Example prepared_indices_in_parallel_example :
  zst cfg_debug64 = false ∧ dbg cfg_release64 = false ∧ fits cfg_release64 4 ∧
  Forall (λ i, i < length [7; 7; 1; 5]) [3; 0; 3; 2] ∧
  (∀ q, ∃ r, ans_cmp Nat.compare q r) ∧ (∀ q, ¬ ans_cmp Nat.compare q None) ∧
  run (pure_compare Nat.compare) (par_select_many_nth_unstable_by cfg_release64 4 4 [0; 2; 3]) tt
    [7; 7; 1; 5] = (Done [Some 0; Some 2; Some 3], tt, [1; 5; 7; 7]).
Proof.
  split; [done|]. split; [done|]. split; [done|]. split; [repeat constructor; simpl; lia|].
  split; [intros q; by eexists|]. split; [done|]. vm_compute. reflexivity.
Qed.
