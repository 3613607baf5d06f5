(** * Proofs of the theorems of PropSelect.v, PropSort.v and PropSortUnstable.v that
    are about the [_by] functions. *)
From Verif Require Export TSelect TDebug TDebugPos TSort TSortUnstable.


Lemma select_nth_unstable_by_selects_proof :
  ∀ (T : Type) (c : cfg) (cmp : T → T → comparison) (index : nat) (l : list T),
  dbg c = false → index < length l →
  strict_weak_order (is_lt cmp) → (zst c = true → ∀ x y : T, x = y) →
  ∃ l' x, run (pure_compare cmp) (select_nth_unstable_by c (length l) index) tt l =
      (Done ((0, index), index, (index + 1, length l - (index + 1))), tt, l') ∧
    Permutation l l' ∧ placed (is_lt cmp) l' index x ∧ order_statistic (is_lt cmp) l index x.
Proof.
  intros T c cmp index l. unfold select_nth_unstable_by. rewrite run_by_pure_compare.
  apply select_nth_selects.
Qed.

Lemma select_nth_unstable_by_debug_partial_proof :
  ∀ (T S : Type) (c : cfg) (o : S → T * T → option comparison * S) (s : S) (index : nat) (l : list T),
  index < length l → length l ≤ 27 ∨ index = 0 ∨ index = length l - 1 →
  ∃ r s' l', run o (select_nth_unstable_by c (length l) index) s l = (r, s', l') ∧
    Permutation l l' ∧
    (r = Done ((0, index), index, (index + 1, length l - (index + 1))) ∨ r = Panicked UserPanic).
Proof.
  intros T S c o s index l Hi Hs. unfold select_nth_unstable_by. rewrite run_by_compare.
  by apply select_nth_small.
Qed.

Lemma select_nth_unstable_index_out_of_range_proof :
  ∀ (T S : Type) (c : cfg) (o : S → T * T → option comparison * S) (s : S) (index : nat) (l : list T),
  length l ≤ index →
  run o (select_nth_unstable_by c (length l) index) s l = (Panicked AssertPanic, s, l).
Proof.
  intros T S c o s index l Hi. unfold select_nth_unstable_by. rewrite run_by_compare.
  by apply select_nth_out_of_range.
Qed.

Lemma select_nth_unstable_index_in_range_proof :
  ∀ (T S : Type) (c : cfg) (o : S → T * T → option comparison * S) (s : S) (index : nat) (l : list T),
  dbg c = false → index < length l → no_panic o →
  ∃ s' l', run o (select_nth_unstable_by c (length l) index) s l =
      (Done ((0, index), index, (index + 1, length l - (index + 1))), s', l') ∧
    Permutation l l'.
Proof.
  intros T S c o s index l Hd Hi Ho. unfold select_nth_unstable_by. rewrite run_by_compare.
  apply select_nth_any; auto using no_panic_less_of_compare.
Qed.

Lemma select_nth_unstable_any_comparator_proof :
  ∀ (T S : Type) (c : cfg) (o : S → T * T → option comparison * S) (s : S) (index : nat) (l : list T),
  index < length l →
  ∃ r s' l', run o (select_nth_unstable_by c (length l) index) s l = (r, s', l') ∧
    Permutation l l' ∧
    (r = Done ((0, index), index, (index + 1, length l - (index + 1))) ∨
     r = Panicked UserPanic ∨ r = Panicked DebugPanic ∧ dbg c = true).
Proof.
  intros T S c o s index l Hi. unfold select_nth_unstable_by. rewrite run_by_compare.
  by apply select_nth_all.
Qed.

Lemma select_many_nth_unstable_by_selects_proof :
  ∀ (T : Type) (c : cfg) (cmp : T → T → comparison) (inds : list nat) (l : list T),
  dbg c = false → fits c (length l) → valid_indices 0 (length l) inds →
  strict_weak_order (is_lt cmp) → (zst c = true → ∀ x y : T, x = y) →
  ∃ l', run (pure_compare cmp) (select_many_nth_unstable_by c (length l) inds) tt l =
      (Done (map (λ i, (i, i)) inds), tt, l') ∧
    Permutation l l' ∧
    Forall (λ i, ∃ x, placed (is_lt cmp) l' i x ∧ order_statistic (is_lt cmp) l i x) inds.
Proof.
  intros T c cmp inds l. unfold select_many_nth_unstable_by. rewrite run_by_pure_compare.
  apply select_many_selects.
Qed.

Lemma select_many_nth_unstable_rejects_proof :
  ∀ (T S : Type) (c : cfg) (o : S → T * T → option comparison * S) (s : S)
    (inds : list nat) (l : list T),
  fits c (length l) → ¬ valid_indices 0 (length l) inds →
  ∃ e s' l', run o (select_many_nth_unstable_by c (length l) inds) s l = (Panicked e, s', l') ∧
    Permutation l l'.
Proof.
  intros T S c o s inds l Hf Hv. unfold select_many_nth_unstable_by. rewrite run_by_compare.
  destruct (select_many_all c (less_of_compare o) s inds l Hf) as (r & s' & l' & Hr & Hp & Hcase).
  destruct Hcase as [[-> ?]|[->|[[-> ?]|[[->|[-> ?]] ?]]]]; [done|eauto..].
Qed.

Lemma select_many_nth_unstable_accepts_proof :
  ∀ (T S : Type) (c : cfg) (o : S → T * T → option comparison * S) (s : S)
    (inds : list nat) (l : list T),
  dbg c = false → fits c (length l) → valid_indices 0 (length l) inds → no_panic o →
  ∃ s' l', run o (select_many_nth_unstable_by c (length l) inds) s l =
      (Done (map (λ i, (i, i)) inds), s', l') ∧ Permutation l l'.
Proof.
  intros T S c o s inds l Hd Hf Hv Ho. unfold select_many_nth_unstable_by. rewrite run_by_compare.
  apply select_many_any; auto using no_panic_less_of_compare.
Qed.

Lemma select_many_nth_unstable_any_comparator_proof :
  ∀ (T S : Type) (c : cfg) (o : S → T * T → option comparison * S) (s : S)
    (inds : list nat) (l : list T),
  fits c (length l) →
  ∃ r s' l', run o (select_many_nth_unstable_by c (length l) inds) s l = (r, s', l') ∧
    Permutation l l' ∧
    match r with
    | Done refs => refs = map (λ i, (i, i)) inds ∧ NoDup (map snd refs) ∧
                   Forall (λ '(_, p), p < length l) refs
    | Panicked e => e = UserPanic ∨ e = DebugPanic ∧ dbg c = true ∨
                    ¬ valid_indices 0 (length l) inds ∧ (e = AssertPanic ∨ e = OverflowPanic)
    | _ => False
    end.
Proof.
  intros T S c o s inds l Hf. unfold select_many_nth_unstable_by. rewrite run_by_compare.
  destruct (select_many_all c (less_of_compare o) s inds l Hf) as (r & s' & l' & Hr & Hp & Hcase).
  exists r, s', l'. split; [done|]. split; [done|].
  destruct Hcase as [[-> Hv]|[->|[[-> ?]|[[->|[-> ?]] ?]]]]; auto.
  split; [done|]. destruct Hv as [Hs Hb]. split.
  - rewrite map_map. simpl. rewrite map_id. clear Hb Hr.
    induction Hs as [|i inds Hs IH Hi]; constructor; [|done].
    intros Hin. rewrite Forall_forall in Hi. specialize (Hi i (proj1 (elem_of_list_In _ _) Hin)). unfold Nat.lt in Hi. lia.
  - apply List.Forall_map. eapply (List.Forall_impl _ (P := λ i, 0 ≤ i < 0 + length l)); [|exact Hb]. intros i Hi. simpl in *. lia.
Qed.

Lemma sort_by_sorts_proof : ∀ (T : Type) (c : cfg) (cmp : T → T → comparison) (l : list T),
  strict_weak_order (is_lt cmp) → (zst c = true → ∀ x y : T, x = y) →
  ∃ l', run (pure_compare cmp) (sort_by c (length l)) tt l = (Done tt, tt, l') ∧
    Permutation l l' ∧ sorted_wrt (is_lt cmp) l' ∧ same_order_of_equals (is_lt cmp) l l'.
Proof.
  intros T c cmp l. unfold sort_by. rewrite run_by_pure_compare. apply stable_sort_sorts.
Qed.

Lemma sort_by_any_comparator_proof :
  ∀ (T S : Type) (c : cfg) (o : S → T * T → option comparison * S) (s : S) (l : list T),
  no_panic o →
  ∃ s' l', run o (sort_by c (length l)) s l = (Done tt, s', l') ∧ Permutation l l'.
Proof.
  intros T S c o s l Ho. unfold sort_by. rewrite run_by_compare.
  apply stable_sort_any. by apply no_panic_less_of_compare.
Qed.

Lemma sort_by_panic_safe_proof :
  ∀ (T S : Type) (c : cfg) (o : S → T * T → option comparison * S) (s : S) (l : list T),
  ∃ r s' l', run o (sort_by c (length l)) s l = (r, s', l') ∧
    (r = Done tt ∨ r = Panicked UserPanic) ∧ Permutation l l'.
Proof.
  intros T S c o s l. unfold sort_by. rewrite run_by_compare. apply stable_sort_all.
Qed.

Lemma sort_unstable_by_sorts_proof : ∀ (T : Type) (c : cfg) (cmp : T → T → comparison) (l : list T),
  strict_weak_order (is_lt cmp) → (zst c = true → ∀ x y : T, x = y) →
  ∃ l', run (pure_compare cmp) (sort_unstable_by c (length l)) tt l = (Done tt, tt, l') ∧
    Permutation l l' ∧ sorted_wrt (is_lt cmp) l'.
Proof.
  intros T c cmp l. unfold sort_unstable_by. rewrite run_by_pure_compare. apply quick_sort_sorts.
Qed.

Lemma sort_unstable_by_any_comparator_proof :
  ∀ (T S : Type) (c : cfg) (o : S → T * T → option comparison * S) (s : S) (l : list T),
  no_panic o →
  ∃ s' l', run o (sort_unstable_by c (length l)) s l = (Done tt, s', l') ∧ Permutation l l'.
Proof.
  intros T S c o s l Ho. unfold sort_unstable_by. rewrite run_by_compare.
  apply quick_sort_any. by apply no_panic_less_of_compare.
Qed.

Lemma sort_unstable_by_panic_safe_proof :
  ∀ (T S : Type) (c : cfg) (o : S → T * T → option comparison * S) (s : S) (l : list T),
  ∃ r s' l', run o (sort_unstable_by c (length l)) s l = (r, s', l') ∧
    (r = Done tt ∨ r = Panicked UserPanic) ∧ Permutation l l'.
Proof.
  intros T S c o s l. unfold sort_unstable_by. rewrite run_by_compare. apply quick_sort_all.
Qed.

Lemma sort_unstable_depth_proof :
  ∀ (T S : Type) (c : cfg) (o : S → T * T → option bool * S) (s : S) (l : list T) (depth fuel : nat),
  Nat.log2 (length l) + 2 ≤ depth → length l < fuel →
  (run o (qs_recurse c depth fuel (length l) None (bit_length (length l)) true true) s l).1.1
    ≠ Diverged.
Proof. intros *. apply quick_sort_depth. Qed.

Lemma sort_unstable_uses_depth_proof :
  ∀ (T : Type) (c : cfg) (n : nat), zst c = false → 0 < n →
  quick_sort (T:=T) c n =
    qs_recurse c (Nat.log2 n + 2) (S n) n None (bit_length n) true true.
Proof.
  intros T c n Hz Hn. unfold quick_sort. rewrite Hz. f_equal. unfold bit_length.
  destruct n; lia.
Qed.
