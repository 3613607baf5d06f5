(** * Proofs of the theorems of PropMemory.v. *)
From Verif Require Export MemorySpec RAlloc.
From stdpp Require Import list.

(** Memory of one kind in use. *)
Fixpoint used (k : block_kind) (hs : memory) : nat :=
  match hs with
  | [] => 0
  | (k', _, len) :: hs => (if decide (k' = k) then len else 0) + used k hs
  end.

Lemma used_free k hs kb p len hs' :
  free_block hs (kb, p, len) = Some hs' →
  used k hs = (if decide (kb = k) then len else 0) + used k hs'.
Proof.
  revert hs'. induction hs as [|[[k1 p1] len1] hs IH]; intros hs' H; cbn in H; [done|].
  case_decide as E; [by simplify_eq|].
  destruct (free_block hs (kb, p, len)) as [h|]; [|done]. injection H as <-.
  cbn. rewrite (IH h eq_refl). lia.
Qed.

Section memory.
  Context {T S A : Type} (c : cfg) (less : S → T * T → option bool * S).
  Context (al : A → block_kind → nat → option nat * A) (fr : A → block_kind → nat → nat → A).
  Context (left : A → block_kind → nat).
  Hypothesis Hlim : limited al fr left.

  Lemma stable_sort_in_memory s a (l : list T) :
    length l / 2 ≤ left a ElemBlock →
    16 `max` (6 * Nat.log2 (length l / 10) + 3) ≤ left a RunBlock →
    ∃ r s' l' a', run less (stable_sort c (length l)) s l = (r, s', l') ∧
      run (environment less al fr) (stable_sort_mem c (length l)) (Env s a (Some [])) l =
        (r, Env s' a' (Some []), l') ∧
      (r = Done tt ∨ r = Panicked UserPanic) ∧ Permutation l l' ∧
      ∀ k, left a k ≤ left a' k.
  Proof.
    intros He Hr.
    set (I := λ a' (hs : memory), ∀ k, left a k ≤ left a' k + used k hs).
    assert (I_null : ∀ a hs k len a', I a hs → al a k len = (None, a') → I a' hs).
    { intros a0 hs k len a' HI Hal k'. specialize (HI k').
      pose proof (limited_refuses _ _ _ Hlim a0 k len k') as H. rewrite Hal in H.
      specialize (H eq_refl). simpl in H. lia. }
    assert (I_alloc : ∀ a hs k len p a', I a hs → al a k len = (Some p, a') → I a' ((k, p, len) :: hs)).
    { intros a0 hs k len p a' HI Hal k'. specialize (HI k').
      pose proof (limited_costs _ _ _ Hlim a0 k len k') as H. rewrite Hal in H.
      simpl in *. case_decide; lia. }
    assert (I_free : ∀ a hs k p len hs', I a hs → free_block hs (k, p, len) = Some hs' → I (fr a k p len) hs').
    { intros a0 hs k p len hs' HI Hf k'. specialize (HI k').
      pose proof (limited_returns _ _ _ Hlim a0 k p len k') as H.
      rewrite (used_free k' _ _ _ _ _ Hf) in HI. case_decide; lia. }
    assert (HI0 : I a []) by (intros k; simpl; lia).
    destruct (stable_sort_sim c less al fr I I_null I_alloc I_free s a l HI0)
      as [(r & s' & l' & a' & H1 & H2)|[Hs _]].
    - right; right. intros a0 buf p cap HI H16 Hcap. apply (limited_grants _ _ _ Hlim).
      specialize (HI RunBlock). simpl in HI. lia.
    - destruct (stable_sort_all c less s l) as (r1 & s1 & l1 & Hr1 & Hc & Hp).
      rewrite H1 in Hr1. simplify_eq. exists r1, s1, l1, a'. split_and!; auto.
      pose proof (run_keeps_all less al fr I I_null I_alloc I_free _ _ _ _ _ _ _ _ _ _ HI0 H2) as HI.
      intros k. specialize (HI k). simpl in HI. lia.
    - destruct Hs. split.
      + intros a0 HI. apply (limited_grants _ _ _ Hlim). specialize (HI ElemBlock). simpl in HI. lia.
      + intros a0 buf HI. apply (limited_grants _ _ _ Hlim). specialize (HI RunBlock). simpl in HI. lia.
  Qed.
End memory.

(** Short arrays. *)
Lemma stable_sort_short {T S A} (c : cfg) (less : S → T * T → option bool * S)
    (al : A → block_kind → nat → option nat * A) (fr : A → block_kind → nat → nat → A) s a h (l : list T) :
  length l ≤ 20 →
  run (environment less al fr) (stable_sort_mem c (length l)) (Env s a h) l =
    let '(r, s', l') := run less (stable_sort c (length l)) s l in (r, Env s' a h, l').
Proof.
  intros Hl. unfold stable_sort_mem, stable_sort. destruct (zst c) eqn:Hz; [done|].
  unfold merge_sort_mem, merge_sort, MS_MAX_INSERTION.
  assert (Hd : dassert c (negb (zst c)) = Ret tt :> cmp_prog T unit).
  { unfold dassert. rewrite Hz. simpl. by rewrite andb_false_r. }
  rewrite Hd. change (lift (Ret tt)) with (Ret (T:=T) (Q:=mem_question T) (R:=mem_answer) tt).
  rewrite !run_bind. cbn [run]. rewrite (proj2 (Nat.leb_le _ _) Hl). apply run_lift.
Qed.

(** Longer ones. *)
Lemma stable_sort_asks_half {T S A} (c : cfg) (less : S → T * T → option bool * S)
    (al : A → block_kind → nat → option nat * A) (fr : A → block_kind → nat → nat → A) s a (l : list T) :
  20 < length l → zst c = false → (al a ElemBlock (length l / 2)).1 = None →
  run (environment less al fr) (stable_sort_mem c (length l)) (Env s a (Some [])) l =
    (Panicked AssertPanic, Env s (al a ElemBlock (length l / 2)).2 (Some []), l).
Proof.
  intros Hl Hz Hal. unfold stable_sort_mem. rewrite Hz.
  unfold merge_sort_mem, MS_MAX_INSERTION.
  assert (Hd : dassert c (negb (zst c)) = Ret tt :> cmp_prog T unit).
  { unfold dassert. rewrite Hz. simpl. by rewrite andb_false_r. }
  rewrite Hd. change (lift (Ret tt)) with (Ret (T:=T) (Q:=mem_question T) (R:=mem_answer) tt).
  rewrite !run_bind. cbn [run]. rewrite (proj2 (Nat.leb_gt _ _) Hl).
  rewrite run_bind. unfold alloc. cbn [run environment allocator_state closure_state blocks].
  destruct (al a ElemBlock (length l / 2)) as [[p|] a'] eqn:E; [done|]. reflexivity.
Qed.
