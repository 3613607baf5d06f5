(** * TDebug: lengths for which the selection needs no fallback.

    On at most 27 elements, and whatever the closure answers, the loop of the selection reaches the insertion sort
    before its limit is used up, so the [debug_assert!] of [median_of_medians] is
    never evaluated. *)
From Verif Require Export TSelect.
From stdpp Require Import list.

Section small.
  Context {T : Type} (c : cfg) (ans : T * T → option bool → Prop).
  Implicit Types (l : list T).
  Notation user := (λ (e : exn) (_ : list T), e = UserPanic).

  Lemma upanic_user l0 e l : upanic ans l0 e l → user e l.
  Proof. unfold upanic. naive_solver. Qed.

  Definition near (n limit : nat) (wb : bool) : Prop :=
    n ≤ 10 + limit ∨ wb = true ∧ limit ≠ 0 ∧ n ≤ 11 + limit.
  Lemma near_next n n' limit wb wb' :
    near n limit wb → 10 < n → limit ≠ 0 → n' < n → near n' (if wb then limit else limit - 1) wb'.
  Proof. intros [H|(-> & ? & ?)] ? ? ?; left; [destruct wb; lia|lia]. Qed.

  Lemma pai_loop_small fuel n index pred limit wb l :
    n = length l → n < fuel → index < n → near n limit wb →
    wp ans (pai_loop c fuel n index pred limit wb) (λ _ _, True) user l.
  Proof.
    intros Hn Hf Hi. revert n index pred limit wb l Hn Hf Hi.
    induction fuel as [|f IH]; intros n index pred limit wb l Hn Hf Hi Hnear; [lia|].
    cbn [pai_loop]. unfold SEL_MAX_INSERTION.
    destruct (Nat.leb_spec n 10).
    { destruct (Nat.eqb_spec n 0); [lia|]. cbn [negb].
      wp_apply (insertion_sort_shift_left_spec c ans n 1 l); [done|lia|done|].
      intros e l' _. apply upanic_user. }
    destruct (Nat.eqb_spec limit 0) as [->|Hl0].
    { destruct Hnear as [|(_ & ? & _)]; lia. }
    apply wp_bind.
    eapply (wp_mono _ _ (λ r l', l' ≡ₚ l ∧ r = if wb then limit else limit - 1) _ user); [| |by auto].
    { destruct wb; [by apply wp_ret|]. apply wp_bind.
      wp_apply (break_patterns_spec ans c n l user); [done| |by auto].
      intros [] l' _ Hp. apply wp_usub; [lia|done]. }
    intros limit' l1 Hl1 [Hp1 ->].
    apply wp_bind. wp_apply (choose_pivot_spec ans n l1); [lia|lia| |].
    2: { intros e l' _. apply upanic_user. }
    intros [pivot likely] l2 Hl2 [Hp2 Hpiv].
    destruct (lookup_lt_is_Some_2 l2 pivot) as [p Hp]; [lia|].
    apply wp_bind.
    eapply (wp_mono _ _ (λ b l', l' = l2) _ user); [| |by auto].
    { destruct pred as [q|]; [|by apply wp_ret].
      apply wp_bind, wp_get; [lia|lia|]. intros x Hx.
      apply wp_bind, wp_is_less; [|done]. intros r Hr. by apply wp_ret. }
    intros eq l' _ ->. destruct eq.
    { apply wp_bind. wp_apply (partition_equal_spec ans n pivot l2 p); [lia|done| |].
      2: { intros e l' _. apply upanic_user. }
      intros mid l3 Hl3 (Hp3 & Hmid & Hmid0 & _).
      specialize (Hmid0 ltac:(lia)).
      destruct (Nat.ltb_spec index mid); [by apply wp_ret|].
      apply wp_bind, wp_usub; [done|].
      apply wp_slice; [lia|lia|lia|].
      eapply wp_mono; [apply IH; [rewrite sub_length; lia|lia|lia|]|done|done].
      eapply near_next; [exact Hnear|lia..]. }
    apply wp_bind. wp_apply (partition_spec c ans n pivot l2 p); [lia|done| |].
    2: { intros e l' _. apply upanic_user. }
    intros [mid was_p] l3 Hl3 (Hp3 & Hmp & _ & _).
    pose proof (lookup_lt_Some _ _ _ Hmp) as Hmid.
    apply wp_bind, wp_usub; [lia|].
    apply wp_bind, wp_slice; [lia|lia|lia|].
    apply wp_slice_check; [lia|lia|rewrite sub_length; lia|]. intros Hls.
    assert (Hwhole : take mid l3 ++ take (n - mid) (drop mid l3) ++ drop n l3 = l3).
    { rewrite (drop_ge l3 n) by lia. rewrite app_nil_r.
      rewrite (take_ge (drop mid l3)) by (rewrite drop_length; lia). by rewrite take_drop. }
    rewrite Hwhole. clear Hls Hwhole.
    apply wp_bind, wp_get; [lia|lia|]. intros p' Hp'.
    destruct (Nat.compare_spec mid index) as [->|Hmi|Hmi].
    - by apply wp_ret.
    - apply wp_bind, wp_usub; [lia|].
      apply wp_slice; [lia|lia|lia|].
      eapply wp_mono; [apply IH; [rewrite sub_length; lia|lia|lia|]|done|done].
      eapply near_next; [exact Hnear|lia..].
    - apply wp_slice; [lia|lia|lia|].
      eapply wp_mono; [apply IH; [rewrite sub_length; lia|lia|lia|]|done|done].
      eapply near_next; [exact Hnear|lia..].
  Qed.

  Lemma partition_at_index_small n index l :
    n = length l → index < n → n ≤ 27 ∨ index = 0 ∨ index = n - 1 →
    wp ans (partition_at_index c n index) (λ _ _, True) user l.
  Proof.
    intros Hn Hi Hs. unfold partition_at_index. destruct (Nat.leb_spec n index) as [Hni|Hni]; [lia|].
    apply wp_bind.
    eapply (wp_mono _ _ (λ _ _, True) _ user); [| |by auto].
    { destruct (zst c) eqn:Hz; [by apply wp_ret|].
      destruct (Nat.eqb_spec index (n - 1)).
      { wp_apply (max_select_spec ans n index l); [done|lia|done|done|].
        intros e' l' _. apply upanic_user. }
      destruct (Nat.eqb_spec index 0) as [->|].
      { wp_apply (min_select_spec ans n l); [done|lia|done|]. intros e' l' _. apply upanic_user. }
      apply pai_loop_small; [done|lia|done|]. unfold SEL_LIMIT. right. split; [done|]. lia. }
    intros [] l1 Hl1 _.
    unfold split_at, index0. simpl.
    rewrite (proj2 (Nat.leb_le index n)) by lia. apply wp_bind, wp_ret. simpl.
    rewrite (proj2 (Nat.leb_le 1 (n - index))) by lia. apply wp_bind, wp_ret. simpl.
    destruct (Nat.eqb_spec 1 0); [lia|]. by apply wp_bind, wp_ret, wp_ret.
  Qed.
End small.

Lemma select_nth_small {T S} (c : cfg) (o : S → T * T → option bool * S) s index (l : list T) :
  index < length l → length l ≤ 27 ∨ index = 0 ∨ index = length l - 1 →
  ∃ r s' l', run o (partition_at_index c (length l) index) s l = (r, s', l') ∧
    Permutation l l' ∧
    (r = Done ((0, index), index, (index + 1, length l - (index + 1))) ∨ r = Panicked UserPanic).
Proof.
  intros Hi Hs.
  pose proof (partition_at_index_small c ans_all (length l) index l eq_refl Hi Hs) as Hwp.
  apply (wp_run ans_all o _ ltac:(done) _ _ s) in Hwp.
  destruct (select_nth_all c o s index l Hi) as (r & s' & l' & Hr & Hp & Hc).
  rewrite Hr in Hwp. exists r, s', l'. split; [done|]. split; [done|].
  destruct Hc as [->|[->|[-> _]]]; [by left|by right|done].
Qed.
